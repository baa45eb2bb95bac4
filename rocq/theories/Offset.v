(** * Offset: model of tcnc/cam/offset.py (tool trail compensation).

    Simplifications: the ToolpathException for segments that are neither Line nor Arc has no
    counterpart, since a [seg] is one or the other.  The functions return new segments;
    Python's offset_path likewise only sets attributes on segments it created itself. *)
From Coq Require Import ZArith NArith List Bool.
From Verif Require Import Num Geom Bezier Gcode Cam.
Import ListNotations.

Section Offset.
  Context {N : NumOps} {E : Epsilon N}.
  Local Open Scope num_scope.
  Notation path := (list (cseg N)).

  (** Attribute assignments on a segment. *)
  Definition set_sa (a : N) (s : cseg N) : cseg N :=
    mkseg (geo s) (inline_z s) (Some a) (inline_ea s) (inline_ignore_a s) (ignore_g1 s) (g1 s).
  Definition set_ea (a : N) (s : cseg N) : cseg N :=
    mkseg (geo s) (inline_z s) (inline_sa s) (Some a) (inline_ignore_a s) (ignore_g1 s) (g1 s).
  Definition set_g1 (s : cseg N) : cseg N :=
    mkseg (geo s) (inline_z s) (inline_sa s) (inline_ea s) (inline_ignore_a s) (ignore_g1 s) true.

  (** offset_arc (103-114) *)
  Definition offset_arc (a : arc N) (o : N) : cseg N :=
    let sa := astart_tangent a in
    let ea := aend_tangent a in
    let q1 := padd (ap1 a) (from_polar o sa) in
    let q2 := padd (ap2 a) (from_polar o ea) in
    set_ea ea (set_sa sa (plain (SArc (mkarc q1 q2 (hypot o (radius a)) (sweep a) (center a))))).
  (** The shifted segment (50-56). *)
  Definition offset_seg (s : cseg N) (o : N) : res (cseg N) :=
    match geo s with
    | SLine l => rmap (fun l' => plain (SLine l')) (shift l o)
    | SArc a => Ok (offset_arc a o)
    end.
  (** The connecting segment (60-85): [ps], [s] are the original segments, [po], [os] their offsets. *)
  Definition connector (o min_arc g1tol : N) (ps po s os : cseg N) : cseg N :=
    let d := pdist (c_p2 po) (c_p1 os) in
    let g :=
      if (d <? min_arc) || segments_are_g1 (geo po) (geo os) g1tol
      then SLine (Ln (c_p2 po) (c_p1 os))
      else let q1 := c_p2 po in let q2 := c_p1 os in
           SArc (mkarc q1 q2 o (angle2 (c_p2 ps) q1 q2) (c_p2 ps)) in
    set_ea (s_start_tangent (geo s)) (set_sa (s_end_tangent (geo ps)) (plain g)).
  (** The loop (45-94).  [prev] is (prev_seg, prev_offset_seg); the last element of the Python
      list offset_path is prev_offset_seg, so it is only appended to [acc] when the next
      segment has had its chance to set its g1 attribute. *)
  Fixpoint offset_loop (o min_arc g1tol : N) (prev : option (cseg N * cseg N)) (acc : path) (rest : path) : res path :=
    match rest with
    | [] => Ok (match prev with None => acc | Some (_, po) => acc ++ [po] end)
    | s :: r =>
        if peq (c_p1 s) (c_p2 s) then offset_loop o min_arc g1tol prev acc r else
        rbind (offset_seg s o) (fun os =>
        match prev with
        | None => offset_loop o min_arc g1tol (Some (s, os)) acc r
        | Some (ps, po) =>
            let acc' :=
              if negb (peq (c_p2 po) (c_p1 os)) then acc ++ [po; connector o min_arc g1tol ps po s os]
              else if segments_are_g1 (geo ps) (geo s) g1tol && negb (ignore_g1 ps) && negb (ignore_g1 s)
                   then acc ++ [set_g1 po] else acc ++ [po] in
            offset_loop o min_arc g1tol (Some (s, os)) acc' r
        end)
    end.
  (** offset_path (20-100).  [g1tol]: g1_tolerance, with None replaced by EPSILON as
      segments_are_g1 does.  An empty result raises IndexError at line 96. *)
  Definition offset_path (p : path) (o min_arc : N) (g1tol : option N) : res path :=
    if feq o #0 then Ok p else
    rbind (offset_loop o min_arc (dflt EPS g1tol) None [] p) (fun op =>
    match op, p with
    | f :: r, f0 :: _ => Ok (set_sa (pangle (psub (c_p1 f) (c_p1 f0))) f :: r)
    | _, _ => Raise IndexError
    end).

  (** smoothing_arcs (149-200).  The call at line 173 passes match_arcs as the fourth positional
      argument, which is [smoothness]: with match_arcs = True it is 1, and smoothing_curve's own
      match_arcs keeps its default True.  max_depth is 1 in both calls. *)
  Fixpoint spread_hints (a k : N) (l : list (seg N)) : path :=
    match l with
    | [] => []
    | s :: r => let b := a + s_length s * k in set_ea b (set_sa a (plain s)) :: spread_hints b k r
    end.
  Definition smoothing_arcs (s1 : cseg N) (s2 : option (cseg N)) (cp1 : pt N) (tol flat : N) : res (path * pt N) :=
    rbind (smoothing_curve (geo s1) (option_map geo s2) (Some cp1) #1 true) (fun '(curve, cp) =>
    rbind (biarc_approximation curve tol 1 flat) (fun segs =>
    match segs with
    | [] => Ok ([s1], c_p2 s1)
    | _ =>
        let len := fold_left (fun acc s => acc + s_length s) segs #0 in
        let a0 := seg_start_angle s1 in
        let sw := normalize_angle (seg_end_angle s1 - a0) #0 in
        rmap (fun k => (spread_hints a0 k segs, cp)) (pydiv sw len)
    end)).
  (** fix_G1_path (117-146) *)
  Fixpoint fix_loop (tol flat : N) (s1 : cseg N) (cp1 : pt N) (acc : path) (rest : path) : res path :=
    match rest with
    | [] =>
        if g1 s1 then rmap (fun '(arcs, _) => acc ++ arcs) (smoothing_arcs s1 None cp1 tol flat)
        else Ok (acc ++ [s1])
    | s2 :: r =>
        if g1 s1 then
          rbind (smoothing_arcs s1 (Some s2) cp1 tol flat) (fun '(arcs, cp) => fix_loop tol flat s2 cp (acc ++ arcs) r)
        else fix_loop tol flat s2 (c_p1 s2) (acc ++ [s1]) r
    end.
  Definition fix_G1_path (p : path) (tol flat : N) : res path :=
    match p with
    | [] | [_] => Ok p
    | s :: r => fix_loop tol flat s (c_p1 s) [] r
    end.
End Offset.
