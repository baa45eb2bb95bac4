(** * Fillet: model of tcnc/geom/fillet.py, tcnc/cam/fillet.py and the parts of tcnc/geom/arc.py they
    use that are not in Geom.v (which_side_angle, intersect_arc, point_at_angle with segment=True).

    Simplifications: the functions return new segments; Python's _adjust_fillet_rotation_hints sets the
    hints of the two given segments in place, which has the same effect on the returned path because
    the segments are then replaced by copies carrying those hints. *)
From Coq Require Import ZArith NArith List Bool.
From Verif Require Import Num Geom Ellipse Gcode Cam Offset.
Import ListNotations.

Section Fillet.
  Context {N : NumOps} {E : Epsilon N}.
  Local Open Scope num_scope.

  (** ** arc.py *)
  (** which_side_angle (375-390) *)
  Definition awhich_side_angle (a : arc N) (ang : N) (inline : bool) : Z :=
    let v1 := padd (from_polar #1 (aend_tangent a)) (ap2 a) in
    let v2 := padd (from_polar #1 ang) (ap2 a) in
    which_side (Ln (ap2 a) v1) v2 inline.
  (** intersect_arc (586-611).  The two deletions amount to a filter of a list of at most two points. *)
  Definition intersect_arc (a b : arc N) (on_arc : bool) : res (list (pt N)) :=
    rmap (fun l => if on_arc then filter (fun q => point_on_arc a q && point_on_arc b q) l else l)
         (intersect_circle (center a) (radius a) (center b) (radius b)).
  (** point_at_angle with segment=True (480-510) *)
  Definition apoint_at_angle_seg (a : arc N) (ang : N) : option (pt N) :=
    if (ang <? #0) || (ang >? abs (sweep a)) then None else Some (apoint_at_angle a ang).

  (** ** geom/fillet.py *)
  (** fillet_line_line (179-211) *)
  Definition fillet_line_line (l1 l2 : line N) (r : N) : res (option (arc N)) :=
    let side := which_side l1 (p2 l2) false in
    let off := r * of_Z side in
    match intersection (loffset l1 off) (loffset l2 off) false false false with
    | None => Ok None
    | Some c =>
        rbind (lproj_point l1 c true) (fun fp1 =>
        rbind (lproj_point l2 c true) (fun fp2 =>
        Ok (if negb (peq fp1 fp2) && feq (pdist fp1 c) r && feq (pdist fp2 c) r
            then Some (arc_from_center fp1 fp2 c false) else None)))
    end.
  (** fillet_arc_arc (214-246) *)
  Definition fillet_arc_arc (a1 a2 : arc N) (r : N) : res (option (arc N)) :=
    let side := of_Z (awhich_side_angle a1 (astart_tangent a2) false) in
    let cw1 := if is_clockwise a1 then #1 else - #1 in
    let cw2 := if is_clockwise a2 then #1 else - #1 in
    rbind (aoffset a1 (r * side * cw1)) (fun o1 =>
    rbind (aoffset a2 (r * side * cw2)) (fun o2 =>
    rbind (intersect_arc o1 o2 true) (fun ix =>
    match ix with
    | [] => Ok None
    | c :: _ =>
        rbind (intersect_line a1 (Ln c (center a1)) true false) (fun ix1 =>
        rbind (intersect_line a2 (Ln c (center a2)) true false) (fun ix2 =>
        match ix1, ix2 with
        | q1 :: _, q2 :: _ => Ok (Some (arc_from_center q1 q2 c false))
        | _, _ => Ok None
        end))
    end))).
  (** fillet_line_arc (249-305).  float_eq of two points compares the length of their difference
      (P.__abs__, point.py 476-478). *)
  Definition fillet_line_arc (l : line N) (a : arc N) (r : N) : res (option (arc N)) :=
    let rev := pdist (ap2 a) (p1 l) <? EPS in
    let l := if rev then lreversed l else l in
    let a := if rev then areversed a else a in
    let side := which_side_angle l (astart_tangent a) false in
    let '(h, alpha1) :=
      if (Z.gtb side 0 && is_clockwise a) || (Z.ltb side 0 && negb (is_clockwise a))
      then (radius a + r, langle l + pi) else (radius a - r, langle l) in
    let l3 := loffset l (r * of_Z side) in
    rbind (lproj_point l3 (center a) false) (fun p5 =>
    let b := pdist p5 (center a) in
    let a2 := h * h - b * b in
    if a2 <? #0 then Ok None else
    let c := p2 (l_from_polar p5 (sqrt a2) alpha1) in
    let alpha2 := abs (angle2 (center a) (ap1 a) c) in
    rbind (lproj_point l c true) (fun fp1 =>
    Ok (match apoint_at_angle_seg a alpha2 with
        | None => None
        | Some fp2 =>
            if negb (peq fp1 fp2) && feq (pdist c fp1) (pdist c fp2)
            then Some (if rev then arc_from_center fp2 fp1 c false else arc_from_center fp1 fp2 c false)
            else None
        end))).
  (** create_fillet_arc (152-176) *)
  Definition create_fillet_arc (s1 s2 : seg N) (r : N) : res (option (arc N)) :=
    match s1, s2 with
    | SLine l1, SLine l2 => fillet_line_line l1 l2 r
    | SLine l, SArc a => fillet_line_arc l a r
    | SArc a, SLine l => fillet_line_arc l a r
    | SArc a1, SArc a2 => fillet_arc_arc a1 a2 r
    end.
  (** connect_fillet (123-149) *)
  Definition cut_first (s : seg N) (f : arc N) : seg N :=
    match s with
    | SLine l => SLine (Ln (p1 l) (ap1 f))
    | SArc a => SArc (mkarc (ap1 a) (ap1 f) (radius a) (sweep a - angle2 (center a) (ap1 f) (ap2 a)) (center a))
    end.
  Definition cut_second (f : arc N) (s : seg N) : seg N :=
    match s with
    | SLine l => SLine (Ln (ap2 f) (p2 l))
    | SArc a => SArc (mkarc (ap2 f) (ap2 a) (radius a) (sweep a - angle2 (center a) (ap1 a) (ap2 f)) (center a))
    end.
  Definition connect_fillet (s1 : seg N) (f : arc N) (s2 : seg N) : seg N * seg N * seg N :=
    (cut_first s1 f, SArc f, cut_second f s2).
  (** insert_fillet (100-120) *)
  Definition insert_fillet (r : N) (s1 s2 : seg N) : res (option (seg N * seg N * seg N)) :=
    rmap (option_map (fun f => connect_fillet s1 f s2)) (create_fillet_arc s1 s2 r).

  (** The loops of geom.fillet.fillet_path (26-62) and cam.fillet.fillet_path (20-63), which differ only
      in the function [mk] that makes one fillet. *)
  Section Loop.
    Context {A : Type} (first last : A -> pt N) (mk : A -> A -> res (option (A * A * A))).
    Fixpoint fillet_loop (s1 : A) (acc rest : list A) : res (list A) :=
      match rest with
      | [] => Ok (acc ++ [s1])
      | s2 :: r =>
          rbind (mk s1 s2) (fun o =>
          match o with
          | Some (a, f, b) => fillet_loop b (acc ++ [a; f]) r
          | None => fillet_loop s2 (acc ++ [s1]) r
          end)
      end.
    (** new_path[-1] = a; append(f); new_path[0] = b *)
    Definition close_with (l : list A) (a f b : A) : list A :=
      match removelast l ++ [a; f] with [] => [] | _ :: r => b :: r end.
    (** [closed]: path[0].p1 == path[-1].p2 of the list given. *)
    Definition fillet_close_end (s0 : A) (l : list A) : res (list A) :=
      match l with
      | [] => Ok l
      | h :: _ =>
          rbind (mk (List.last l s0) h) (fun o =>
          match o with Some (a, f, b) => Ok (close_with l a f b) | None => Ok l end)
      end.
    Definition fillet_path_gen (path : list A) (r : N) (fillet_close : bool) : res (list A) :=
      match path with
      | s0 :: _ :: _ =>
          if r <? EPS then Ok path else
          rbind (fillet_loop s0 [] (tl path)) (fun np =>
          rbind (if fillet_close && Nat.ltb 2 (length path) && peq (first s0) (last (List.last path s0))
                 then fillet_close_end s0 np else Ok np) (fun np =>
          Ok (if Nat.ltb (length path) (length np) then np else path)))
      | _ => Ok path
      end.
  End Loop.
  (** geom.fillet.fillet_path *)
  Definition geom_fillet_path (path : list (seg N)) (r : N) (fillet_close : bool) : res (list (seg N)) :=
    fillet_path_gen s_p1 s_p2 (insert_fillet r) path r fillet_close.
  (** fillet_polygon (65-97) *)
  Fixpoint polygon_loop (r : N) (s1 : seg N) (acc : list (seg N)) (rest : list (pt N)) : res (list (seg N)) :=
    match rest with
    | [] => Ok (acc ++ [s1])
    | p :: t =>
        let s2 := SLine (Ln (s_p2 s1) p) in
        rbind (insert_fillet r s1 s2) (fun o =>
        match o with
        | Some (a, f, b) => polygon_loop r b (acc ++ [a; f]) t
        | None => polygon_loop r s2 (acc ++ [s1]) t
        end)
    end.
  Definition fillet_polygon (poly : list (pt N)) (r : N) (fillet_close : bool) : res (list (seg N)) :=
    match poly with
    | a :: b :: t =>
        let s1 := SLine (Ln a b) in
        match t with
        | [] => Ok [s1]
        | _ =>
            rbind (polygon_loop r s1 [] t) (fun path =>
            match path with
            | h :: _ =>
                if fillet_close && Nat.ltb 2 (length path) && peq (s_p1 h) (s_p2 (List.last path s1))
                then fillet_close_end (insert_fillet r) s1 path else Ok path
            | [] => Raise IndexError
            end)
        end
    | _ => Ok []
    end.

  (** ** cam/fillet.py *)
  (** seg.mu(p): Line.mu (line.py 182-187) or Arc.mu (arc.py 392-406) *)
  Definition smu (s : seg N) (p : pt N) : res N := match s with SLine l => lmu l p | SArc a => amu a p end.
  (** _adjust_fillet_rotation_hints (106-131); seg_start_angle / seg_end_angle are the two getattr calls. *)
  Definition adjust_hints (s1 f s2 : cseg N) : res (cseg N * cseg N * cseg N) :=
    let a1 := seg_start_angle s1 in
    let a2 := seg_end_angle s1 in
    rbind (smu (geo s1) (c_p1 f)) (fun m =>
    let off := calc_rotation a1 a2 * (#1 - m) in
    let '(s1, f) := if negb (is_zero off) then (set_ea (a2 - off) s1, set_sa (a2 - off) f) else (s1, set_sa a2 f) in
    let b1 := seg_start_angle s2 in
    let b2 := seg_end_angle s2 in
    rbind (smu (geo s2) (c_p2 f)) (fun m =>
    let off := calc_rotation b1 b2 * m in
    let '(s2, f) := if negb (is_zero off) then (set_sa (b1 + off) s2, set_ea (b1 + off) f) else (s2, set_ea b1 f) in
    Ok (s1, f, s2))).
  (** _copy_segment_attrs (134-138): only the attributes whose names start with inline_ *)
  Definition copy_attrs (from : cseg N) (g : seg N) : cseg N :=
    mkseg g (inline_z from) (inline_sa from) (inline_ea from) (inline_ignore_a from) false false.
  (** create_adjusted_fillet (66-103) *)
  Definition create_adjusted_fillet (r : N) (adjust mark : bool) (s1 s2 : cseg N)
    : res (option (cseg N * cseg N * cseg N)) :=
    if segments_are_g1 (geo s1) (geo s2) EPS then Ok None else
    rbind (create_fillet_arc (geo s1) (geo s2) r) (fun o =>
    match o with
    | None => Ok None
    | Some fa =>
        let f := mkseg (SArc fa) None None None false mark false in
        rbind (if adjust then adjust_hints s1 f s2 else Ok (s1, f, s2)) (fun '(s1, f, s2) =>
        Ok (Some (copy_attrs s1 (cut_first (geo s1) fa), f, copy_attrs s2 (cut_second fa (geo s2)))))
    end).
  (** cam.fillet.fillet_path (20-63) *)
  Definition fillet_path (path : list (cseg N)) (r : N) (fillet_close adjust mark : bool) : res (list (cseg N)) :=
    fillet_path_gen c_p1 c_p2 (create_adjusted_fillet r adjust mark) path r fillet_close.
End Fillet.
