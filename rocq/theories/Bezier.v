(** * Bezier: model of tcnc/geom/bezier.py.

    Generic in the number type.  [t1 + t2], [3 * v] on points are the componentwise
    operators of point.py (405-459).  Not modelled: curvature_at (math.pow), the string
    renderings, find_extrema_align, and the arc-length cache (length is a pure function of
    the curve and of the tolerance of its FIRST call; the model is that first call). *)
From Coq Require Import ZArith List Bool.
From Verif Require Import Num Geom Ellipse.
Import ListNotations.

(** CubicBezier (32-46, 64-82): p1, c1, c2, p2 *)
Record bez (N : NumOps) := Bz { z1 : pt N; k1 : pt N; k2 : pt N; z2 : pt N }.
Arguments Bz {N} _ _ _ _.
Arguments z1 {N} _. Arguments k1 {N} _. Arguments k2 {N} _. Arguments z2 {N} _.

Section Bezier.
  Context {N : NumOps} {E : Epsilon N}.
  Local Open Scope num_scope.

  (** from_quadratic (47-62): the divisor 3 is never zero *)
  Definition pdiv3 (a : pt N) : pt N := P (px a / #3) (py a / #3).
  Definition from_quadratic (q1 q2 q3 : pt N) : bez N :=
    Bz q1 (padd q1 (pdiv3 (pmul (psub q2 q1) #2))) (padd q3 (pdiv3 (pmul (psub q2 q3) #2))) q3.
  (** transform (84-88) *)
  Definition ztransform (b : bez N) (m : mat N) : bez N :=
    Bz (apply m (z1 b)) (apply m (k1 b)) (apply m (k2 b)) (apply m (z2 b)).
  (** point_at (105-128) *)
  Definition zpoint_at (b : bez N) (t : N) : pt N :=
    if is_zero t then z1 b
    else if feq t #1 then z2 b
    else
      let t2 := t * t in let mt := #1 - t in let mt2 := mt * mt in
      padd (padd (padd (pmul (pmul (z1 b) mt2) mt) (pmul (pmul (pmul (k1 b) #3) t) mt2))
                 (pmul (pmul (pmul (k2 b) #3) t2) mt)) (pmul (pmul (z2 b) t2) t).
  (** derivative1 (433-447) *)
  Definition derivative1 (b : bez N) (t : N) : pt N :=
    let t2 := t * t in
    padd (padd (pmul (psub (k1 b) (z1 b)) (#3 * (t2 - (#2 * t) + #1)))
               (pmul (psub (k2 b) (k1 b)) (#6 * (t - t2))))
         (pmul (psub (z2 b) (k2 b)) (#3 * t2)).
  (** derivative2 (449-460) *)
  Definition derivative2 (b : bez N) (t : N) : pt N :=
    pmul (padd (padd (padd (pmul (z1 b) (#1 - t)) (pmul (k1 b) (#3 * t - #2)))
                     (pmul (k2 b) (#1 - #3 * t))) (pmul (z2 b) t)) #6.
  (** derivative3 (462-468) *)
  Definition derivative3 (b : bez N) : pt N :=
    padd (psub (padd (pmul (z1 b) (- #6)) (pmul (k1 b) #18)) (pmul (k2 b) #18)) (pmul (z2 b) #6).
  (** tangent (136-152), normal (154-157), start/end_tangent_angle (90-103) *)
  Definition ztangent (b : bez N) (t : N) : pt N :=
    punit (if is_zero t then
             (if peq (k1 b) (z1 b) then psub (k2 b) (z1 b) else psub (k1 b) (z1 b))
           else if feq t #1 then
             (if peq (k2 b) (z2 b) then pneg (psub (k1 b) (z2 b)) else pneg (psub (k2 b) (z2 b)))
           else derivative1 b t).
  Definition znormal (b : bez N) (t : N) : pt N := pnormal (ztangent b t) true.
  Definition zstart_tangent (b : bez N) : N := pangle (ztangent b #0).
  Definition zend_tangent (b : bez N) : N := pangle (ztangent b #1).
  (** flatness (159-173) *)
  Definition flatness (b : bez N) : res N :=
    if peq (z1 b) (k1 b) && peq (z2 b) (k2 b) then Ok #0 else
    let chord := Ln (z1 b) (z2 b) in
    rbind (ldist chord (k1 b) true) (fun d1 =>
    rbind (ldist chord (k2 b) true) (fun d2 => Ok (pymax d1 d2))).
  (** controlpoints_at (406-431) *)
  Definition controlpoints_at (b : bez N) (t : N) : pt N * pt N * pt N * pt N * pt N :=
    let mt := #1 - t in
    let mix a c := padd (pmul a mt) (pmul c t) in
    let d01 := mix (z1 b) (k1 b) in
    let d12 := mix (k1 b) (k2 b) in
    let d23 := mix (k2 b) (z2 b) in
    let d012 := mix d01 d12 in
    let d123 := mix d12 d23 in
    let d0123 := mix d012 d123 in
    (d01, d012, d0123, d123, d23).
  (** subdivide (175-188): (self, None) outside (0, 1) *)
  Definition zsubdivide (b : bez N) (t : N) : bez N * option (bez N) :=
    if (t <=? #0) || (t >=? #1) then (b, None) else
    let '(cp0, cp1, p, cp2, cp3) := controlpoints_at b t in
    (Bz (z1 b) cp0 cp1 p, Some (Bz p cp2 cp3 (z2 b))).
  (** find_inflections (226-302) *)
  Definition find_inflections (b : bez N) (imaginary : bool) : N * N :=
    let v1 := psub (k1 b) (z1 b) in
    if peq v1 (pneg (psub (k2 b) (z2 b))) then (lit 5 (-1), #0) else
    let v2 := psub (psub (k2 b) (k1 b)) v1 in
    let v3 := psub (psub (psub (z2 b) (k2 b)) v1) (pmul v2 #2) in
    let a := px v2 * py v3 - py v2 * px v3 in
    let bb := px v1 * py v3 - py v1 * px v3 in
    let c := px v1 * py v2 - py v1 * px v2 in
    let a2 := #2 * a in
    if abs a2 >? #0 then
      let dis := bb * bb - #4 * a * c in
      let disroot := sqrt (abs dis) in
      let clean r := if (r <? EPS) || (r >=? #1 - EPS) then #0 else r in
      let root1 := clean ((- bb - disroot) / a2) in
      let root2 := clean ((- bb + disroot) / a2) in
      if negb imaginary && (dis <? #0) && ((root1 =? #0) || (root2 =? #0)) then (#0, #0)
      else (root1, root2)
    else (#0, #0).
  (** subdivide_inflections (190-224): a list that may contain Python's None *)
  Definition both (p : bez N * option (bez N)) : list (option (bez N)) := [Some (fst p); snd p].
  Definition subdivide_inflections (b : bez N) : res (list (option (bez N))) :=
    let '(t1, t2) := find_inflections b false in
    if (t1 >? #0) && (t2 =? #0) then Ok (both (zsubdivide b t1))
    else if (t1 =? #0) && (t2 >? #0) then Ok (both (zsubdivide b t2))
    else if (t1 >? #0) && (t2 >? #0) then
      let t1 := if t1 >? t2 then t2 else t1 in
      match zsubdivide b t1 with
      | (c1, c2) =>
          let '(u1, u2) := find_inflections c1 true in
          let t := pymax u1 u2 in
          if t >? #0 then Ok (both (zsubdivide c1 t) ++ [c2])
          else match c2 with
               | None => Raise AttributeError          (* None.find_inflections *)
               | Some c2 =>
                   let '(u1, u2) := find_inflections c2 true in
                   let t := pymax u1 u2 in
                   if t >? #0 then Ok (Some c1 :: both (zsubdivide c2 t)) else Ok [Some c1; Some c2]
               end
      end
    else Ok [Some b].
  (** find_extrema (378-403) *)
  Definition find_extrema (b : bez N) : res (list N) :=
    let va := pmul (padd (psub (padd (pneg (z1 b)) (pmul (k1 b) #3)) (pmul (k2 b) #3)) (z2 b)) #3 in
    let vb := pmul (padd (psub (z1 b) (pmul (k1 b) #2)) (k2 b)) #6 in
    let vc := pmul (psub (k1 b) (z1 b)) #3 in
    let roots a bb c :=
      let disc := bb * bb - #4 * a * c in
      if disc >=? #0 then
        let s := sqrt disc in
        rbind (pydiv (- bb + s) (#2 * a)) (fun r1 =>
        rbind (pydiv (- bb - s) (#2 * a)) (fun r2 => Ok [r1; r2]))
      else Ok [] in
    rbind (roots (px va) (px vb) (px vc)) (fun lx =>
    rbind (roots (py va) (py vb) (py vc)) (fun ly =>
      Ok (filter (fun t => (t >? #0) && (t <? #1)) (lx ++ ly)))).
  (** find_extrema_points (342-376) *)
  Definition find_extrema_points (b : bez N) : res (list (pt N)) := rmap (map (zpoint_at b)) (find_extrema b).
  (** length (487-534); [fuel] is the remaining recursion depth *)
  Fixpoint zlength (fuel : nat) (b : bez N) (tol : N) : res N :=
    let L1 := pdist (z1 b) (k1 b) + pdist (k1 b) (k2 b) + pdist (k2 b) (z2 b) in
    let L0 := pdist (z1 b) (z2 b) in
    if L1 - L0 >? tol then
      match fuel with
      | O => Raise OutOfFuel
      | S f =>
          match zsubdivide b (lit 5 (-1)) with
          | (c1, Some c2) => rbind (zlength f c1 tol) (fun l1 => rbind (zlength f c2 tol) (fun l2 => Ok (l1 + l2)))
          | (_, None) => Raise AttributeError
          end
      end
    else Ok (lit 5 (-1) * L0 + lit 5 (-1) * L1).

  (** _biarc_joint_arc (653-687) *)
  Definition joint_arc (b : bez N) : option (arc N) :=
    let chord := Ln (z1 b) (z2 b) in
    let u1 := ztangent b #0 in
    let u2 := pneg (ztangent b #1) in
    let useg := Ln (padd (z1 b) u1) (padd (z2 b) (P (- px u2) (- py u2))) in
    match intersection (lbisector chord) (lbisector useg) false false false with
    | None => None
    | Some c =>
        let r := pdist c (z1 b) in
        let ang := angle2 c (z1 b) (z2 b) in
        let ang := if peq c (midpoint chord) then - ang else ang in
        Some (mkarc (z1 b) (z2 b) r ang c)
    end.
  (** _check_hausdorff (689-716), ndiv = 7: the loop runs while t < t2.  [fuel] bounds the number
      of iterations; over the reals 7 suffice. *)
  Fixpoint haus_loop (fuel : nat) (b : bez N) (a : arc N) (t step t2 tol : N) : res bool :=
    match fuel with
    | O => Raise OutOfFuel
    | S f =>
        if t <? t2 then
          rbind (adist a (zpoint_at b t) true) (fun d =>
            if d >? tol then Ok false else haus_loop f b a (t + step) step t2 tol)
        else Ok true
    end.
  Definition check_hausdorff (b : bez N) (a : arc N) (t1 t2 tol : N) : res bool :=
    let step := (t2 - t1) * (#1 / #7) in
    haus_loop 16 b a (t1 + step) step t2 tol.
  (** biarc_approximation (536-632) and _biarc_recurs_subdiv (634-651).  [depth] is _recurs_depth;
      [fuel] is a bound on the recursion depth (max_depth + 2 is enough, see [biarc_fuel]). *)
  Fixpoint biarc (fuel : nat) (b : bez N) (tol : N) (max_depth : nat) (line_flat : N) (depth : nat)
    : res (list (seg N)) :=
    match fuel with
    | O => Raise OutOfFuel
    | S f =>
        if peq (z1 b) (z2 b) then Ok [] else
        rbind (flatness b) (fun fl =>
        if fl <? line_flat then Ok [SLine (Ln (z1 b) (z2 b))] else
        let recurs (_ : unit) :=
          match zsubdivide b (lit 5 (-1)) with
          | (c1, Some c2) =>
              rbind (biarc f c1 tol max_depth line_flat (S depth)) (fun l1 =>
              rbind (biarc f c2 tol max_depth line_flat (S depth)) (fun l2 => Ok (l1 ++ l2)))
          | (_, None) => Raise AttributeError
          end in
        let direct (_ : unit) :=
          match joint_arc b with
          | None => Ok []
          | Some j =>
              if (radius j <? EPS) || (alen j <? EPS) then Ok [] else
              let p := zpoint_at b (lit 5 (-1)) in
              let v := psub p (center j) in
              rbind (pydiv (radius j) (plen v)) (fun k =>
              let pj := padd (pmul v k) (center j) in
              if Nat.ltb depth max_depth && (pdist pj p >? tol) then recurs tt else
              let c1 := if negb (peq (k1 b) (z1 b)) then k1 b else k2 b in
              let c2 := if negb (peq (k2 b) (z2 b)) then k2 b else k1 b in
              rbind (arc_from_tangent (z1 b) c1 pj false) (fun o1 =>
              rbind (arc_from_tangent (z2 b) c2 pj true) (fun o2 =>
              match o1, o2 with
              | Some a1, Some a2 =>
                  if negb (feq (aend_tangent a1) (astart_tangent a2)) then Raise ValueError (* assert *) else
                  rbind (if Nat.ltb depth max_depth then
                           rbind (check_hausdorff b a2 (lit 5 (-1)) #1 tol) (fun h2 =>
                           if negb h2 then Ok true else
                           rmap negb (check_hausdorff b a1 #0 (lit 5 (-1)) tol))
                         else Ok false)
                    (fun bad => if bad then recurs tt else Ok [SArc a1; SArc a2])
              | _, _ => Raise AttributeError               (* None.end_tangent_angle() *)
              end)))
          end in
        if Nat.eqb depth 0 then
          rbind (subdivide_inflections b) (fun cs =>
          if Nat.ltb 1 (length cs) then
            (fix go (l : list (option (bez N))) : res (list (seg N)) :=
               match l with
               | [] => Ok []
               | None :: _ => Raise AttributeError
               | Some c :: r =>
                   rbind (biarc f c tol max_depth line_flat (S depth)) (fun l1 =>
                   rbind (go r) (fun l2 => Ok (l1 ++ l2)))
               end) cs
          else direct tt)
        else direct tt)
    end.
  Definition biarc_approximation (b : bez N) (tol : N) (max_depth : nat) (line_flat : N) : res (list (seg N)) :=
    biarc (max_depth + 2) b tol max_depth line_flat 0.
  (** reversed (718-720) *)
  Definition zreversed (b : bez N) : bez N := Bz (z2 b) (k2 b) (z1 b) (k1 b).

  (** bezier_circle (743-771) *)
  Definition bezier_circle (c : pt N) (r : N) : list (bez N) :=
    let k := lit 5522847498308 (-13) * r in
    let o x y := padd (P x y) c in
    [Bz (o r #0) (o r k) (o k r) (o #0 r);
     Bz (o #0 r) (o (- k) r) (o (- r) k) (o (- r) #0);
     Bz (o (- r) #0) (o (- r) (- k)) (o (- k) (- r)) (o #0 (- r));
     Bz (o #0 (- r)) (o k (- r)) (o r (- k)) (o r #0)].
  (** bezier_circular_arc (774-797) *)
  Definition bezier_circular_arc (a : arc N) : bez N :=
    let alpha := #4 * tan (sweep a / #4) / #3 in
    let v1 := psub (ap1 a) (center a) in
    let v2 := psub (ap2 a) (center a) in
    Bz (ap1 a) (padd (ap1 a) (pmul (P (- py v1) (px v1)) alpha))
       (psub (ap2 a) (pmul (P (- py v2) (px v2)) alpha)) (ap2 a).
  (** bezier_elliptical_arc (828-854) *)
  Definition bezier_elliptical_arc (e : ellipse N) (t1 t2 : N) : bez N :=
    let sw := t2 - t1 in
    let n1 := tan (sw / #2) in
    let alpha := sin sw * (sqrt (#4 + (#3 * (n1 * n1))) - #1) / #3 in
    let q1 := epoint_at e t1 in
    let q2 := epoint_at e t2 in
    Bz q1 (padd q1 (pmul (ederivative1 e t1) alpha)) (psub q2 (pmul (ederivative1 e t2) alpha)) q2.
  (** bezier_ellipse (800-825): [start], [sw] are 0, 2*pi for an Ellipse.  [fuel] bounds the loop. *)
  Fixpoint ellipse_loop (fuel : nat) (e : ellipse N) (t1 t2 t_end : N) : res (list (bez N)) :=
    if t2 <=? t_end then
      match fuel with
      | O => Raise OutOfFuel
      | S f => rmap (cons (bezier_elliptical_arc e t1 t2)) (ellipse_loop f e t2 (t2 + pi / #2) t_end)
      end
    else Ok (if (t1 <? t_end) && (t2 >? t_end) then [bezier_elliptical_arc e t1 t_end] else []).
  Definition bezier_ellipse (fuel : nat) (e : ellipse N) (start sw : N) : res (list (bez N)) :=
    ellipse_loop fuel e start (start + pi / #2) (start + sw).

  (** bezier_sine_wave (857-927) *)
  Definition sine_quadrant : bez N :=
    Bz (P #0 #0) (P (lit 512286623256592433 (-18)) (lit 512286623256592433 (-18)))
       (P (lit 1002313685767898599 (-18)) #1) (P (pi / #2) #1).
  Definition sine_cycle (amp wl : N) : list (bez N) :=
    let q0 := ztransform sine_quadrant (mscale ((wl / #4) / (pi / #2)) (amp / #1) None) in
    let dx1 := px (z1 q0) - px (k1 q0) in
    let dx2 := px (z2 q0) - px (k2 q0) in
    let x2 := px (z2 q0) in
    let q1 := Bz (z2 q0) (P (x2 + dx2) (py (k2 q0))) (P (x2 * #2 + dx1) (py (k1 q0))) (P (x2 * #2) #0) in
    let q2 := Bz (z2 q1) (P (px (z2 q1) - dx1) (- py (k1 q0))) (P (x2 * #3 - dx2) (- py (k2 q0)))
                 (P (x2 * #3) (- py (z2 q0))) in
    let q3 := Bz (z2 q2) (P (px (z2 q2) + dx2) (- py (k2 q0))) (P (x2 * #4 + dx1) (- py (k1 q0)))
                 (P (x2 * #4) #0) in
    [q0; q1; q2; q3].
  Definition bezier_sine_wave (amp wl : N) (cycles : nat) (o : pt N) : list (bez N) :=
    flat_map (fun i =>
      let t := translate (wl * of_Z (Z.of_nat i) + px o) (py o) in
      map (fun q => ztransform q t) (sine_cycle amp wl)) (seq 0 cycles).

  (** smoothing_curve (930-1018); match_arcs is True as in every call of the repository except
      offset.py (where it is an argument).  cp1 = None is the same as cp1 = p1. *)
  Definition seg_midpoint (s : seg N) : pt N := match s with SLine l => midpoint l | SArc a => amidpoint a end.
  Definition smoothing_curve (s1 : seg N) (s2 : option (seg N)) (cp1 : option (pt N)) (smooth : N) (match_arcs : bool)
    : res (bez N * pt N) :=
    let K := lit 12 (-1) * smooth in
    let K_ARC := lit 5522847498308 (-13) in
    let q1 := s_p1 s1 in
    let q2 := s_p2 s1 in
    let cp1 := match cp1 with None => q1 | Some c => c end in
    match s2 with
    | None => Ok (from_quadratic q1 cp1 q2, q2)
    | Some s2 =>
        let len1 := s_length s1 in
        rbind (pydiv len1 (len1 + s_length s2)) (fun ratio =>
        let mid := Ln (seg_midpoint s1) (seg_midpoint s2) in
        let '(cp1, mag2) :=
          match s1, match_arcs with
          | SArc a, true =>
              let mag := radius a * tan (abs (sweep a) / #2) * K_ARC in
              let side := which_side (Ln q1 (s_p2 s2)) q2 false in
              if (is_clockwise a && Z.ltb side 0) || (negb (is_clockwise a) && Z.gtb side 0)
              then (padd q1 (pmul (psub cp1 q1) (lit 15 (-1))), mag * lit 5 (-1))
              else (cp1, mag)
          | _, _ => (cp1, ratio * llen mid * K)
          end in
        let mag1 :=
          match s2, match_arcs with
          | SArc a, true => radius a * tan (abs (sweep a) / #2) * K_ARC
          | _, _ => (#1 - ratio) * llen mid * K
          end in
        let ang := langle mid in
        let cp2 := padd q2 (from_polar mag2 (ang + pi)) in
        let next := padd q2 (from_polar mag1 ang) in
        let curve :=
          if peq cp1 q1 then
            match s1 with
            | SArc a => Bz q1 (k1 (bezier_circular_arc a)) cp2 q2
            | SLine _ => from_quadratic q1 cp2 q2
            end
          else Bz q1 cp1 cp2 q2 in
        Ok (curve, next))
    end.
  (** smooth_path (1021-1061), for lines and arcs.  None: the path is returned unchanged
      (fewer than two segments). *)
  Definition add_curve (c : bez N) (acc : list (bez N)) : list (bez N) :=
    if negb (peq (z1 c) (z2 c)) then acc ++ [c] else acc.
  Fixpoint smooth_loop (s1 : seg N) (cp : pt N) (rest : list (seg N)) (sm : N) (acc : list (bez N))
    : res (seg N * pt N * list (bez N)) :=
    match rest with
    | [] => Ok (s1, cp, acc)
    | s2 :: r =>
        rbind (smoothing_curve s1 (Some s2) (Some cp) sm true) (fun '(c, cp) =>
          smooth_loop s2 cp r sm (add_curve c acc))
    end.
  Definition smooth_path (path : list (seg N)) (sm : N) : res (option (list (bez N))) :=
    match path with
    | s0 :: s1 :: r =>
        rbind (smooth_loop s0 (s_p1 s0) (s1 :: r) sm []) (fun '(slast, cp, acc) =>
        if peq (s_p2 (last r s1)) (s_p1 s0) then
          rbind (smoothing_curve slast (Some s0) (Some cp) sm true) (fun '(c, cp) =>
          rbind (smoothing_curve s0 (Some s1) (Some cp) sm true) (fun '(c0, _) =>
          match acc with
          | [] => Raise IndexError
          | _ :: acc' => Ok (Some (add_curve c (c0 :: acc')))
          end))
        else
          rbind (smoothing_curve slast None (Some cp) sm true) (fun '(c, _) => Ok (Some (add_curve c acc))))
    | _ => Ok None
    end.
End Bezier.
