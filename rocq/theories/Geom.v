(** * Geom: model of tcnc/geom const.py, util.py, transform2d.py, point.py, line.py, box.py, arc.py.

    Generic in the number type.  EPSILON (const.py 36) is a settable global: here the
    class [Epsilon].  Simplifications: points are always pairs (the Python code also
    accepts any 2-sequence); functions that divide return [res] whenever the divisor can
    be zero (ZeroDivisionError); [assert] failures are [Raise ValueError]; logging is omitted. *)
From Coq Require Import ZArith NArith List Bool.
From Verif Require Import Num.
Import ListNotations.

Class Epsilon (N : NumOps) := EPS : N.

(** Points (point.py 21-53): a pair of floats. *)
Record pt (N : NumOps) := P { px : N; py : N }.
Arguments P {N} _ _.
Arguments px {N} _.
Arguments py {N} _.
(** Line (line.py 25-54) *)
Record line (N : NumOps) := Ln { p1 : pt N; p2 : pt N }.
Arguments Ln {N} _ _.
Arguments p1 {N} _.
Arguments p2 {N} _.
(** Box (box.py 22-74); [mkbox] below canonicalizes. *)
Record box (N : NumOps) := Bx { b1 : pt N; b2 : pt N }.
Arguments Bx {N} _ _.
Arguments b1 {N} _.
Arguments b2 {N} _.
(** Arc (arc.py 35-186) *)
Record arc (N : NumOps) := mkarc { ap1 : pt N; ap2 : pt N; radius : N; sweep : N; center : pt N }.
Arguments mkarc {N} _ _ _ _ _.
Arguments ap1 {N} _.
Arguments ap2 {N} _.
Arguments radius {N} _.
Arguments sweep {N} _.
Arguments center {N} _.
(** 2x3 matrices (transform2d.py): ((m00, m01, m02), (m10, m11, m12)) *)
Record mat (N : NumOps) := Mx { m00 : N; m01 : N; m02 : N; m10 : N; m11 : N; m12 : N }.
Arguments Mx {N} _ _ _ _ _ _.
Arguments m00 {N} _. Arguments m01 {N} _. Arguments m02 {N} _.
Arguments m10 {N} _. Arguments m11 {N} _. Arguments m12 {N} _.

Section Geom.
  Context {N : NumOps} {E : Epsilon N}.
  Local Open Scope num_scope.

  (** ** const.py *)
  (** TAU (line 33) *)
  Definition TAU : N := pi * #2.
  (** float_eq (76-98) *)
  Definition feq (a b : N) : bool := abs (a - b) <? EPS.
  (** is_zero (101-106) *)
  Definition is_zero (v : N) : bool := (- EPS <? v) && (v <? EPS).

  (** ** util.py *)
  (** normalize_angle (37-53) *)
  Definition normalize_angle (a c : N) : N := a - TAU * floor ((a + pi - c) / TAU).
  (** calc_rotation (56-76) *)
  Definition calc_rotation (s e : N) : N :=
    if feq s e then #0 else
    let s := normalize_angle s #0 in
    let e := normalize_angle e #0 in
    let r := e - s in
    if r <? - pi then r + TAU else if r >? pi then r - TAU else r.

  (** ** transform2d.py *)
  Definition IDENTITY : mat N := Mx #1 #0 #0 #0 #1 #0.                 (* 22 *)
  (** is_identity_transform (24-38) *)
  Definition is_identity (m : mat N) : bool :=
    (m00 m =? #1) && (m01 m =? #0) && (m02 m =? #0) && (m10 m =? #0) && (m11 m =? #1) && (m12 m =? #0).
  (** compose_transform (40-59) *)
  Definition compose (a b : mat N) : mat N :=
    Mx (m00 a * m00 b + m01 a * m10 b) (m00 a * m01 b + m01 a * m11 b) (m00 a * m02 b + m01 a * m12 b + m02 a)
       (m10 a * m00 b + m11 a * m10 b) (m10 a * m01 b + m11 a * m11 b) (m10 a * m02 b + m11 a * m12 b + m12 a).
  (** matrix_translate (77-87) *)
  Definition translate (x y : N) : mat N := Mx #1 #0 x #0 #1 y.
  (** matrix_rotate (61-75) *)
  Definition mrotate (a : N) (o : pt N) : mat N :=
    compose (Mx (cos a) (- sin a) (px o) (sin a) (cos a) (py o)) (translate (- px o) (- py o)).
  (** matrix_scale (89-105) *)
  Definition mscale (sx sy : N) (o : option (pt N)) : mat N :=
    let m := Mx sx #0 #0 #0 sy #0 in
    match o with
    | None => m
    | Some o => compose (translate (px o) (py o)) (compose m (translate (- px o) (- py o)))
    end.
  (** matrix_scale_translate (107-119) *)
  Definition mscale_translate (sx sy x y : N) : mat N := Mx sx #0 x #0 sy y.
  (** matrix_skew_x / matrix_skew_y (121-141) *)
  Definition skew_x (a : N) : mat N := Mx #1 (tan a) #0 #0 #1 #0.
  Definition skew_y (a : N) : mat N := Mx #1 #0 #0 (tan a) #1 #0.
  (** matrix_apply_to_point (143-146) *)
  Definition apply (m : mat N) (p : pt N) : pt N :=
    P (m00 m * px p + m01 m * py p + m02 m) (m10 m * px p + m11 m * py p + m12 m).
  (** canonicalize_point (148-163) *)
  Definition canonicalize (p o : pt N) (th : N) : pt N :=
    let q := apply (mrotate (- th) (P #0 #0)) p in P (px q - px o) (py q - py o).

  (** ** point.py *)
  (** from_polar (66-80) *)
  Definition from_polar (r a : N) : pt N := P (r * cos a) (r * sin a).
  (** __add__, __sub__ with a vector (405-437), with a scalar (same lines) *)
  Definition padd (a b : pt N) : pt N := P (px a + px b) (py a + py b).
  Definition psub (a b : pt N) : pt N := P (px a - px b) (py a - py b).
  Definition padds (a : pt N) (n : N) : pt N := P (px a + n) (py a + n).
  Definition psubs (a : pt N) (n : N) : pt N := P (px a - n) (py a - n).
  (** __neg__ (401-403), mirror (148-151) *)
  Definition pneg (a : pt N) : pt N := P (- px a) (- py a).
  (** __mul__ (441-451) *)
  Definition pmul (a : pt N) (k : N) : pt N := P (px a * k) (py a * k).
  (** __truediv__ (453-459) *)
  Definition pdiv (a : pt N) (k : N) : res (pt N) :=
    if k =? #0 then Raise ZeroDivisionError else Ok (P (px a / k) (py a / k)).
  (** length, length2 (109-120) *)
  Definition plen (a : pt N) : N := hypot (px a) (py a).
  Definition plen2 (a : pt N) : N := px a * px a + py a * py a.
  (** is_zero (88-90) *)
  Definition pis_zero (a : pt N) : bool := plen2 a <? EPS * EPS.
  (** almost_equal (92-107) *)
  Definition palmost (a b : pt N) (tol : N) : bool :=
    let dx := px a - px b in let dy := py a - py b in (dx * dx + dy * dy) <? tol * tol.
  (** __eq__ (376-387) *)
  Definition peq (a b : pt N) : bool := palmost a b EPS.
  (** __hash__ (488-522).  [fmt prec] is the decimal rounding of round(x, EPSILON_PRECISION)
      (Python 2 rounds exact ties away from zero, [fmt] to even); int() then truncates toward zero. *)
  Definition hash_coord (prec : nat) (x : N) : Z :=
    match fmt prec x with
    | DFin neg mag => let k := (Z.of_N mag / 10 ^ Z.of_nat prec)%Z in if neg then (- k)%Z else k
    | _ => 0%Z
    end.
  Definition phash (prec : nat) (p : pt N) : Z :=
    (Z.lxor (hash_coord prec (px p) * 73856093) (hash_coord prec (py p) * 83492791) mod 2147483647)%Z.
  (** unit (122-135) *)
  Definition punit (a : pt N) : pt N :=
    let l2 := plen2 a in
    if l2 >? EPS * EPS then let l := sqrt l2 in P (px a / l) (py a / l) else P #0 #0.
  (** normal (137-146) *)
  Definition pnormal (a : pt N) (left : bool) : pt N :=
    if left then P (- py a) (px a) else P (py a) (- px a).
  (** dot, cross (153-193) *)
  Definition dot (a b : pt N) : N := px a * px b + py a * py b.
  Definition cross (a b : pt N) : N := px a * py b - px b * py a.
  (** angle (195-201) *)
  Definition pangle (a : pt N) : N := atan2 (py a) (px a).
  (** to_polar (82-86) *)
  Definition to_polar (a : pt N) : N * N := (plen a, pangle a).
  (** angle2 (203-223) *)
  Definition angle2 (o a b : pt N) : N :=
    let v1 := psub a o in let v2 := psub b o in
    if peq v1 v2 then #0 else atan2 (cross v1 v2) (dot v1 v2).
  (** ccw_angle2 (225-236) *)
  Definition ccw_angle2 (o a b : pt N) : N := normalize_angle (angle2 o a b) pi.
  (** bisector (238-251) *)
  Definition pbisector (o a b : pt N) : pt N :=
    let a1 := pangle (psub a o) in let a2 := pangle (psub b o) in
    padd o (from_polar #1 ((a1 + a2) / #2)).
  (** distance, distance2 (253-270) *)
  Definition pdist (a b : pt N) : N := hypot (px a - px b) (py a - py b).
  Definition dist2 (a b : pt N) : N :=
    let x := px a - px b in let y := py a - py b in x * x + y * y.
  (** distance_to_line (272-296) *)
  Definition dist_to_line (o a b : pt N) : res N :=
    let v1 := psub b a in
    let l := plen v1 in
    if l <? EPS then Ok (pdist o a) else pydiv (cross v1 (psub a o)) l.
  (** normal_projection (314-326) *)
  Definition pproj (v p : pt N) : res N :=
    let l2 := plen2 v in
    if l2 <? EPS * EPS then Ok #0 else pydiv (dot p v) l2.
  (** inside_triangle2D (328-350) *)
  Definition inside_triangle (p a b c : pt N) : res bool :=
    let v1 := psub b a in let v2 := psub c a in let v3 := psub p a in
    let det := cross v1 v2 in
    if det =? #0 then Raise ZeroDivisionError else
    let s := cross v1 v3 / det in
    let t := cross v2 v3 / det in
    Ok ((s >=? #0) && (t >=? #0) && (s + t <=? #1)).
  (** orientation (352-365) *)
  Definition orientation (a b c : pt N) : N := cross (psub b a) (psub c a).
  (** transform, rotate (367-374) *)
  Definition ptransform (p : pt N) (m : mat N) : pt N := apply m p.
  Definition protate (p : pt N) (a : N) (o : pt N) : pt N := apply (mrotate a o) p.

  (** ** line.py *)
  Definition vec (l : line N) : pt N := psub (p2 l) (p1 l).
  (** from_polar (41-44) *)
  Definition l_from_polar (s : pt N) (len a : N) : line N := Ln s (padd s (from_polar len a)).
  (** length (56-58) *)
  Definition llen (l : line N) : N := plen (vec l).
  (** slope (60-66) *)
  Definition slope (l : line N) : res N :=
    let dx := px (p2 l) - px (p1 l) in
    let dy := py (p2 l) - py (p1 l) in
    if is_zero dy then Ok #0 else pydiv dy dx.
  (** slope_intercept (68-78) *)
  Definition slope_intercept (l : line N) : res (N * N) :=
    rmap (fun m => (m, m * (- px (p1 l)) + py (p1 l))) (slope l).
  (** angle, start_tangent_angle, end_tangent_angle (97-115) *)
  Definition langle (l : line N) : N := pangle (vec l).
  (** transform (121-126) *)
  Definition ltransform (l : line N) (m : mat N) : line N := Ln (apply m (p1 l)) (apply m (p2 l)).
  (** midpoint (128-134) *)
  Definition midpoint (l : line N) : pt N := pmul (padd (p1 l) (p2 l)) (lit 5 (-1)).
  (** bisector (136-148) *)
  Definition lbisector (l : line N) : line N :=
    let m := midpoint l in
    let a := psub (p1 l) m in let b := psub (p2 l) m in
    Ln (padd m (P (py a) (- px a))) (padd m (P (py b) (- px b))).
  (** offset (161-180) *)
  Definition loffset (l : line N) (d : N) : line N :=
    let len := llen l in
    if is_zero d || is_zero len then l else
    let u := d / len in
    let v1 := pmul (psub (p2 l) (p1 l)) u in
    let q1 := padd (pnormal v1 true) (p1 l) in
    let v2 := pmul (psub (p1 l) (p2 l)) u in
    let q2 := padd (pnormal v2 false) (p2 l) in
    Ln q1 q2.
  (** mu (182-187) *)
  Definition lmu (l : line N) (p : pt N) : res N := pydiv (pdist (p1 l) p) (llen l).
  (** point_at (203-214) *)
  Definition lpoint_at (l : line N) (mu : N) : pt N := padd (p1 l) (pmul (vec l) mu).
  (** subdivide (189-201) *)
  Definition lsubdivide (l : line N) (mu : N) : res (line N * line N) :=
    if (#0 <? mu) && (mu <? #1) then
      let p := lpoint_at l mu in Ok (Ln (p1 l) p, Ln p (p2 l))
    else Raise ValueError.
  (** normal_projection (216-233) *)
  Definition lproj (l : line N) (p : pt N) : res N :=
    if peq (p1 l) (p2 l) then Ok #0 else pproj (vec l) (psub p (p1 l)).
  (** normal_projection_point (235-252) *)
  Definition lproj_point (l : line N) (p : pt N) (segment : bool) : res (pt N) :=
    rmap (fun u =>
      if segment && (u <=? #0) then p1 l
      else if segment && (u >=? #1) then p2 l
      else padd (p1 l) (pmul (vec l) u)) (pproj (vec l) (psub p (p1 l))).
  (** distance_to_point (254-271) *)
  Definition ldist (l : line N) (p : pt N) (segment : bool) : res N :=
    rmap (fun q => pdist q p) (lproj_point l p segment).
  (** intersection_mu (273-324) *)
  Definition cross_terms (l o : line N) : N * N * N :=
    let x1 := px (p1 l) in let y1 := py (p1 l) in
    let x2 := px (p2 l) in let y2 := py (p2 l) in
    let x3 := px (p1 o) in let y3 := py (p1 o) in
    let x4 := px (p2 o) in let y4 := py (p2 o) in
    ((x4 - x3) * (y1 - y3) - (y4 - y3) * (x1 - x3),
     (x2 - x1) * (y1 - y3) - (y2 - y1) * (x1 - x3),
     (y4 - y3) * (x2 - x1) - (x4 - x3) * (y2 - y1)).
  Definition intersection_mu (l o : line N) (segment seg_a seg_b : bool) : option N :=
    let seg_a := segment || seg_a in
    let seg_b := segment || seg_b in
    let '(a, b, denom) := cross_terms l o in
    if abs denom <? EPS then None else
    let mu_a := a / denom in
    let mu_b := b / denom in
    let mu_min := - EPS in
    let mu_max := #1 + EPS in
    if (seg_a && ((mu_a <? mu_min) || (mu_a >? mu_max))) || (seg_b && ((mu_b <? mu_min) || (mu_b >? mu_max)))
    then None else Some mu_a.
  (** intersection (326-349) *)
  Definition intersection (l o : line N) (segment seg_a seg_b : bool) : option (pt N) :=
    match intersection_mu l o segment seg_a seg_b with
    | None => None
    | Some mu => Some (lpoint_at l mu)
    end.
  (** is_coincident (388-400) *)
  Definition is_coincident (l o : line N) (tol : N) : bool :=
    palmost (p1 l) (p1 o) tol && palmost (p2 l) (p2 o) tol.
  (** is_parallel (402-429) *)
  Definition is_parallel (l o : line N) (inline : bool) : bool :=
    let '(a, b, denom) := cross_terms l o in
    if abs denom <? EPS then (if inline then (abs a <? EPS) && (abs b <? EPS) else true) else false.
  (** extend (431-464) *)
  Definition extend (l : line N) (amount : N) (from_midpoint : bool) : res (line N) :=
    let len := llen l in
    let amount := if from_midpoint then amount / #2 else amount in
    rmap (fun k =>
      let d := pmul (vec l) k in
      if from_midpoint then Ln (psub (p1 l) d) (padd (p2 l) d) else Ln (p1 l) (padd (p2 l) d))
      (pydiv amount len).
  (** shift (466-478) *)
  Definition shift (l : line N) (amount : N) : res (line N) :=
    rmap (fun k => let d := pmul (vec l) k in Ln (padd (p1 l) d) (padd (p2 l) d)) (pydiv amount (llen l)).
  (** which_side (480-498) *)
  Definition which_side (l : line N) (p : pt N) (inline : bool) : Z :=
    let cp := cross (vec l) (psub p (p1 l)) in
    if inline && is_zero cp then 0%Z else if cp >=? #0 then 1%Z else (-1)%Z.
  (** which_side_angle (500-514) *)
  Definition which_side_angle (l : line N) (a : N) (inline : bool) : Z :=
    which_side l (padd (from_polar #1 a) (p2 l)) inline.
  (** same_side (516-526): note the duplicated test on c1. *)
  Definition same_side (l : line N) (a b : pt N) : bool :=
    let c1 := cross (vec l) (psub a (p1 l)) in
    let c2 := cross (vec l) (psub b (p1 l)) in
    ((c1 >=? #0) && (c1 >=? #0)) || ((c1 <? #0) && (c2 <? #0)).
  (** point_on_line (528-544) *)
  Definition point_on_line (l : line N) (p : pt N) (segment : bool) : bool :=
    let col := is_zero (cross (vec l) (psub p (p1 l))) in
    if segment && col then
      (pymin (px (p1 l)) (px (p2 l)) - EPS <=? px p) && (px p <=? pymax (px (p1 l)) (px (p2 l)) + EPS) &&
      (pymin (py (p1 l)) (py (p2 l)) - EPS <=? py p) && (py p <=? pymax (py (p1 l)) (py (p2 l)) + EPS)
    else col.
  (** reversed (546-548), flipped (550-553), __add__ (555-566) *)
  Definition lreversed (l : line N) : line N := Ln (p2 l) (p1 l).
  Definition flipped (l : line N) : line N := Ln (p1 l) (padd (pneg (vec l)) (p1 l)).
  Definition ladd (l : line N) (v : pt N) : line N := Ln (padd (p1 l) v) (padd (p2 l) v).
  (** __eq__ (570-583) *)
  Definition leq (l o : line N) : bool :=
    (peq (p1 l) (p1 o) && peq (p2 l) (p2 o)) || (peq (p1 l) (p2 o) && peq (p2 l) (p1 o)).

  (** ** box.py *)
  (** __new__ (31-38) *)
  Definition mkbox (a b : pt N) : box N :=
    Bx (P (pymin (px a) (px b)) (pymin (py a) (py b))) (P (pymax (px a) (px b)) (pymax (py a) (py b))).
  (** min / max of a non-empty sequence: the first extreme element *)
  Definition list_min (x : N) (l : list N) : N := fold_left pymin l x.
  Definition list_max (x : N) (l : list N) : N := fold_left pymax l x.
  (** from_points (41-64) *)
  Definition from_points (l : list (pt N)) : option (box N) :=
    match l with
    | [] => None
    | p :: r => Some (mkbox (P (list_min (px p) (map px r)) (list_min (py p) (map py r)))
                            (P (list_max (px p) (map px r)) (list_max (py p) (map py r))))
    end.
  Definition xmin (b : box N) : N := px (b1 b).
  Definition xmax (b : box N) : N := px (b2 b).
  Definition ymin (b : box N) : N := py (b1 b).
  Definition ymax (b : box N) : N := py (b2 b).
  (** center (112-114): the divisor 2 is never zero *)
  Definition bcenter (b : box N) : pt N :=
    let d := psub (b2 b) (b1 b) in padd (b1 b) (P (px d / #2) (py d / #2)).
  (** point_inside (128-131), line_inside (133-135), all_points_inside (137-142) *)
  Definition point_inside (b : box N) (p : pt N) : bool :=
    (px p >? xmin b) && (px p <? xmax b) && (py p >? ymin b) && (py p <? ymax b).
  Definition line_inside (b : box N) (l : line N) : bool := point_inside b (p1 l) && point_inside b (p2 l).
  Definition all_points_inside (b : box N) (l : list (pt N)) : bool := forallb (point_inside b) l.
  (** buffered (144-152), transform (154-160) *)
  Definition buffered (b : box N) (d : N) : box N := mkbox (psubs (b1 b) d) (padds (b2 b) d).
  Definition btransform (b : box N) (m : mat N) : box N := mkbox (apply m (b1 b)) (apply m (b2 b)).
  (** _clipT (204-222): returns None for False, else the updated u_minmax *)
  Definition clipT (q p : N) (u : N * N) : option (N * N) :=
    if is_zero p then (if q <=? #0 then Some u else None)
    else let r := q / p in
         if p >? #0 then
           if r >? snd u then None else if r >? fst u then Some (r, snd u) else Some u
         else
           if r <? fst u then None else if r <? snd u then Some (fst u, r) else Some u.
  (** clip_line (162-202) *)
  Definition obind {A B} (x : option A) (f : A -> option B) : option B :=
    match x with Some a => f a | None => None end.
  Definition clip_line (b : box N) (l : line N) : option (line N) :=
    if line_inside b l then Some l else
    let x1 := px (p1 l) in let y1 := py (p1 l) in
    let x2 := px (p2 l) in let y2 := py (p2 l) in
    let dx := x2 - x1 in let dy := y2 - y1 in
    obind (clipT (xmin b - x1) dx (#0, #1)) (fun u =>
    obind (clipT (x1 - xmax b) (- dx) u) (fun u =>
    obind (clipT (ymin b - y1) dy u) (fun u =>
    obind (clipT (y1 - ymax b) (- dy) u) (fun u =>
      let e := if snd u <? #1 then P (x1 + snd u * dx) (y1 + snd u * dy) else P x2 y2 in
      let s := if fst u >? #0 then P (x1 + fst u * dx) (y1 + fst u * dy) else P x1 y1 in
      Some (Ln s e))))).
  (** intersection (259-272), union (274-282) *)
  Definition binter (a b : box N) : option (box N) :=
    let x0 := pymax (xmin a) (xmin b) in let x9 := pymin (xmax a) (xmax b) in
    let y0 := pymax (ymin a) (ymin b) in let y9 := pymin (ymax a) (ymax b) in
    if (x0 >? x9) || (y0 >? y9) then None else Some (mkbox (P x0 y0) (P x9 y9)).
  Definition bunion (a b : box N) : box N :=
    mkbox (P (pymin (xmin a) (xmin b)) (pymin (ymin a) (ymin b)))
          (P (pymax (xmax a) (xmax b)) (pymax (ymax a) (ymax b))).

  (** ** arc.py *)
  (** calc_center (126-159) *)
  Definition calc_center (a b : pt N) (r ang : N) : res (pt N) :=
    if peq a b then Ok a else
    let chord := Ln a b in
    let len := llen chord in
    let sign := if ang >? #0 then #1 else - #1 in
    let m := midpoint chord in
    rbind (pysqrt (r * r - (len * len) / #4)) (fun c2m =>
    rbind (pydiv (py b - py a) len) (fun ky =>
    rbind (pydiv (px b - px a) len) (fun kx =>
      Ok (P (px m - sign * c2m * ky) (py m + sign * c2m * kx))))).
  (** __new__ without a center (49-69) *)
  Definition arc_auto (a b : pt N) (r ang : N) : res (arc N) :=
    rmap (fun c => mkarc a b r ang c) (calc_center a b r ang).
  (** from_two_points_and_center (72-91) *)
  Definition arc_from_center (a b c : pt N) (large : bool) : arc N :=
    let r := pdist a c in
    let ang := angle2 c a b in
    let ang := if large then (if ang <? #0 then - TAU else TAU) - ang else ang in
    mkarc a b r ang c.
  (** from_two_points_and_tangent (94-123); ptan is used as a point in angle2 *)
  Definition arc_from_tangent (a ptan b : pt N) (rev : bool) : res (option (arc N)) :=
    if peq a b || peq a (padd a ptan) then Ok None else
    let ang := #2 * angle2 a ptan b in
    rbind (pydiv (pdist a b) (#2 * sin (ang / #2))) (fun q =>
      let r := abs q in
      rmap Some (if rev then arc_auto b a r (- ang) else arc_auto a b r ang)).
  (** length (194-199), area (201-208), segment_area (210-217) *)
  Definition alen (a : arc N) : N := abs (radius a * sweep a).
  Definition aarea (a : arc N) : N := (radius a * radius a) * abs (sweep a) / #2.
  Definition asegment_area (a : arc N) : N := (radius a * radius a) * abs (sweep a - sin (sweep a)) / #2.
  (** is_clockwise (219-224) *)
  Definition is_clockwise (a : arc N) : bool := sweep a <? #0.
  (** start_tangent_angle (226-239), end_tangent_angle (241-253) *)
  Definition astart_tangent (a : arc N) : N :=
    let v := if is_clockwise a then psub (center a) (ap1 a) else psub (ap1 a) (center a) in
    normalize_angle (pangle v + pi / #2) #0.
  Definition aend_tangent (a : arc N) : N :=
    let v := if is_clockwise a then psub (center a) (ap2 a) else psub (ap2 a) (center a) in
    normalize_angle (pangle v + pi / #2) #0.
  (** height (255-262) *)
  Definition aheight (a : arc N) : N := radius a - pdist (midpoint (Ln (ap1 a) (ap2 a))) (center a).
  (** transform (264-290) *)
  Definition atransform (a : arc N) (m : mat N) : res (arc N) :=
    let q1 := apply m (ap1 a) in let q2 := apply m (ap2 a) in
    if negb (abs (m00 m) =? abs (m11 m)) then Raise ValueError else
    let ang := if m00 m * m11 m <? #0 then - sweep a else sweep a in
    rbind (pydiv (dist2 q1 q2) (dist2 (ap1 a) (ap2 a))) (fun k =>
      arc_auto q1 q2 (radius a * k) ang).
  (** offset (292-318).  The preserve_center=False branch passes four arguments where the
      angle lands in [radius] and the center in [angle]; center=None then calls calc_center
      with a point as the angle (a tuple compared with 0) - not modelled. *)
  Definition aoffset (a : arc N) (d : N) : res (arc N) :=
    rbind (extend (Ln (center a) (ap1 a)) d false) (fun l1 =>
    rbind (extend (Ln (center a) (ap2 a)) d false) (fun l2 =>
      Ok (mkarc (p2 l1) (p2 l2) (radius a + d) (sweep a) (center a)))).
  (** point_at_angle (480-510); None only when [segment] *)
  Definition apoint_at_angle (a : arc N) (ang : N) : pt N :=
    if ang <=? #0 then ap1 a
    else if ang >=? abs (sweep a) then ap2 a
    else let s := pangle (psub (ap1 a) (center a)) in
         let t := if sweep a <? #0 then s - ang else s + ang in
         P (px (center a) + radius a * cos t) (py (center a) + radius a * sin t).
  (** point_at (408-417), midpoint (419-424) *)
  Definition apoint_at (a : arc N) (mu : N) : pt N := apoint_at_angle a (abs (sweep a) * mu).
  Definition amidpoint (a : arc N) : pt N := apoint_at a (lit 5 (-1)).
  (** mu (392-406) *)
  Definition amu (a : arc N) (p : pt N) : res N := pydiv (angle2 (center a) (ap1 a) p) (sweep a).
  (** subdivide_at_angle (441-462): [angle >= self.angle] compares with the signed sweep *)
  Definition asubdivide_at_angle (a : arc N) (ang : N) : list (arc N) :=
    if (ang <? EPS) || (ang >=? sweep a) then [a] else
    let ang2 := abs (sweep a) - ang in
    let p := apoint_at_angle a ang in
    let '(g1, g2) := if sweep a <? #0 then (- ang, - ang2) else (ang, ang2) in
    [mkarc (ap1 a) p (radius a) g1 (center a); mkarc p (ap2 a) (radius a) g2 (center a)].
  (** subdivide (426-439) *)
  Definition asubdivide (a : arc N) (mu : N) : list (arc N) :=
    if (mu <? EPS) || (mu >=? #1) then [a] else asubdivide_at_angle a (abs (sweep a) * mu).
  (** subdivide_at_point (464-478) *)
  Definition asubdivide_at_point (a : arc N) (p : pt N) : list (arc N) :=
    let ang := angle2 (center a) (ap1 a) p in
    if is_zero ang || feq ang (sweep a) then [a] else
    [mkarc (ap1 a) p (radius a) ang (center a); mkarc p (ap2 a) (radius a) (sweep a - ang) (center a)].
  (** point_on_arc (512-535) *)
  Definition point_on_arc (a : arc N) (p : pt N) : bool :=
    if feq (radius a) (pdist (center a) p) then
      let i := intersection (Ln (ap1 a) (ap2 a)) (Ln (center a) p) true false false in
      let major := abs (sweep a) >? pi in
      match i with None => major | Some _ => negb major end
    else false.
  (** intersect_line (537-584) *)
  Definition intersect_line (a : arc N) (l : line N) (on_arc on_line : bool) : res (list (pt N)) :=
    let l1 := psub (p1 l) (center a) in
    let l2 := psub (p2 l) (center a) in
    let dx := px l2 - px l1 in
    let dy := py l2 - py l1 in
    let dr2 := dx * dx + dy * dy in
    let det := cross l1 l2 in
    let dsc := (radius a * radius a) * dr2 - det * det in
    if is_zero dsc then rmap (fun q => [q]) (lproj_point l (center a) false)
    else if dsc >? #0 then
      let sgn := if dy <? #0 then - #1 else #1 in
      let r := sqrt dsc in
      if dr2 =? #0 then Raise ZeroDivisionError else
      let x1 := (det * dy + (sgn * dx) * r) / dr2 in
      let x2 := (det * dy - (sgn * dx) * r) / dr2 in
      let y1 := ((- det) * dx + abs dy * r) / dr2 in
      let y2 := ((- det) * dx - abs dy * r) / dr2 in
      let q1 := padd (P x1 y1) (center a) in
      let q2 := padd (P x2 y2) (center a) in
      let keep q := (negb on_arc || point_on_arc a q) && (negb on_line || point_on_line l q false) in
      Ok ((if keep q1 then [q1] else []) ++ (if keep q2 then [q2] else []))
    else Ok [].
  (** reversed (613-618) *)
  Definition areversed (a : arc N) : arc N := mkarc (ap2 a) (ap1 a) (radius a) (- sweep a) (center a).
  (** distance_to_point (320-373); -1 is returned when the projection is off the segment *)
  Definition adist (a : arc N) (p : pt N) (segment : bool) : res N :=
    if (radius a <? EPS) || peq (ap1 a) (ap2 a) then Ok (pdist (ap1 a) p) else
    let aa := abs (sweep a) in
    rbind
      (if feq aa pi then
         let w := which_side (Ln (ap1 a) (ap2 a)) p false in
         Ok ((Z.eqb w 1 && (sweep a <? #0)) || (Z.eqb w (-1) && (sweep a >? #0)))
       else if aa >? pi then
         let phi := ccw_angle2 (center a) (ap1 a) p in
         let phi := if sweep a <? #0 then TAU - phi else phi in
         Ok (abs (sweep a) - abs phi >? #0)
       else
         let v1 := psub (ap1 a) (center a) in
         let v2 := psub (ap2 a) (center a) in
         let v3 := psub p (center a) in
         let det := cross v1 v2 in
         if det =? #0 then Raise ZeroDivisionError else
         Ok ((cross v1 v3 / det >=? #0) && (cross v3 v2 / det >=? #0)))
      (fun inside =>
         if inside then Ok (abs (pdist (center a) p - radius a))
         else if segment then Ok (- #1)
         else Ok (pymin (pdist (ap1 a) p) (pdist (ap2 a) p))).

  (** ** util.py segments_are_g1 (79-100), for lines and arcs *)
  Inductive seg := SLine (l : line N) | SArc (a : arc N).
  Definition s_p1 (s : seg) : pt N := match s with SLine l => p1 l | SArc a => ap1 a end.
  Definition s_p2 (s : seg) : pt N := match s with SLine l => p2 l | SArc a => ap2 a end.
  Definition s_start_tangent (s : seg) : N := match s with SLine l => langle l | SArc a => astart_tangent a end.
  Definition s_end_tangent (s : seg) : N := match s with SLine l => langle l | SArc a => aend_tangent a end.
  Definition s_length (s : seg) : N := match s with SLine l => llen l | SArc a => alen a end.
  Definition s_reversed (s : seg) : seg := match s with SLine l => SLine (lreversed l) | SArc a => SArc (areversed a) end.
  Definition segments_are_g1 (s t : seg) (tol : N) : bool :=
    palmost (s_p2 s) (s_p1 t) tol && (abs (s_end_tangent s - s_start_tangent t) <? tol).
  (** reverse_path (103-109) *)
  Definition reverse_path (l : list seg) : list seg := map s_reversed (rev l).
End Geom.
Arguments seg N : clear implicits.
