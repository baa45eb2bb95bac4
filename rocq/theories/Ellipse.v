(** * Ellipse: model of tcnc/geom/ellipse.py.
    Not modelled: EllipticalArc.transform (always raises) and _init_axes (never called). *)
From Coq Require Import ZArith List Bool.
From Verif Require Import Num Geom.
Import ListNotations.

(** Ellipse (25-68) *)
Record ellipse (N : NumOps) := mkellipse { ec : pt N; erx : N; ery : N; ephi : N }.
Arguments mkellipse {N} _ _ _ _.
Arguments ec {N} _. Arguments erx {N} _. Arguments ery {N} _. Arguments ephi {N} _.

Section Ellipse.
  Context {N : NumOps} {E : Epsilon N}.
  Local Open Scope num_scope.
  (** __init__ (44-68) *)
  Definition new_ellipse (c : pt N) (rx : N) (ry : option N) (phi : N) : ellipse N :=
    let rx := abs rx in
    let ry := match ry with None => rx | Some ry => abs ry end in
    let phi := if feq rx ry then #0 else if rx <? ry then phi + pi / #2 else phi in
    mkellipse c (pymax rx ry) (pymin rx ry) phi.
  (** is_circle (70-71) *)
  Definition is_circle (e : ellipse N) : bool := feq (erx e) (ery e).
  (** theta2t (73-86) *)
  Definition theta2t (e : ellipse N) (th : N) : res N :=
    if is_circle e then Ok th else
    rbind (pydiv (sin th) (ery e)) (fun s => rbind (pydiv (cos th) (erx e)) (fun c => Ok (atan2 s c))).
  (** point_at (100-118) *)
  Definition epoint_at (e : ellipse N) (t : N) : pt N :=
    let x := (erx e * cos (ephi e) * cos t) - (ery e * sin (ephi e) * sin t) in
    let y := (erx e * sin (ephi e) * cos t) + (ery e * cos (ephi e) * sin t) in
    padd (ec e) (P x y).
  (** pointt (88-98) *)
  Definition pointt (e : ellipse N) (p : pt N) : res N := theta2t e (angle2 (ec e) (epoint_at e #0) p).
  (** point_inside (120-138) *)
  Definition epoint_inside (e : ellipse N) (p : pt N) : res bool :=
    let q := if is_circle e || is_zero (ephi e) then psub p (ec e)
             else protate (psub p (ec e)) (- ephi e) (P #0 #0) in
    rbind (pydiv (px q) (erx e)) (fun x => rbind (pydiv (py q) (ery e)) (fun y =>
      Ok ((x * x) + (y * y) - #1 <? #0))).
  (** all_points_inside (140-145) *)
  Fixpoint all_points_inside (e : ellipse N) (ps : list (pt N)) : res bool :=
    match ps with
    | [] => Ok true
    | p :: r => rbind (epoint_inside e p) (fun b => if b then all_points_inside e r else Ok false)
    end.
  (** focus (147-153), focus_points (155-163), area (165-167), eccentricity (169-171) *)
  Definition focus (e : ellipse N) : res N := pysqrt (erx e * erx e - ery e * ery e).
  Definition focus_points (e : ellipse N) : res (pt N * pt N) :=
    rmap (fun d => let f := P (d * cos (ephi e)) (d * sin (ephi e)) in
                   (psub (ec e) f, padd (ec e) f)) (focus e).
  Definition earea (e : ellipse N) : N := pi * erx e * ery e.
  Definition eccentricity (e : ellipse N) : res N := rbind (focus e) (fun f => pydiv f (erx e)).
  (** curvature (173-181). Simplification: math.pow (x, -1.5) is written 1 / (x * sqrt x); at x = 0 both raise. *)
  Definition ecurvature (e : ellipse N) (p : pt N) : res N :=
    let rx2 := erx e * erx e in let ry2 := ery e * ery e in
    rbind (pydiv #1 (rx2 * ry2)) (fun k => rbind (pydiv (px p * px p) (rx2 * rx2)) (fun u => rbind (pydiv (py p * py p) (ry2 * ry2)) (fun v =>
      let w := u + v in rbind (pydiv #1 (w * sqrt w)) (fun r => Ok (k * r))))).
  (** derivative (183-206) *)
  Definition ederivative1 (e : ellipse N) (t : N) : pt N :=
    P (- (erx e * cos (ephi e) * sin t) - (ery e * sin (ephi e) * cos t))
      (- (erx e * sin (ephi e) * sin t) + (ery e * cos (ephi e) * cos t)).
  Definition ederivative2 (e : ellipse N) (t : N) : pt N :=
    P (- (erx e * cos (ephi e) * cos t) + (ery e * sin (ephi e) * sin t))
      (- (erx e * sin (ephi e) * cos t) - (ery e * cos (ephi e) * sin t)).

  (** EllipticalArc (221-253): the ellipse data are not normalised *)
  Record earc := mkearc { ea_c : pt N; ea_p1 : pt N; ea_p2 : pt N; ea_rx : N; ea_ry : N;
    ea_start : N; ea_sweep : N; ea_large : bool; ea_flag : bool; ea_phi : N }.
  (** from_center (255-285) *)
  Definition earc_from_center (c : pt N) (rx ry start sw phi : N) : earc :=
    mkearc c (padd (P (rx * cos start) (ry * sin start)) c)
             (padd (P (rx * cos (start + sw)) (ry * sin (start + sw))) c)
             (abs rx) (abs ry) start sw (abs sw >? pi) (sw >? #0) phi.
  (** from_endpoints (287-360): None when a radius is zero *)
  Definition earc_from_endpoints (a b : pt N) (rx ry : N) (large flag : bool) (phi : N) : res (option earc) :=
    if is_zero rx || is_zero ry then Ok None else
    let rx := abs rx in let ry := abs ry in
    let d := psub a b in
    let pr := protate (P (px d / #2) (py d / #2)) phi (P #0 #0) in
    let xp := px pr in let yp := py pr in
    rbind (pydiv (xp * xp) (rx * rx)) (fun z1 => rbind (pydiv (yp * yp) (ry * ry)) (fun z2 =>
    let zz := z1 + z2 in
    let '(rx, ry) := if zz >? #1 then (sqrt zz * rx, sqrt zz * ry) else (rx, ry) in
    let rx2 := rx * rx in let ry2 := ry * ry in
    let xp2 := xp * xp in let yp2 := yp * yp in
    let t1 := (rx2 * ry2) - (rx2 * yp2) - (ry2 * xp2) in
    let t2 := (rx2 * yp2) + (ry2 * xp2) in
    rbind (pydiv t1 t2) (fun t3 => rbind (pysqrt t3) (fun t4 =>
    rbind (pydiv (rx * yp) ry) (fun kx => rbind (pydiv (ry * xp) rx) (fun ky =>
    let cx := t4 * kx in let cy := t4 * - ky in
    let '(cx, cy) := if Bool.eqb large flag then (- cx, - cy) else (cx, cy) in
    let s := padd a b in
    let c := padd (protate (P cx cy) (- phi) (P #0 #0)) (P (px s / #2) (py s / #2)) in
    let v1 := P ((xp - cx) / rx) ((yp - cy) / rx) in
    let v2 := P ((- xp - cx) / rx) ((- yp - cy) / rx) in
    let st := angle2 (P #0 #0) (P #1 #0) v1 in
    let sw := angle2 (P #0 #0) v1 v2 in
    Ok (Some (mkearc c a b rx ry st sw large flag phi)))))))).

  (** ellipse_in_parallelogram (371-421); [ecc] is the eccentricity argument (default 1). x**3 and x**2 are written as products. *)
  Definition ellipse_in_parallelogram (v0 v1 v2 v3 : pt N) (ecc : N) : res (ellipse N) :=
    let axis := Ln v0 v2 in
    let major := langle axis in
    let center := midpoint axis in
    let theta := abs (angle2 v0 v1 v3) in
    let obtuse := theta >? pi / #2 in
    let '(theta, a, b, c, major) := if obtuse then (pi - theta, v1, v2, v3, major + pi / #2) else (theta, v0, v1, v2, major) in
    let h2 := pdist a b in
    let h := pdist b c in
    let k := sin theta * h2 in
    let d := cos theta * h2 in
    let dh := d + h in
    rbind (if (ecc >=? #1) || (ecc <? #0) then Ok (k / #2)
           else rbind (pydiv (k / #2 * (dh * dh + k * k)) (k * k + d * d + h * h)) (fun v => Ok (v * (#1 - ecc)))) (fun v =>
    let A := k * k * k in
    let B := k * (dh * dh) - #4 * d * h * v in
    let C := - k * (k * d - #2 * h * v + k * h) in
    let D := - #2 * k * k * h * v in
    let E' := #2 * k * h * v * (d - h) in
    let F := k * h * h * v * v in
    let T1 := A * E' * E' + B * D * D + #4 * F * C * C - #2 * C * D * E' - #4 * A * B * F in
    let T2 := #2 * (A * B - C * C) in
    rbind (pysqrt ((B - A) * (B - A) + #4 * C * C)) (fun T3 =>
    rbind (pydiv T1 (T2 * (A + B - T3))) (fun qa => rbind (pysqrt qa) (fun a =>
    rbind (pydiv T1 (T2 * (A + B + T3))) (fun qb => rbind (pysqrt qb) (fun b =>
    Ok (new_ellipse center a (Some b) major))))))).

  (** intersect_circle (424-480) *)
  Definition intersect_circle (c1 : pt N) (r1 : N) (c2 : pt N) (r2 : N) : res (list (pt N)) :=
    let l := Ln c1 c2 in
    let d := llen l in
    if d >? r1 + r2 then Ok []
    else if d <? r1 - r2 then Ok []
    else if is_zero d then Ok []
    else if feq d (r1 + r2) then Ok [midpoint l]
    else
      let rr1 := r1 * r1 in let rr2 := r2 * r2 in
      rbind (pydiv (d * d - rr2 + rr1) (#2 * d)) (fun a =>
      let hr2 := rr1 - a * a in
      if hr2 <? #0 then Ok [] else
      let h := sqrt hr2 in
      let ang := langle l in
      Ok [padd c1 (protate (P a h) ang (P #0 #0)); padd c1 (protate (P a (- h)) ang (P #0 #0))]).
End Ellipse.
Arguments earc N : clear implicits.
