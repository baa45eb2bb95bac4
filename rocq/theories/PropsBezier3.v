(** * PropsBezier3: how close the curves for circular and elliptical arcs are (more on C69, C70).  Over R. *)
From Verif Require Import Num NumR Geom GeomR GeomSpec GeomSpec2 GeomProofs GeomProofs2 GeomProofs3 GeomProofs4 GeomProofs5 GeomProofs7 GeomProofs8 Ellipse Bezier BezierSpec
  BezierProofs BezierLen BezierProofs2 PropsGeom PropsBezier PropsEllipse.
From Coq Require Import ZArith Reals Lra Lia Bool List Psatz.
Import ListNotations.
Local Open Scope R_scope.

(** ** The curve for an arc of the unit circle *)
Section Unit.
  Variables u v al t : R.
  Definition ub (x0 x1 x2 x3 : R) : R := (1-t)*(1-t)*(1-t)*x0 + 3*(1-t)*(1-t)*t*x1 + 3*(1-t)*t*t*x2 + t*t*t*x3.
  Definition ux : R := ub (cos u) (cos u - al * sin u) (cos v + al * sin v) (cos v).
  Definition uy : R := ub (sin u) (sin u + al * cos u) (sin v - al * cos v) (sin v).
  Notation s := (t * (1 - t)).
  Notation C := (cos (v - u)).
  Notation S := (sin (v - u)).
  Lemma unit_norm : ux * ux + uy * uy = 1 + s * s * (- 2 * (1 - C) * (3 + 4 * s) + 9 * (al * al) * (1 - 2 * s * (1 + C)) + 6 * al * S * (1 + 4 * s)).
  Proof.
    unfold ux, uy, ub. rewrite cos_minus, sin_minus. pose proof (sin2_cos2 u) as Q1. pose proof (sin2_cos2 v) as Q2. unfold Rsqr in Q1, Q2.
    set (cu := cos u) in *. set (su := sin u) in *. set (cv := cos v) in *. set (sv := sin v) in *.
    set (p := 1 - t). set (a := p*p*p + 3*p*p*t). set (d := t*t*t + 3*p*t*t).
    transitivity ((a*a + 9*(p*p*p*p)*(t*t)*(al*al)) * (su*su + cu*cu) + (d*d + 9*(p*p)*(t*t*t*t)*(al*al)) * (sv*sv + cv*cv)
      + (2*a*d - 18*(p*p*p)*(t*t*t)*(al*al)) * (cv*cu + sv*su) + (6*p*(t*t)*al*a + 6*(p*p)*t*al*d) * (sv*cu - cv*su)); [unfold a, d; ring|].
    rewrite Q1, Q2. unfold a, d, p. ring.
  Qed.
  Lemma unit_cross_u : - ux * sin u + uy * cos u = 3*(1-t)*(1-t)*t*al + (t*t*t + 3*(1-t)*t*t) * S - 3*(1-t)*t*t*al*C.
  Proof.
    unfold ux, uy, ub. rewrite cos_minus, sin_minus. pose proof (sin2_cos2 u) as Q1. unfold Rsqr in Q1.
    set (cu := cos u) in *. set (su := sin u) in *. set (cv := cos v) in *. set (sv := sin v) in *.
    transitivity (3*(1-t)*(1-t)*t*al*(su*su+cu*cu) + (t*t*t + 3*(1-t)*t*t) * (sv*cu - cv*su) - 3*(1-t)*t*t*al*(cv*cu+sv*su)); [ring|rewrite Q1; ring].
  Qed.
  Lemma unit_cross_v : ux * sin v - uy * cos v = 3*(1-t)*t*t*al + ((1-t)*(1-t)*(1-t) + 3*(1-t)*(1-t)*t) * S - 3*(1-t)*(1-t)*t*al*C.
  Proof.
    unfold ux, uy, ub. rewrite cos_minus, sin_minus. pose proof (sin2_cos2 v) as Q1. unfold Rsqr in Q1.
    set (cu := cos u) in *. set (su := sin u) in *. set (cv := cos v) in *. set (sv := sin v) in *.
    transitivity (3*(1-t)*t*t*al*(sv*sv+cv*cv) + ((1-t)*(1-t)*(1-t) + 3*(1-t)*(1-t)*t) * (sv*cu - cv*su) - 3*(1-t)*(1-t)*t*al*(cv*cu+sv*su)); [ring|rewrite Q1; ring].
  Qed.
  Lemma unit_dot_u : ux * cos u + uy * sin u = (1-t)*(1-t)*(1-t) + 3*(1-t)*(1-t)*t + (t*t*t + 3*(1-t)*t*t) * C + 3*(1-t)*t*t*al*S.
  Proof.
    unfold ux, uy, ub. rewrite cos_minus, sin_minus. pose proof (sin2_cos2 u) as Q1. unfold Rsqr in Q1.
    set (cu := cos u) in *. set (su := sin u) in *. set (cv := cos v) in *. set (sv := sin v) in *.
    transitivity (((1-t)*(1-t)*(1-t) + 3*(1-t)*(1-t)*t)*(su*su+cu*cu) + (t*t*t + 3*(1-t)*t*t) * (cv*cu + sv*su) + 3*(1-t)*t*t*al*(sv*cu-cv*su)); [ring|rewrite Q1; ring].
  Qed.
End Unit.

(** Sine and cosine from the tangent of half the angle. *)
Lemma half_angle_tan x : cos (x / 2) <> 0 -> let z := tan (x / 2) in sin x = 2 * z / (1 + z * z) /\ cos x = 1 - 2 * (z * z) / (1 + z * z).
Proof.
  intros H z. assert (Q := sin2_cos2 (x / 2)). unfold Rsqr in Q. assert (E1 : 1 + z * z = / (cos (x / 2) * cos (x / 2))).
  { unfold z, tan. transitivity ((sin (x/2) * sin (x/2) + cos (x/2) * cos (x/2)) / (cos (x / 2) * cos (x / 2))); [field; auto|rewrite Q; field; auto]. }
  rewrite E1. replace (sin x) with (sin (2 * (x / 2))) by (f_equal; field). replace (cos x) with (cos (2 * (x / 2))) by (f_equal; field).
  rewrite sin_2a, cos_2a_sin. unfold z, tan. split; field; auto.
Qed.

(** The factor used for ellipses. *)
Definition al_ell (x : R) : R := sin x * (R_sqrt.sqrt (4 + 3 * (tan (x / 2) * tan (x / 2))) - 1) / 3.
Lemma tan_quarter x : 0 <= x <= PI / 2 -> 0 < cos (x / 2) /\ 0 <= tan (x / 2) <= 1.
Proof.
  intros H. pose proof PI_RGT_0. assert (C : 0 < cos (x / 2)) by (apply cos_gt_0; lra). split; [exact C|].
  assert (S : 0 <= sin (x / 2)) by (apply sin_ge_0; lra). unfold tan. split; [apply Rmult_le_pos; [lra|apply Rlt_le, Rinv_0_lt_compat, C]|].
  apply Rmult_le_reg_r with (cos (x / 2)); [exact C|]. replace (sin (x / 2) / cos (x / 2) * cos (x / 2)) with (sin (x / 2)) by (field; lra).
  rewrite Rmult_1_l. assert (K : 0 <= cos x) by (apply cos_ge_0; lra). replace x with (2 * (x / 2)) in K by field. rewrite cos_2a in K. nra.
Qed.
Lemma ell_norm u v t : 0 <= v - u <= PI / 2 -> 0 <= t <= 1 ->
  let X := ux u v (al_ell (v - u)) t in let Y := uy u v (al_ell (v - u)) t in 
  998 / 1000 * (998 / 1000) <= X * X + Y * Y <= 1.
Proof.
  intros Hd Ht X Y. unfold X, Y. rewrite unit_norm. clear X Y. set (x := v - u) in *. clearbody x.
  destruct (tan_quarter x Hd) as [C0 T0]. destruct (half_angle_tan x ltac:(lra)) as [S C]. unfold al_ell. rewrite S, C.
  set (z := tan (x / 2)) in *. clearbody z. clear S C C0 Hd x u v. set (q := R_sqrt.sqrt (4 + 3 * (z * z))).
  assert (Q : q * q = 4 + 3 * (z * z)) by (apply sqrt_sqrt; nra). assert (Q0 : 0 <= q) by apply sqrt_pos. clearbody q.
  set (s := t * (1 - t)). assert (S0 : 0 <= s) by (unfold s; nra). assert (S1 : s <= 1 / 4) by (unfold s; pose proof (Rle_0_sqr (t - 1/2)) as W; unfold Rsqr in W; nra).
  clearbody s. set (w := z * z). assert (W0 : 0 <= w <= 1) by (unfold w; nra).
  assert (EQ : s * s * (-2 * (1 - (1 - 2 * w / (1 + w))) * (3 + 4 * s) +
      9 * (2 * z / (1 + w) * (q - 1) / 3 * (2 * z / (1 + w) * (q - 1) / 3)) * (1 - 2 * s * (1 + (1 - 2 * w / (1 + w)))) +
      6 * (2 * z / (1 + w) * (q - 1) / 3) * (2 * z / (1 + w)) * (1 + 4 * s)) =
     - (16 * (s * s * s) * w * ((q - 2 - w) * (q - 2 - w)) / ((1 + w) * (1 + w) * (1 + w)))).
  { transitivity (4 * w * (s * s) / ((1 + w) * (1 + w) * (1 + w)) * ((1 + w) * (q * q - (4 + 3 * w)) - 4 * s * ((q - 2 - w) * (q - 2 - w)))).
    - unfold w. field. nra.
    - fold w in Q. rewrite Q. field. lra. }
  rewrite EQ. clear EQ. fold w in Q. clearbody w. clear z T0.
  (* q - 2 - w in closed form *)
  set (m := 2 + w + q). assert (M : (2 + w - q) * m = w * (1 + w)) by (unfold m; transitivity ((2 + w) * (2 + w) - q * q); [ring|rewrite Q; ring]).
  assert (M1 : 56 / 10 * w <= m). { assert (26 / 10 * w <= q) by nra. unfold m. lra. }
  assert (M0 : 2 <= m) by (unfold m; lra).
  assert (D : (q - 2 - w) * (q - 2 - w) * (m * m) = w * w * ((1 + w) * (1 + w))) by (transitivity ((2 + w - q) * m * ((2 + w - q) * m)); [ring|rewrite M; ring]).
  set (d := (q - 2 - w) * (q - 2 - w)) in *. assert (D0 : 0 <= d) by (unfold d; nra). clearbody d. clearbody m.
  assert (ss : 0 <= s * s * s <= 1 / 64) by nra.
  set (k := 16 * (s * s * s) * w * d / ((1 + w) * (1 + w) * (1 + w))).
  assert (WW : 0 < (1 + w) * (1 + w) * (1 + w)) by (repeat apply Rmult_lt_0_compat; lra).
  assert (KE : k * ((1 + w) * (1 + w) * (1 + w)) = 16 * (s * s * s) * w * d) by (unfold k; field; lra).
  assert (K0 : 0 <= k). { unfold k. apply Rmult_le_pos; [|apply Rlt_le, Rinv_0_lt_compat, WW]. repeat apply Rmult_le_pos; lra. }
  (* d * 31.36 <= (1+w)^2 *)
  assert (DB : d * (3136 / 100) <= (1 + w) * (1 + w)).
  { assert (MM : 3136 / 100 * (w * w) <= m * m) by nra.
    destruct (Req_dec w 0) as [-> | W1]; [assert (d = 0) as -> by (assert (D9 : d * (m * m) = 0) by lra; apply Rmult_integral in D9 as [D9|D9]; [exact D9|clear - D9 M0; nra]); lra|].
    assert (0 < w * w) by nra. apply Rmult_le_reg_r with (w * w); [assumption|].
    apply Rle_trans with (d * (m * m)); [nra|]. rewrite D. lra. }
  assert (KB : k * (3136 / 100) * (1 + w) <= 16 / 64 * w).
  { assert (A1 : 16 * (s * s * s) * w * d <= 16 / 64 * w * d). { assert (0 <= w * d) by nra. nra. }
    assert (A2 : 16 / 64 * w * d * (3136 / 100) <= 16 / 64 * w * ((1 + w) * (1 + w))) by nra.
    apply Rmult_le_reg_r with ((1 + w) * (1 + w)); [nra|]. apply Rle_trans with (k * ((1 + w) * (1 + w) * (1 + w)) * (3136 / 100)); [apply Req_le; ring|rewrite KE; nra]. }
  clearbody k. split; [|lra]. assert (k * (1 + w) * (3136 / 100) <= 1 / 4 * w) by lra. nra.
Qed.
(** It stays between the two radii. *)
Lemma ell_sector u v t : 0 < v - u <= PI / 2 -> 0 <= t <= 1 ->
  exists w k, u <= w <= v /\ 998 / 1000 <= k <= 1 /\ ux u v (al_ell (v - u)) t = k * cos w /\ uy u v (al_ell (v - u)) t = k * sin w.
Proof.
  intros Hd Ht. pose proof (ell_norm u v t ltac:(lra) Ht) as NM. cbv zeta in NM. pose proof PI_RGT_0 as PP.
  pose proof (unit_cross_u u v (al_ell (v - u)) t) as CU. pose proof (unit_cross_v u v (al_ell (v - u)) t) as CV. pose proof (unit_dot_u u v (al_ell (v - u)) t) as DU.
  set (X := ux _ _ _ _) in *. set (Y := uy _ _ _ _) in *. clearbody X Y.
  assert (A : 0 <= al_ell (v - u) <= sin (v - u)).
  { destruct (tan_quarter (v - u) ltac:(lra)) as [_ T0]. unfold al_ell. set (z := tan _) in *. assert (S0 : 0 <= sin (v - u)) by (apply sin_ge_0; lra).
    set (q := R_sqrt.sqrt _). assert (Q : q * q = 4 + 3 * (z * z)) by (apply sqrt_sqrt; nra). assert (0 <= q) by apply sqrt_pos. clearbody q z.
    assert (2 <= q <= 3) by nra. nra. }
  assert (S0 : 0 < sin (v - u)) by (apply sin_gt_0; lra). assert (C0 : 0 <= cos (v - u)) by (apply cos_ge_0; lra). assert (C1 : cos (v - u) <= 1) by apply COS_bound.
  set (al := al_ell (v - u)) in *. set (S := sin (v - u)) in *. set (C := cos (v - u)) in *.
  assert (T1 : 0 <= (1 - t) * t * t) by (repeat apply Rmult_le_pos; lra). assert (T2 : 0 <= (1 - t) * (1 - t) * t) by (repeat apply Rmult_le_pos; lra).
  assert (T3 : 0 <= t * t * t) by (repeat apply Rmult_le_pos; lra). assert (T4 : 0 <= (1 - t) * (1 - t) * (1 - t)) by (repeat apply Rmult_le_pos; lra).
  assert (AC : al * C <= S) by nra. assert (0 <= al * C) by nra. assert (0 <= al * S) by nra.
  assert (PU : 0 <= - X * sin u + Y * cos u). { rewrite CU. assert (0 <= 3 * ((1 - t) * t * t) * (S - al * C)) by nra. assert (0 <= t*t*t*S) by nra. assert (0 <= (1-t)*(1-t)*t*al) by nra. lra. }
  assert (PV : 0 <= X * sin v - Y * cos v). { rewrite CV. assert (0 <= 3 * ((1 - t) * (1 - t) * t) * (S - al * C)) by nra. assert (0 <= (1-t)*(1-t)*(1-t)*S) by nra. assert (0 <= (1-t)*t*t*al) by nra. lra. }
  assert (PD : 0 <= X * cos u + Y * sin u). { rewrite DU. assert (0 <= t*t*t*C) by nra. assert (0 <= (1-t)*t*t*C) by nra. assert (0 <= (1-t)*t*t*(al*S)) by nra. lra. }
  clear CU CV DU. clearbody al. 
  set (dx := X * cos u + Y * sin u) in *. set (dy := - X * sin u + Y * cos u) in *.
  pose proof (sin2_cos2 u) as QU. unfold Rsqr in QU.
  assert (NN : dx * dx + dy * dy = X * X + Y * Y).
  { unfold dx, dy. transitivity ((X * X + Y * Y) * (sin u * sin u + cos u * cos u)); [ring|rewrite QU; ring]. }
  pose proof (atan2_polar dy dx) as [PC PS]. pose proof (atan2_range dy dx) as AR. set (f := Ratan2 dy dx) in *. set (k := Rhypot dx dy) in *.
  assert (KK : k * k = X * X + Y * Y) by (rewrite <- NN; apply hypot_sqr).
  assert (K0 : 0 <= k) by apply hypot_pos. assert (K : 998 / 1000 <= k <= 1) by nra. clearbody f k.
  assert (EX : X = k * cos (u + f)).
  { rewrite cos_plus. transitivity (cos u * dx - sin u * dy); [|rewrite <- PC, <- PS; ring]. unfold dx, dy.
    transitivity (X * (sin u * sin u + cos u * cos u)); [rewrite QU; ring|ring]. }
  assert (EY : Y = k * sin (u + f)).
  { rewrite sin_plus. transitivity (sin u * dx + cos u * dy); [|rewrite <- PC, <- PS; ring]. unfold dx, dy.
    transitivity (Y * (sin u * sin u + cos u * cos u)); [rewrite QU; ring|ring]. }
  assert (F : 0 <= f <= PI / 2).
  { assert (CF : 0 <= cos f) by nra. assert (SF : 0 <= sin f) by nra. split.
    - destruct (Rle_lt_dec 0 f) as [L|L]; [exact L|]. assert (sin f < 0) by (apply sin_lt_0_var; lra). lra.
    - destruct (Rle_lt_dec f (PI / 2)) as [L|L]; [exact L|]. assert (cos f < 0) by (apply cos_lt_0; lra). lra. }
  exists (u + f), k. split; [|split; [exact K|split; assumption]].
  split; [lra|]. destruct (Rle_lt_dec (u + f) v) as [L|L]; [exact L|].
  assert (SV : X * sin v - Y * cos v = k * sin (v - (u + f))) by (rewrite sin_minus, EX, EY; ring).
  assert (sin (v - (u + f)) < 0) by (apply sin_lt_0_var; lra). nra.
Qed.

(** The point on the way from [c] to [q]. *)
Definition toward (c q : Pt) (k : R) : Pt := at_param (Ln c q) k.
Lemma ell_curve (e : ellipse ROps) u v t : on_bez (bezier_elliptical_arc e u v) t =
  P (px (ec e) + (cos (ephi e) * (erx e * ux u v (al_ell (v - u)) t) - sin (ephi e) * (ery e * uy u v (al_ell (v - u)) t)))
    (py (ec e) + (sin (ephi e) * (erx e * ux u v (al_ell (v - u)) t) + cos (ephi e) * (ery e * uy u v (al_ell (v - u)) t))).
Proof.
  destruct e as [[cx cy] rx ry phi]. unfold bezier_elliptical_arc, on_bez, bern3, epoint_at, ederivative1, padd, psub, pmul, ux, uy, ub.
  cbn [z1 k1 k2 z2 ec erx ery ephi px py]. rnum. fold (al_ell (v - u)). set (al := al_ell (v - u)). clearbody al.
  apply pt_ext; cbn [px py]; toR; ring.
Qed.
(** Every point of a curve made for an ellipse is a point of that part of the ellipse moved towards the centre by at most 0.2%. *)
Theorem C70_accuracy (e : ellipse ROps) (start sw : R) : 0 <= sw <= 2 * PI -> exists l, bezier_ellipse 5 e start sw = Ok l /\
  forall b t, In b l -> 0 <= t <= 1 -> exists w k, start <= w <= start + sw /\ 998 / 1000 <= k <= 1 /\ on_bez b t = toward (ec e) (epoint_at e w) k.
Proof.
  intros Hs. destruct (C70_ellipse_partial e start sw Hs) as (l & Q & _ & A). exists l. split; [exact Q|].
  intros b t Hb Ht. destruct (A b Hb) as (u & v & U1 & U2 & U3 & -> & _). destruct (ell_sector u v t ltac:(lra) Ht) as (w & k & W & K & EX & EY).
  exists w, k. split; [lra|]. split; [exact K|]. rewrite ell_curve, EX, EY, epoint_spec. unfold toward, at_param, ellipse_pt, turned. cbn [p1 p2 px py].
  apply pt_ext; cbn [px py]; toR; ring.
Qed.
Example C70_accuracy_ex : exists l b, bezier_ellipse 5 (mkellipse (P 1 2) 3 2 1 : ellipse ROps) 0 (PI / 2) = Ok l /\ In b l.
Proof.
  pose proof PI_RGT_0. unfold bezier_ellipse. cbn [ellipse_loop]. rnum. replace (Rleb (0 + PI / 2) (0 + PI / 2)) with true by (symmetry; rbool; lra).
  replace (Rleb (0 + PI / 2 + PI / 2) (0 + PI / 2)) with false by (symmetry; rbool; lra). cbn [rmap].
  eexists _, _. split; [reflexivity|]. left. reflexivity.
Qed.

(** ** C69: the curve for a circular arc of at most a quarter turn *)
Lemma circ_norm x t : Rabs x <= PI / 2 -> 0 <= t <= 1 ->
  let X := ux 0 x (4 * tan (x / 4) / 3) t in let Y := uy 0 x (4 * tan (x / 4) / 3) t in
  1 <= X * X + Y * Y <= 100028 / 100000 * (100028 / 100000).
Proof.
  intros Hd Ht X Y. unfold X, Y. rewrite unit_norm, Rminus_0_r. clear X Y. pose proof PI_RGT_0 as PP.
  assert (Hx : - (PI / 2) <= x <= PI / 2) by (unfold Rabs in Hd; destruct (Rcase_abs x); lra).
  assert (C4 : 0 < cos (x / 4)) by (apply cos_gt_0; lra).
  destruct (half_angle_tan (x / 2)) as [S C]; [replace (x / 2 / 2) with (x / 4) by field; lra|]. replace (x / 2 / 2) with (x / 4) in S, C by field.
  set (w := tan (x / 4)) in *.
  assert (H2 : 0 < cos (x / 2)) by (apply cos_gt_0; lra). assert (H1 : 0 <= cos x) by (apply cos_ge_0; lra).
  replace (cos x) with (1 - 2 * (sin (x / 2) * sin (x / 2))) in * by (replace (cos x) with (cos (2 * (x / 2))) by (f_equal; field); rewrite cos_2a_sin; ring).
  replace (sin x) with (2 * sin (x / 2) * cos (x / 2)) by (rewrite <- sin_2a; f_equal; field).
  rewrite S, C in *. clear S C. clearbody w. set (y := w * w) in *. assert (Y0 : 0 <= y) by (unfold y; nra).
  set (s := t * (1 - t)). assert (S0 : 0 <= s) by (unfold s; nra). assert (S1 : s <= 1 / 4) by (unfold s; pose proof (Rle_0_sqr (t - 1/2)) as W; unfold Rsqr in W; nra).
  clearbody s.
  assert (EQ : s * s * (-2 * (1 - (1 - 2 * (2 * w / (1 + y) * (2 * w / (1 + y))))) * (3 + 4 * s) +
      9 * (4 * w / 3 * (4 * w / 3)) * (1 - 2 * s * (1 + (1 - 2 * (2 * w / (1 + y) * (2 * w / (1 + y)))))) +
      6 * (4 * w / 3) * (2 * (2 * w / (1 + y)) * (1 - 2 * y / (1 + y))) * (1 + 4 * s)) =
     16 * (y * y * y) / ((1 + y) * (1 + y)) * (s * s * (1 - 4 * s))) by (unfold y; field; nra).
  rewrite EQ. clear EQ.
  assert (YB : y <= 1716 / 10000).
  { assert (K : 0 < (1 + y) * (1 + y)) by nra.
    assert (B1 : y < 1). { apply (Rmult_lt_compat_r (1 + y)) in H2; [|lra]. rewrite Rmult_0_l in H2. replace ((1 - 2 * y / (1 + y)) * (1 + y)) with (1 - y) in H2 by (field; lra). lra. }
    apply (Rmult_le_compat_r ((1 + y) * (1 + y))) in H1; [|lra]. rewrite Rmult_0_l in H1.
    replace ((1 - 2 * (2 * w / (1 + y) * (2 * w / (1 + y)))) * ((1 + y) * (1 + y))) with ((1 + y) * (1 + y) - 8 * y) in H1 by (unfold y; field; fold y; lra).
    destruct (Rle_lt_dec y (1716 / 10000)) as [L|L]; [exact L|]. clear - H1 B1 L. nra. }
  clear H1 H2 C4. clearbody y.
  assert (SB : 0 <= s * s * (1 - 4 * s) <= 1 / 108).
  { split; [apply Rmult_le_pos; nra|]. assert (0 <= (s - 1/6) * (s - 1/6) * (4 * s + 1/3)) by (apply Rmult_le_pos; [apply Rle_0_sqr|lra]). lra. }
  set (m := s * s * (1 - 4 * s)) in *. clearbody m.
  assert (YY : 0 <= y * y * y <= 2945 / 100000 * y). { assert (y * y <= 2945 / 100000) by nra. split; [repeat apply Rmult_le_pos; lra|nra]. }
  set (z := y * y * y) in *. clearbody z.
  set (k := 16 * z / ((1 + y) * (1 + y))). assert (KE : k * ((1 + y) * (1 + y)) = 16 * z) by (unfold k; field; lra).
  assert (K0 : 0 <= k). { unfold k. apply Rmult_le_pos; [lra|]. apply Rlt_le, Rinv_0_lt_compat. nra. }
  assert (KB : k <= 6 / 100).
  { clearbody k. assert (Z : 16 * z <= 6 / 100 * ((1 + y) * (1 + y))) by nra. apply Rmult_le_reg_r with ((1 + y) * (1 + y)); [nra|lra]. }
  clearbody k. nra.
Qed.
(** The curve is never inside the circle and at most 0.028% outside. *)
Theorem C69_arc_accuracy (a : Arc_) t : wf_arc a -> Rabs (sweep a) <= PI / 2 -> 0 <= t <= 1 ->
  radius a <= euclid (on_bez (bezier_circular_arc a) t) (center a) <= radius a * (100028 / 100000).
Proof.
  intros (R0 & R1 & A2) Hs Ht. pose proof (circ_norm (sweep a) t Hs Ht) as NM. cbv zeta in NM.
  set (X := ux _ _ _ _) in NM. set (Y := uy _ _ _ _) in NM.
  set (dx := px (ap1 a) - px (center a)). set (dy := py (ap1 a) - py (center a)).
  assert (DD : dx * dx + dy * dy = radius a * radius a) by (rewrite <- R1, euclid_sqr'; unfold dx, dy; reflexivity).
  assert (PT : on_bez (bezier_circular_arc a) t = P (px (center a) + (dx * X - dy * Y)) (py (center a) + (dy * X + dx * Y))).
  { unfold X, Y, ux, uy, ub, dx, dy. rewrite cos_0, sin_0. destruct a as [[x1 y1] q r th [cx cy]]. cbn [ap1 ap2 center sweep radius] in *. subst q.
    unfold bezier_circular_arc, on_bez, bern3, turned, padd, psub, pmul. cbn [z1 k1 k2 z2 px py ap1 ap2 center sweep]. rnum. 
    set (al := 4 * tan (th / 4) / 3). clearbody al. clear. apply pt_ext; cbn [px py]; toR; ring. }
  assert (EE : euclid (on_bez (bezier_circular_arc a) t) (center a) * euclid (on_bez (bezier_circular_arc a) t) (center a) = radius a * radius a * (X * X + Y * Y)).
  { rewrite euclid_sqr', PT, <- DD. cbn [px py]. toR. ring. }
  clear R1. set (E := euclid (on_bez _ _) _) in *. assert (E0 : 0 <= E) by apply euclid_pos. set (n := X * X + Y * Y) in *. clearbody E n. clear X Y PT dx dy DD.
  assert (RR : 0 < radius a * radius a) by (apply Rmult_lt_0_compat; assumption). set (r := radius a) in *. clearbody r. change (T ROps) with R in *.
  assert (G1 : r * r <= E * E) by (apply Rle_trans with (r * r * n); [rewrite <- (Rmult_1_r (r * r)) at 1; apply Rmult_le_compat_l; lra|apply Req_le; symmetry; exact EE]).
  assert (G2 : E * E <= r * (100028 / 100000) * (r * (100028 / 100000))).
  { apply Rle_trans with (r * r * n); [apply Req_le; exact EE|].
    replace (r * (100028 / 100000) * (r * (100028 / 100000))) with (r * r * (100028 / 100000 * (100028 / 100000))) by ring. apply Rmult_le_compat_l; lra. }
  split; apply Rsqr_incr_0; unfold Rsqr; try assumption; lra.
Qed.
Example C69_arc_accuracy_ex : wf_arc (mkarc (P 2 0) (P 0 2) 2 (PI / 2) (P 0 0)) /\ Rabs (PI / 2) <= PI / 2.
Proof.
  pose proof PI_RGT_0. split; [|rewrite Rabs_pos_eq; lra]. unfold wf_arc. cbn [radius ap1 ap2 center sweep]. split; [lra|]. split.
  - apply euclid_unique; cbn; lra.
  - unfold turned. rewrite cos_PI2, sin_PI2. apply pt_ext; cbn; lra.
Qed.
