(** * PropsBezier: the Bezier-curve properties (C45, C46, C66-C74), over R.
    Specification: [BezierSpec] (Bernstein polynomials, inscribed polylines). *)
From Verif Require Import Num NumR Geom GeomR GeomSpec GeomProofs GeomProofs2 GeomProofs4 GeomProofs5 Ellipse Bezier BezierSpec
  BezierProofs BezierLen BezierProofs2 BezierProofs3 BezierProofs4 BezierProofs5 ArcTangent PropsGeom.
From Coq Require Import ZArith Reals Lra Lia Bool List Psatz.
Import ListNotations.
Local Open Scope R_scope.

Definition S_curve : Bez := Bz (P 0 0) (P 1 3) (P 3 (-2)) (P 4 1)%R.

(** ** C45: evaluation and subdivision *)
Section C45.
  Context {E : Epsilon ROps}.
  Hypothesis He : 0 < EPS.
  (** point_at is the curve; within EPSILON of the ends it is the end point. *)
  Theorem C45_point_at (b : Bez) t : EPS <= Rabs t -> EPS <= Rabs (t - 1) -> zpoint_at b t = on_bez b t.
  Proof. apply point_at_general; auto. Qed.
  Theorem C45_point_at_ends (b : Bez) t : (Rabs t < EPS -> zpoint_at b t = on_bez b 0) /\
    (EPS <= Rabs t -> Rabs (t - 1) < EPS -> zpoint_at b t = on_bez b 1).
  Proof. rewrite on_bez_0, on_bez_1. split; [apply point_at_start|apply point_at_end]; auto. Qed.
End C45.
Theorem C45_subdivide (b : Bez) t : 0 < t < 1 -> exists c1 c2, zsubdivide b t = (c1, Some c2) /\
  (forall s, on_bez c1 s = on_bez b (t * s)) /\ (forall s, on_bez c2 s = on_bez b (t + (1 - t) * s)).
Proof. apply subdivide_inside. Qed.
Theorem C45_subdivide_outside (b : Bez) t : t <= 0 \/ 1 <= t -> zsubdivide b t = (b, None).
Proof. apply subdivide_outside. Qed.
Theorem C45_derivative1 (b : Bez) t :
  derivable_pt_lim (fun s => px (on_bez b s)) t (px (derivative1 b t)) /\
  derivable_pt_lim (fun s => py (on_bez b s)) t (py (derivative1 b t)).
Proof.
  split; (eapply d_ext; [apply d_bern3|intros; reflexivity|]); destruct b as [[a1 a2] [b1 b2] [c1 c2] [d1 d2]];
  unfold derivative1; gunf; cbn [px py z1 k1 k2 z2]; gunf; toR; ring.
Qed.
Theorem C45_derivative2 (b : Bez) t :
  derivable_pt_lim (fun s => px (derivative1 b s)) t (px (derivative2 b t)) /\
  derivable_pt_lim (fun s => py (derivative1 b s)) t (py (derivative2 b t)).
Proof.
  destruct b as [[a1 a2] [b1 b2] [c1 c2] [d1 d2]]. split.
  - eapply d_ext; [apply (d_poly (3 * (b1 - a1)) (6 * (c1 - b1) - 6 * (b1 - a1)) (3 * (b1 - a1) - 6 * (c1 - b1) + 3 * (d1 - c1)) 0)| |].
    + intros s. unfold derivative1; gunf; cbn [px py z1 k1 k2 z2]; gunf; toR; ring.
    + unfold derivative2; gunf; cbn [px py z1 k1 k2 z2]; gunf; toR; ring.
  - eapply d_ext; [apply (d_poly (3 * (b2 - a2)) (6 * (c2 - b2) - 6 * (b2 - a2)) (3 * (b2 - a2) - 6 * (c2 - b2) + 3 * (d2 - c2)) 0)| |].
    + intros s. unfold derivative1; gunf; cbn [px py z1 k1 k2 z2]; gunf; toR; ring.
    + unfold derivative2; gunf; cbn [px py z1 k1 k2 z2]; gunf; toR; ring.
Qed.
Theorem C45_derivative3 (b : Bez) t :
  derivable_pt_lim (fun s => px (derivative2 b s)) t (px (derivative3 b)) /\
  derivable_pt_lim (fun s => py (derivative2 b s)) t (py (derivative3 b)).
Proof.
  destruct b as [[a1 a2] [b1 b2] [c1 c2] [d1 d2]]. split.
  - eapply d_ext; [apply (d_poly (6 * (a1 - 2 * b1 + c1)) (6 * (- a1 + 3 * b1 - 3 * c1 + d1)) 0 0)| |].
    + intros s. unfold derivative2; gunf; cbn [px py z1 k1 k2 z2]; gunf; toR; ring.
    + unfold derivative3; gunf; cbn [px py z1 k1 k2 z2]; gunf; toR; ring.
  - eapply d_ext; [apply (d_poly (6 * (a2 - 2 * b2 + c2)) (6 * (- a2 + 3 * b2 - 3 * c2 + d2)) 0 0)| |].
    + intros s. unfold derivative2; gunf; cbn [px py z1 k1 k2 z2]; gunf; toR; ring.
    + unfold derivative3; gunf; cbn [px py z1 k1 k2 z2]; gunf; toR; ring.
Qed.
Theorem C45_from_quadratic (q1 q2 q3 : Pt) t : on_bez (from_quadratic q1 q2 q3) t = on_quadratic q1 q2 q3 t.
Proof. apply quadratic_same. Qed.
Theorem C45_transform (b : Bez) (m : mat ROps) t : on_bez (ztransform b m) t = apply m (on_bez b t).
Proof. apply transform_bez. Qed.
Example C45_ex : on_bez S_curve (1/2) = P 2 (1/2)%R :> Pt /\ fst (zsubdivide S_curve (1/2)) = Bz (P 0 0) (P (1/2) (3/2)) (P (5/4) 1) (P 2 (1/2))%R.
Proof.
  split; [unfold on_bez, bern3, S_curve; cbn; apply pt_ext; cbn [px py]; toR; lra|].
  unfold S_curve. rewrite subdivide_halves by lra. cbn [fst]. unfold left_of, mixp, on_bez, bern3. cbn. f_equal; apply pt_ext; cbn; toR; lra.
Qed.

(** ** C46: reversed() puts a control point where the end point belongs *)
Theorem C46_reversed_refuted (b : Bez) : z1 b <> k1 b -> on_bez (zreversed b) 1 <> z1 b.
Proof. intros N. rewrite on_bez_1. cbn. auto. Qed.
Theorem C46_reversed_not_backwards_refuted : exists b : Bez, exists t, 0 <= t <= 1 /\ forall s, on_bez (zreversed b) t <> on_bez b s.
Proof.
  (* the straight segment from (0,0) to (1,0) through an off-line control point would stay on y >= 0;
     the reversed data end at that control point *)
  exists (Bz (P 0 0) (P 0 1) (P 1 0) (P 1 0))%R, 1. split; [lra|]. intros s Q. rewrite on_bez_1 in Q. cbn [zreversed z2 k1] in Q.
  unfold on_bez, bern3 in Q. cbn in Q. injection Q as QX QY. toR. 
  change (0 = (1 - s) ^ 3 * 0 + 3 * (1 - s) ^ 2 * s * 0 + 3 * (1 - s) * s ^ 2 * 1 + s ^ 3 * 1) in QX.
  change (1 = (1 - s) ^ 3 * 0 + 3 * (1 - s) ^ 2 * s * 1 + 3 * (1 - s) * s ^ 2 * 0 + s ^ 3 * 0) in QY.
  assert (K : s * s * (3 - 2 * s) = 0) by lra. apply Rmult_integral in K. destruct K as [K|K].
  - assert (s = 0) by nra. subst s. lra.
  - assert (s = 3 / 2) by lra. subst s. lra.
Qed.
(** It is right exactly for curves whose first control point is the start point. *)
Theorem C46_reversed_partial (b : Bez) : (forall t, on_bez (zreversed b) t = on_bez b (1 - t)) <-> z1 b = k1 b.
Proof.
  split.
  - intros H. specialize (H 1). rewrite on_bez_1, Rminus_diag_eq, on_bez_0 in H by reflexivity. symmetry. exact H.
  - intros H t. destruct b as [a k c d]. cbn in H. subst k. unfold on_bez, bern3, zreversed. cbn [z1 z2 k1 k2].
    apply pt_ext; cbn [px py]; toR; ring.
Qed.

(** ** C66: flatness bounds the distance between the curve and its chord *)
Section C66.
  Context {E : Epsilon ROps}.
  Hypothesis He : 0 < EPS.
  Theorem C66_flatness (b : Bez) : exists f, flatness b = Ok f /\ 0 <= f /\
    forall t, 0 <= t <= 1 -> exists q, on_segment (Ln (z1 b) (z2 b)) q /\ euclid q (on_bez b t) <= Rmax f EPS.
  Proof. apply flatness_spec; auto. Qed.
  (** Hence the line fallback of the biarc approximation stays within the line flatness. *)
  Theorem C66_line_fallback (b : Bez) tol md lf : EPS <= lf -> peq (z1 b) (z2 b) = false -> (forall f, flatness b = Ok f -> f < lf) ->
    biarc_approximation b tol md lf = Ok [SLine (Ln (z1 b) (z2 b))] /\
    forall t, 0 <= t <= 1 -> exists q, on_segment (Ln (z1 b) (z2 b)) q /\ euclid q (on_bez b t) <= lf.
  Proof.
    intros L N H. destruct (flatness_spec He b) as (f & Hf & _ & D). pose proof (H f Hf) as Hl. split.
    - unfold biarc_approximation. replace (md + 2)%nat with (S (md + 1)) by lia. cbn [biarc]. rewrite N, Hf. cbn [rbind]. rnum.
      replace (Rltb f lf) with true by (symmetry; rbool; lra). reflexivity.
    - intros t Ht. destruct (D t Ht) as (q & S & Q). exists q. split; auto. eapply Rle_trans; [exact Q|]. apply Rmax_lub; lra.
  Qed.
End C66.
Example C66_ex : @flatness ROps eps6 (Bz (P 0 0) (P 0 0) (P 3 0) (P 3 0))%R = Ok 0 /\ @peq ROps eps6 (P 0 0)%R (P 3 0)%R = false.
Proof.
  assert (H6 : 0 < @EPS ROps eps6) by (unfold EPS, eps6; lra).
  assert (S : forall a : Pt, @peq ROps eps6 a a = true).
  { intros a. apply peq_true; auto. unfold euclid. change (T ROps) with R. rewrite !Rminus_diag_eq by reflexivity.
    unfold Rsqr. rewrite Rmult_0_l, Rplus_0_l, sqrt_0. exact H6. }
  split.
  - unfold flatness. cbn [z1 z2 k1 k2]. rewrite !S. reflexivity.
  - apply peq_false; auto. unfold euclid, EPS, eps6. cbn [px py]. apply Rsqr_incr_0_var; try apply sqrt_pos; rewrite Rsqr_sqrt; unfold Rsqr; lra.
Qed.

(** ** C67: extrema *)
(** Every parameter found is a zero of one coordinate's derivative inside (0, 1), and all of them are found. *)
Definition critical (b : Bez) (t : R) : Prop :=
  derivable_pt_lim (fun s => px (on_bez b s)) t 0 \/ derivable_pt_lim (fun s => py (on_bez b s)) t 0.
Theorem C67_extrema_partial (b : Bez) l : find_extrema b = Ok l -> forall t, In t l <-> 0 < t < 1 /\ critical b t.
Proof.
  rewrite find_extrema_roots. unfold critical.
  set (ax := px (z1 b)). set (bx := px (k1 b)). set (cx := px (k2 b)). set (dx := px (z2 b)).
  set (ay := py (z1 b)). set (by_ := py (k1 b)). set (cy := py (k2 b)). set (dy := py (z2 b)).
  change (fun s => px (on_bez b s)) with (bern3 ax bx cx dx). change (fun s => py (on_bez b s)) with (bern3 ay by_ cy dy).
  destruct (roots (qa ax bx cx dx) (qb ax bx cx dx) (qc ax bx cx dx)) as [lx|] eqn:RX; [|discriminate].
  destruct (roots (qa ay by_ cy dy) (qb ay by_ cy dy) (qc ay by_ cy dy)) as [ly|] eqn:RY; [|discriminate].
  cbn [rbind]. intros H. injection H as <-. intros t. rewrite filter_In, in_app_iff, andb_true_iff, !Rltb_true, !d_zero_iff.
  rewrite (roots_spec _ _ _ _ RX), (roots_spec _ _ _ _ RY). pose proof (roots_ok _ _ _ _ RX). pose proof (roots_ok _ _ _ _ RY). tauto.
Qed.
(** The end points and the extrema bound the whole curve: their bounding box contains it. *)
Theorem C67_box (b : Bez) l box : find_extrema b = Ok l ->
  in_box box (z1 b) -> in_box box (z2 b) -> (forall t, In t l -> in_box box (on_bez b t)) ->
  forall t, 0 <= t <= 1 -> in_box box (on_bez b t).
Proof.
  intros H A B D t Ht. pose proof (C67_extrema_partial b l H) as X. unfold in_box in *.
  assert (EX : forall s, 0 < s < 1 -> derivable_pt_lim (bern3 (px (z1 b)) (px (k1 b)) (px (k2 b)) (px (z2 b))) s 0 -> In s l).
  { intros s Hs Q. apply X. split; auto. left. exact Q. }
  assert (EY : forall s, 0 < s < 1 -> derivable_pt_lim (bern3 (py (z1 b)) (py (k1 b)) (py (k2 b)) (py (z2 b))) s 0 -> In s l).
  { intros s Hs Q. apply X. split; auto. right. exact Q. }
  cbn [on_bez px py] in *. change (T ROps) with R in *.
  repeat split.
  - apply (bern3_min _ _ _ _ l); auto; try lra. intros s Hs. apply D in Hs. lra.
  - apply (bern3_max _ _ _ _ l); auto; try lra. intros s Hs. apply D in Hs. lra.
  - apply (bern3_min _ _ _ _ l); auto; try lra. intros s Hs. apply D in Hs. lra.
  - apply (bern3_max _ _ _ _ l); auto; try lra. intros s Hs. apply D in Hs. lra.
Qed.
(** The function answers exactly when the cubic coefficients of both coordinates are non-zero ... *)
Definition cubic_coeff (a b c d : R) : R := d - 3 * c + 3 * b - a.
Theorem C67_defined (b : Bez) : (exists l, find_extrema b = Ok l) <->
  (cubic_coeff (px (z1 b)) (px (k1 b)) (px (k2 b)) (px (z2 b)) <> 0 /\ cubic_coeff (py (z1 b)) (py (k1 b)) (py (k2 b)) (py (z2 b)) <> 0).
Proof.
  rewrite find_extrema_roots. unfold cubic_coeff in *. change (T ROps) with R in *. split.
  - intros (l & H).
    destruct (roots (qa (px (z1 b)) _ _ _) _ _) as [lx|] eqn:RX; [|discriminate].
    cbn [rbind] in H. destruct (roots (qa (py (z1 b)) _ _ _) _ _) as [ly|] eqn:RY; [|discriminate].
    apply roots_ok in RX, RY. unfold qa in *. change (T ROps) with R in *. split; intros Z; [apply RX|apply RY]; lra.
  - intros [X Y].
    destruct (roots_total (qa (px (z1 b)) (px (k1 b)) (px (k2 b)) (px (z2 b))) (qb (px (z1 b)) (px (k1 b)) (px (k2 b)) (px (z2 b))) (qc (px (z1 b)) (px (k1 b)) (px (k2 b)) (px (z2 b)))) as (lx & ->); [unfold qa; change (T ROps) with R in *; lra|].
    destruct (roots_total (qa (py (z1 b)) (py (k1 b)) (py (k2 b)) (py (z2 b))) (qb (py (z1 b)) (py (k1 b)) (py (k2 b)) (py (z2 b))) (qc (py (z1 b)) (py (k1 b)) (py (k2 b)) (py (z2 b)))) as (ly & ->); [unfold qa; change (T ROps) with R in *; lra|].
    cbn [rbind]. eexists. reflexivity.
Qed.
(** ... so it raises for every curve made from a quadratic one. *)
Theorem C67_quadratic_refuted (q1 q2 q3 : Pt) : find_extrema (from_quadratic q1 q2 q3) = Raise ZeroDivisionError.
Proof.
  rewrite find_extrema_roots. destruct q1 as [a1 a2], q2 as [b1 b2], q3 as [c1 c2]. unfold from_quadratic, pdiv3, padd, pmul, psub. cbn [z1 z2 k1 k2 px py]. rnum.
  unfold roots at 1.
  match goal with |- context [qa ?a ?b ?c ?d] => assert (Z : qa a b c d = 0) by (unfold qa; field) end.
  rewrite Z. change (T ROps) with R in *.
  match goal with |- context [Rleb 0 (?u - _)] => replace (Rleb 0 (u - _)) with true end.
  - replace (Reqb (2 * 0) 0) with true by (symmetry; rbool; lra). reflexivity.
  - symmetry. rbool. match goal with |- context [?x * ?x] => pose proof (Rle_0_sqr x) as S end. unfold Rsqr in S. lra.
Qed.
Example C67_ex : exists l, find_extrema (Bz (P 0 0) (P 1 3) (P 3 (-2)) (P 5 1))%R = Ok l.
Proof. apply C67_defined. unfold cubic_coeff. cbn. split; lra. Qed.

(** ** C68: arc length *)
Theorem C68_length (b : Bez) tol fuel r L : 0 <= tol -> zlength fuel b tol = Ok r -> arc_length b L ->
  Rabs (r - L) <= R_sqrt.sqrt (8 / 3 * bend b * tol) / 2 /\ Rabs (r - L) <= (control_polygon_len b - euclid (z1 b) (z2 b)) / 2 /\
  euclid (z1 b) (z2 b) <= r <= control_polygon_len b.
Proof.
  intros Ht H [U M]. destruct (zlength_sound fuel b tol r (bend b) Ht (bend_bend b) H) as (A & B & AB & -> & G1 & G2 & CA & CB & (x & Ix & Lx) & Ub).
  pose proof (U x Ix) as K1. assert (K2 : L <= B) by (apply M; exact Ub).
  change (control_polygon_len b) with (cpl b). change (euclid (z1 b) (z2 b)) with (chord b).
  assert (Q : Rabs ((A + B) / 2 - L) <= (B - A) / 2) by (apply Rabs_le; lra). lra.
Qed.
Theorem C68_terminates (b : Bez) tol : 0 < tol -> exists n, forall fuel, (n <= fuel)%nat -> exists r, zlength fuel b tol = Ok r.
Proof. apply zlength_terminates. Qed.
Theorem C68_fuel_irrelevant (b : Bez) tol fuel fuel' r r' : zlength fuel b tol = Ok r -> zlength fuel' b tol = Ok r' -> r = r'.
Proof.
  intros A B. pose proof (zlength_stable _ _ _ _ A (Nat.max fuel fuel') ltac:(lia)) as A'.
  pose proof (zlength_stable _ _ _ _ B (Nat.max fuel fuel') ltac:(lia)) as B'. congruence.
Qed.
(** the arc length exists, so the error bound of [C68_length] is never about nothing *)
Theorem C68_arc_length_exists (b : Bez) : exists L, arc_length b L.
Proof. destruct (arc_length_exists b) as [L H]. exists L. exact H. Qed.
(** The approximation converges: for every requested precision some tolerance achieves it. *)
Theorem C68_converges (b : Bez) L d : arc_length b L -> 0 < d ->
  exists tol0, 0 < tol0 /\ forall tol, 0 < tol <= tol0 -> exists n, forall fuel, (n <= fuel)%nat ->
    exists r, zlength fuel b tol = Ok r /\ Rabs (r - L) <= d.
Proof.
  intros HL Hd. assert (B0 : 0 <= bend b) by (unfold bend; eapply Rle_trans; [apply euclid_pos|apply Rmax_l]).
  exists (d * d / (bend b + 1)). assert (DD : 0 < d * d) by (apply Rmult_lt_0_compat; auto).
  split; [apply Rdiv_lt_0_compat; lra|]. intros tol [T0 T1]. destruct (zlength_terminates b tol T0) as (n & Hn).
  exists n. intros fuel Hf. destruct (Hn fuel Hf) as (r & Hr). exists r. split; auto.
  destruct (C68_length b tol fuel r L (Rlt_le _ _ T0) Hr HL) as (Q & _). eapply Rle_trans; [exact Q|].
  assert (T2 : tol * (bend b + 1) <= d * d).
  { apply Rmult_le_compat_r with (r := bend b + 1) in T1; [|lra]. unfold Rdiv in T1. rewrite Rmult_assoc, Rinv_l, Rmult_1_r in T1 by lra. exact T1. }
  assert (S : 8 / 3 * bend b * tol <= (2 * d) * (2 * d)).
  { assert (0 <= bend b * tol) by (apply Rmult_le_pos; lra). lra. }
  apply sqrt_le_1_alt in S. rewrite sqrt_square in S by lra. lra.
Qed.

(** ** C69: circles and circular arcs as Bezier curves *)
Theorem C69_circle (c : Pt) (r : R) : 0 <= r ->
  bez_chain (bezier_circle c r) (P (px c + r)%R (py c)) (P (px c + r)%R (py c)) /\ length (bezier_circle c r) = 4%nat /\
  forall b t, In b (bezier_circle c r) -> 0 <= t <= 1 -> r <= euclid (on_bez b t) c <= r * (100028 / 100000).
Proof.
  intros Hr. split; [|split; [reflexivity|]].
  - destruct c as [cx cy]. unfold bezier_circle. cbn [bez_chain z1 z2 px py]. unfold padd. cbn [px py]. rnum.
    repeat split; apply pt_ext; cbn [px py]; toR; ring.
  - intros b t Hb Ht. destruct (circle_points c r b t Hb Ht) as [A B]. set (d := euclid (on_bez b t) c) in *.
    assert (0 <= d) by apply euclid_pos. split.
    + apply Rsqr_incr_0; unfold Rsqr; lra.
    + apply Rsqr_incr_0; unfold Rsqr; [|lra|lra]. eapply Rle_trans; [exact B|].
      assert (0 <= r * r) by (apply Rmult_le_pos; auto). lra.
Qed.
(** An arc of at most... any sweep that is not an odd number of full turns: same end points, same mid point,
    tangents perpendicular to the radii. *)
Theorem C69_arc (a : Arc_) : wf_arc a -> cos (sweep a / 4) <> 0 -> let b := bezier_circular_arc a in
  on_bez b 0 = ap1 a /\ on_bez b 1 = ap2 a /\ on_bez b (1/2) = turned (center a) (sweep a / 2) (ap1 a) /\
  dot (psub (k1 b) (z1 b)) (psub (ap1 a) (center a)) = 0 /\ dot (psub (k2 b) (z2 b)) (psub (ap2 a) (center a)) = 0.
Proof.
  intros W H b. rewrite on_bez_0, on_bez_1. repeat split.
  - apply circular_arc_mid; auto.
  - exact (proj1 (circular_arc_tangents a)).
  - exact (proj2 (circular_arc_tangents a)).
Qed.

(** ** C70: ellipses as Bezier curves *)
Theorem C70_ellipse_partial (e : ellipse ROps) (start sw : R) : 0 <= sw <= 2 * PI -> exists l, bezier_ellipse 5 e start sw = Ok l /\
  bez_chain l (epoint_at e start) (epoint_at e (start + sw)) /\
  forall b, In b l -> exists u v, start <= u < v /\ v <= start + sw /\ v - u <= PI / 2 /\
    b = bezier_elliptical_arc e u v /\ z1 b = epoint_at e u /\ z2 b = epoint_at e v.
Proof.
  intros Hs. pose proof PI_RGT_0 as PP.
  destruct (ellipse_loop_fuel e 5 start (start + PI / 2) (start + sw)) as (l & Hl & _); [cbn; lra|].
  exists l. unfold bezier_ellipse. rnum. split; [exact Hl|]. split.
  - apply (ellipse_loop_chain e 5 start (start + PI / 2)); auto; lra.
  - intros b Hb. destruct (ellipse_loop_quarters e 5 start (start + PI / 2) (start + sw) l b eq_refl Hl Hb) as (u & v & A & B & C & ->).
    exists u, v. repeat split; auto; tauto.
Qed.
(** For a clockwise arc (negative sweep) nothing at all is returned. *)
Theorem C70_negative_sweep_refuted (e : ellipse ROps) (start sw : R) fuel : sw < 0 -> bezier_ellipse fuel e start sw = Ok [].
Proof.
  intros Hs. unfold bezier_ellipse. pose proof PI_RGT_0 as PP. destruct fuel; cbn [ellipse_loop]; rnum;
  replace (Rleb (start + PI / 2) (start + sw)) with false by (symmetry; rbool; lra);
  replace (Rltb start (start + sw)) with false by (symmetry; rbool; lra); reflexivity.
Qed.

(** ** C71: sine waves *)
Theorem C71_sine_wave (amp wl : R) (n : nat) (o : Pt) :
  length (bezier_sine_wave amp wl n o) = (4 * n)%nat /\
  bez_chain (bezier_sine_wave amp wl n o) o (P (px o + INR n * wl)%R (py o)).
Proof.
  split.
  - unfold bezier_sine_wave. match goal with |- length (flat_map ?f _) = _ => assert (G : forall n k, length (flat_map f (seq k n)) = (4 * n)%nat) end.
    { clear. induction n as [|n IH]; intros k; [reflexivity|]. cbn [seq flat_map]. rewrite app_length, IH, map_length. unfold sine_cycle. cbn [length]. lia. }
    apply G.
  - pose proof (sine_wave_chain amp wl o n 0) as H. cbn [INR Nat.add] in H. rewrite Rmult_0_l, Rplus_0_r in H.
    destruct o as [o1 o2]. exact H.
Qed.

(** ** C72: path smoothing keeps the vertices *)
Section C72R.
  Context {E : Epsilon ROps}.
  Lemma smoothing_curve_ok (s1 : seg ROps) s2 cp sm m : 0 < s_length s1 -> (forall x, s2 = Some x -> 0 < s_length x) ->
    exists c nx, smoothing_curve s1 s2 cp sm m = Ok (c, nx).
  Proof.
    intros H1 H2. unfold smoothing_curve. destruct s2 as [s2|]; [|eexists _, _; reflexivity]. specialize (H2 s2 eq_refl).
    unfold pydiv. rnum. replace (Reqb (s_length s1 + s_length s2) 0) with false by (symmetry; rbool; lra). cbn [rbind].
    match goal with |- context [let '(a, b) := ?x in _] => destruct x as [u v] end. eexists _, _. reflexivity.
  Qed.
  Lemma smooth_loop_ok rest sm : forall (s1 : seg ROps) cp acc, 0 < s_length s1 -> (forall x, In x rest -> 0 < s_length x) ->
    exists sl cp' out, smooth_loop s1 cp rest sm acc = Ok (sl, cp', out) /\ 0 < s_length sl /\ (acc <> [] -> out <> []).
  Proof.
    induction rest as [|s2 r IH]; intros s1 cp acc H1 H2; [exists s1, cp, acc; auto|]. cbn [smooth_loop].
    destruct (smoothing_curve_ok s1 (Some s2) (Some cp) sm true H1) as (c & nx & ->).
    { intros x Q. injection Q as <-. apply H2. left; auto. }
    cbn [rbind]. destruct (IH s2 nx (add_curve c acc)) as (sl & cp' & out & Q & L & A); [apply H2; left; auto|intros; apply H2; right; auto|].
    exists sl, cp', out. repeat split; auto. intros N. apply A. unfold add_curve. destruct (negb _); auto. destruct acc; discriminate.
  Qed.
  (** Smoothing succeeds on every path of two or more segments of positive length. *)
  Theorem C72_total (s0 s1 : seg ROps) r sm : (forall s, In s (s0 :: s1 :: r) -> 0 < s_length s) -> peq (s_p1 s0) (s_p2 s0) = false ->
    exists out, smooth_path (s0 :: s1 :: r) sm = Ok (Some out).
  Proof.
    intros H N. unfold smooth_path. cbn [smooth_loop].
    assert (H0 : 0 < s_length s0) by (apply H; left; auto). assert (H1 : 0 < s_length s1) by (apply H; right; left; auto).
    destruct (smoothing_curve_ok s0 (Some s1) (Some (s_p1 s0)) sm true H0) as (c & nx & Q); [intros x X; injection X as <-; auto|].
    rewrite Q. cbn [rbind]. pose proof (smoothing_ends _ _ _ _ _ _ _ Q) as EN. unfold zends, ends in EN. injection EN as E1 E2.
    assert (A : add_curve c [] <> []) by (unfold add_curve; rewrite E1, E2, N; discriminate).
    destruct (smooth_loop_ok r sm s1 nx (add_curve c []) H1) as (sl & cp & acc & -> & L & NE); [intros; apply H; right; right; auto|].
    cbn [rbind]. destruct (peq (s_p2 (last r s1)) (s_p1 s0)).
    - destruct (smoothing_curve_ok sl (Some s0) (Some cp) sm true L) as (c2 & cp2 & ->); [intros x X; injection X as <-; auto|]. cbn [rbind].
      destruct (smoothing_curve_ok s0 (Some s1) (Some cp2) sm true H0) as (c3 & cp3 & ->); [intros x X; injection X as <-; auto|]. cbn [rbind].
      destruct acc as [|a acc]; [destruct (NE A); reflexivity|]. eexists. reflexivity.
    - destruct (smoothing_curve_ok sl None (Some cp) sm true L) as (c2 & cp2 & ->); [discriminate|]. cbn [rbind]. eexists. reflexivity.
  Qed.
End C72R.
Section C72.
  Context {N : NumOps} {E : Epsilon N}.
  (** One curve per non-degenerate segment, with the end points of that segment, in order. *)
  Theorem C72_open (s0 s1 : seg N) r sm out : peq (s_p2 (last r s1)) (s_p1 s0) = false ->
    smooth_path (s0 :: s1 :: r) sm = Ok (Some out) ->
    map (fun b => (z1 b, z2 b)) out = filter (fun e => negb (peq (fst e) (snd e))) (map (fun s => (s_p1 s, s_p2 s)) (s0 :: s1 :: r)).
  Proof. apply smooth_path_open. Qed.
  Theorem C72_closed (s0 s1 : seg N) r sm out : peq (s_p2 (last r s1)) (s_p1 s0) = true -> peq (s_p1 s0) (s_p2 s0) = false ->
    smooth_path (s0 :: s1 :: r) sm = Ok (Some out) ->
    map (fun b => (z1 b, z2 b)) out = filter (fun e => negb (peq (fst e) (snd e))) (map (fun s => (s_p1 s, s_p2 s)) (s0 :: s1 :: r)).
  Proof. apply smooth_path_closed. Qed.
End C72.

(** ** C73: biarc approximation *)
Section C73.
  Context {E : Epsilon ROps}.
  Hypothesis He : 0 < EPS.
  (** The result covers the curve in order: consecutive parameter intervals of the curve are replaced by a line
      between the end points of the interval that is within the line flatness (or EPSILON), by two joined arcs between
      the end points of the interval with equal directions at the joint, or - where the construction gives up - by
      nothing.  The arcs are within the tolerance at the sample points of the interval (see [sampled]), unless the
      interval is no longer than 2^(1 - max_depth). *)
  Theorem C73_covers_partial (b : Bez) tol md lf l : biarc_approximation b tol md lf = Ok l -> covers b lf tol ((1 / 2) ^ (md - 1)) 0 1 l.
  Proof. apply (biarc_covers He _ b tol md lf 0). Qed.
  Theorem C73_terminates (b : Bez) tol md lf : biarc_approximation b tol md lf <> Raise OutOfFuel.
  Proof. unfold biarc_approximation. apply biarc_fuel; auto; lia. Qed.
  Theorem C73_crash_refuted : EPS <= 1 / 1000 -> exists b : Bez, forall tol lf md, 0 <= tol -> lf <= 12 ->
    biarc_approximation b tol md lf = Raise AttributeError.
  Proof. intros H. exists crash_curve. intros tol lf md. apply crash; auto. Qed.
  (** closed curves disappear *)
  Theorem C73_closed_refuted (b : Bez) tol md lf : z1 b = z2 b -> biarc_approximation b tol md lf = Ok [].
  Proof.
    intros Q. unfold biarc_approximation. replace (md + 2)%nat with (S (md + 1)) by lia. cbn [biarc]. rewrite Q.
    replace (peq (z2 b) (z2 b)) with true; [reflexivity|]. symmetry. apply peq_true; auto. unfold euclid. change (T ROps) with R.
    rewrite !Rminus_diag_eq by reflexivity. unfold Rsqr. rewrite Rmult_0_l, Rplus_0_l, sqrt_0. exact He.
  Qed.
End C73.

(** ** C74: the arc with given end points and start tangent *)
Section C74.
  Context {E : Epsilon ROps}.
  Hypothesis He : 0 < EPS.
  Theorem C74_arc_from_tangent_partial (a tn b : Pt) rev :
    EPS <= euclid a b -> EPS <= euclid tn b -> EPS <= euclid tn (P 0 0) ->
    cross (psub tn a) (psub b a) <> 0 -> 0 <= dot (psub tn a) (psub b a) ->
    exists x, arc_from_tangent a tn b rev = Ok (Some x) /\ wf_arc x /\ - PI <= sweep x <= PI /\
      if rev then ap1 x = b /\ ap2 x = a /\ heading x a (psub a tn)
      else ap1 x = a /\ ap2 x = b /\ heading x a (psub tn a).
  Proof. apply from_tangent; auto. Qed.
  (** A tangent point behind p1, so that the arc makes more than half a turn: turning p1 about the centre returned by the angle
      returned does not give p2, in all cases. *)
  Theorem C74_behind_refuted (a tn b : Pt) rev : EPS <= euclid a b -> EPS <= euclid tn b -> EPS <= euclid tn (P 0 0) ->
    cross (psub tn a) (psub b a) <> 0 -> dot (psub tn a) (psub b a) < 0 ->
    exists x, arc_from_tangent a tn b rev = Ok (Some x) /\ PI < Rabs (sweep x) < 2 * PI /\ ~ wf_arc x.
  Proof. apply from_tangent_behind; auto. Qed.
  (** A tangent point in line with the end points: the division by zero is not caught. *)
  Theorem C74_straight_refuted (a tn b : Pt) rev : EPS <= euclid a b -> EPS <= euclid tn (P 0 0) ->
    cross (psub tn a) (psub b a) = 0 -> arc_from_tangent a tn b rev = Raise ZeroDivisionError.
  Proof.
    intros Hab Ht0 Hc. unfold arc_from_tangent.
    assert (Q1 : peq a b = false) by (apply peq_false; auto).
    assert (Q2 : peq a (padd a tn) = false).
    { apply peq_false. auto. replace (euclid a (padd a tn)) with (euclid tn (P 0 0)); auto.
      unfold euclid, padd. cbn [px py]. rnum. f_equal. unfold Rsqr. ring. }
    rewrite Q1, Q2. cbn [orb].
    assert (S0 : sin (angle2 a tn b) = 0).
    { unfold angle2. destruct (peq (psub tn a) (psub b a)); [apply sin_0|]. rnum.
      rewrite Hc. set (d := dot (psub tn a) (psub b a)) in *. clearbody d. change (T ROps) with R in d. unfold Ratan2.
      assert (A0 : atan (0 / d) = 0) by (unfold Rdiv; rewrite Rmult_0_l; apply atan_0).
      destruct (Rlt_dec 0 d); [rewrite A0; apply sin_0|]. destruct (Rlt_dec d 0); [|destruct (Rlt_dec 0 0); [lra|apply sin_0]].
      destruct (Rle_dec 0 0); [|lra]. rewrite A0, Rplus_0_l. apply sin_PI. }
    unfold pydiv. rnum. replace (2 * angle2 a tn b / 2) with (angle2 a tn b) by (symmetry; toR; field). rewrite S0, Rmult_0_r.
    replace (Reqb 0 0) with true by (symmetry; apply Reqb_true; reflexivity). reflexivity.
  Qed.
  (** A tangent point at the origin of coordinates gives no arc at all, wherever the end points are. *)
  Theorem C74_origin_refuted (a tn b : Pt) rev : euclid tn (P 0 0) < EPS -> arc_from_tangent a tn b rev = Ok None.
  Proof.
    intros H. unfold arc_from_tangent. replace (peq a (padd a tn)) with true; [rewrite orb_true_r; reflexivity|].
    symmetry. apply peq_true; auto. replace (euclid a (padd a tn)) with (euclid tn (P 0 0)); auto.
    unfold euclid, padd. cbn [px py]. rnum. f_equal. unfold Rsqr. ring.
  Qed.
End C74.
Example C74_ex : let a := P 1 1 : Pt in let tn := P 2 1 : Pt in let b := P 2 2 : Pt in
  1/1000000 <= euclid a b /\ 1/1000000 <= euclid tn b /\ 1/1000000 <= euclid tn (P 0 0) /\
  cross (psub tn a) (psub b a) <> 0 /\ 0 <= dot (psub tn a) (psub b a).
Proof.
  cbv zeta. unfold euclid, cross, dot, psub. cbn [px py]. rnum.
  repeat split; try lra; apply Rsqr_incr_0_var; try apply sqrt_pos; rewrite Rsqr_sqrt; unfold Rsqr; lra.
Qed.
Example C69_ex : wf_arc (mkarc (P 1 0) (P 0 1) 1 (PI / 2) (P 0 0))%R /\ cos (sweep (mkarc (P 1 0) (P 0 1) 1 (PI / 2) (P 0 0) : Arc_)%R / 4) <> 0.
Proof.
  split.
  - split; [cbn; lra|split].
    + cbn [ap1 center radius]. unfold euclid. cbn [px py]. replace ((1 - 0)² + (0 - 0)²) with 1 by (unfold Rsqr; lra). apply sqrt_1.
    + cbn [ap1 ap2 center sweep]. unfold turned. cbn [px py]. rewrite cos_PI2, sin_PI2. f_equal; lra.
  - cbn [sweep]. assert (0 < cos (PI / 2 / 4)); [|lra]. pose proof PI_RGT_0. apply cos_gt_0; lra.
Qed.
