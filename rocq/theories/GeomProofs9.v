(** * GeomProofs9: arcs under transforms, membership of points, heights. *)
From Verif Require Import Num NumR Geom GeomR GeomSpec GeomSpec2 GeomProofs GeomProofs2 GeomProofs3 GeomProofs4 GeomProofs5 GeomProofs7 GeomProofs8.
From Coq Require Import ZArith Reals Lra Lia Bool List Psatz.
Import ListNotations.
Local Open Scope R_scope.

Lemma chord_len (a : Arc_) : wf_arc a -> euclid (ap1 a) (ap2 a) = 2 * radius a * Rabs (sin (sweep a / 2)).
Proof.
  intros (R0 & R1 & R2). apply euclid_unique.
  - pose proof (Rabs_pos (sin (sweep a / 2))). apply Rmult_le_pos; lra.
  - rewrite R2. unfold turned. cbn [px py]. destruct (half_angle (sweep a)) as [C S]. rewrite C, S.
    pose proof (euclid_sqr' (ap1 a) (center a)) as Q. rewrite R1 in Q.
    set (k := sin (sweep a / 2)) in *. set (m := cos (sweep a / 2)) in *.
    assert (KM : m * m = 1 - k * k). { pose proof (sin2_cos2 (sweep a / 2)) as Z. unfold Rsqr in Z. fold k m in Z. lra. }
    set (ux := px (ap1 a) - px (center a)) in *. set (uy := py (ap1 a) - py (center a)) in *.
    transitivity (4 * (Rabs k * Rabs k) * (radius a * radius a)); [ring|]. rewrite Q.
    replace (Rabs k * Rabs k) with (k * k) by (unfold Rabs; destruct Rcase_abs; ring).
    transitivity (((m * m - k * k - 1) * (m * m - k * k - 1) + 4 * k * k * (m * m)) * (ux * ux + uy * uy)); [rewrite KM; ring|].
    replace (px (ap1 a) - (px (center a) + ((m * m - k * k) * ux - 2 * k * m * uy))) with (ux - ((m * m - k * k) * ux - 2 * k * m * uy)) by (unfold ux; ring).
    replace (py (ap1 a) - (py (center a) + (2 * k * m * ux + (m * m - k * k) * uy))) with (uy - (2 * k * m * ux + (m * m - k * k) * uy)) by (unfold uy; ring).
    ring.
Qed.


Lemma iso_turned m d o p t : isometry m d -> apply m (turned o t p) = turned (apply m o) (d * t) (apply m p).
Proof.
  intros (D & A & B & _). assert (Q : d = 1 \/ d = -1). { assert (Z : (d - 1) * (d + 1) = 0) by lra. apply Rmult_integral in Z as [Z|Z]; [left|right]; lra. }
  destruct m as [m0 m1 m2 m3 m4 m5], o, p. unfold apply, turned. cbn in A, B. 
  destruct Q as [-> | ->].
  - rewrite Rmult_1_l. apply pt_ext; cbn; rewrite A, B; ring.
  - replace (-1 * t) with (- t) by ring. rewrite cos_neg, sin_neg. apply pt_ext; cbn; rewrite A, B; ring.
Qed.
Lemma iso_dist m d a b : isometry m d -> euclid (apply m a) (apply m b) = euclid a b.
Proof.
  intros (D & A & B & C). apply euclid_unique; [apply euclid_pos|]. rewrite euclid_sqr'.
  destruct m as [m0 m1 m2 m3 m4 m5], a as [x y], b as [z w]. cbn in *. subst m4 m1.
  transitivity ((m0 * m0 + m3 * m3) * (x - z) * (x - z) + d * d * (m0 * m0 + m3 * m3) * (y - w) * (y - w)); [rewrite C, D; ring|ring].
Qed.

(** An arc with given ends and sweep has only one centre. *)
Lemma center_unique a b r t c c' : wf_arc (mkarc a b r t c) -> wf_arc (mkarc a b r t c') -> cos t <> 1 -> c = c'.
Proof.
  intros (_ & _ & W) (_ & _ & W') N. cbn in W, W'. rewrite W in W'. 
  destruct a as [x y], c as [u v], c' as [u' v']. unfold turned in W'. cbn [px py] in W'.
  pose proof (f_equal px W') as X. pose proof (f_equal py W') as Y. cbn [px py] in X, Y.
  pose proof (sin2_cos2 t) as Q. unfold Rsqr in Q. set (C := cos t) in *. set (S := sin t) in *.
  assert (A1 : (1 - C) * (u - u') + S * (v - v') = 0) by lra.
  assert (A2 : (1 - C) * (v - v') - S * (u - u') = 0) by lra.
  assert (K : 2 * (1 - C) <> 0) by lra.
  assert (U : 2 * (1 - C) * (u - u') = 0).
  { transitivity ((1 - C) * ((1 - C) * (u - u') + S * (v - v')) - S * ((1 - C) * (v - v') - S * (u - u'))); [|rewrite A1, A2; ring].
    transitivity (((1 - C) * (1 - C) + S * S) * (u - u')); [replace (S * S) with (1 - C * C) by lra; ring|ring]. }
  assert (V : 2 * (1 - C) * (v - v') = 0).
  { transitivity ((1 - C) * ((1 - C) * (v - v') - S * (u - u')) + S * ((1 - C) * (u - u') + S * (v - v'))); [|rewrite A1, A2; ring].
    transitivity (((1 - C) * (1 - C) + S * S) * (v - v')); [replace (S * S) with (1 - C * C) by lra; ring|ring]. }
  apply Rmult_integral in U as [U|U]; [contradiction|]. apply Rmult_integral in V as [V|V]; [contradiction|].
  f_equal; [replace u with u' by lra|replace v with v' by lra]; reflexivity.
Qed.

Section T.
  Context {E : Epsilon ROps}.
  Hypothesis He : 0 < EPS.

  Theorem arc_transform (a : Arc_) m d : wf_arc a -> Rabs (sweep a) <= PI -> EPS <= euclid (ap1 a) (ap2 a) ->
    isometry m d -> (d = 1 \/ m00 m <> 0) ->
    exists b, atransform a m = Ok b /\ wf_arc b /\ radius b = radius a /\ center b = apply m (center a) /\
      forall u, turned (center b) (u * sweep b) (ap1 b) = apply m (turned (center a) (u * sweep a) (ap1 a)).
  Proof.
    intros W Sp Hd I Dm. pose proof W as (R0 & R1 & R2). unfold atransform.
    pose proof I as (D & A & B & C).
    assert (Q : d = 1 \/ d = -1). { assert (Z : (d - 1) * (d + 1) = 0) by lra. apply Rmult_integral in Z as [Z|Z]; [left|right]; lra. }
    assert (F : Num.eqb (Num.abs (m00 m)) (Num.abs (m11 m)) = true).
    { rnum. apply Reqb_true. rewrite A, Rabs_mult. assert (Ad : Rabs d = 1) by (clear - Q; destruct Q as [-> | ->]; unfold Rabs; destruct Rcase_abs; lra). rewrite Ad. symmetry. ring. }
    rewrite F. cbn [negb].
    assert (G : (if Num.ltb (Num.mul (m00 m) (m11 m)) (Num.of_Z (n:=ROps) 0) then Num.opp (sweep a) else sweep a) = (d * sweep a)%R).
    { rnum. rewrite A. destruct Q as [-> | ->].
      - replace (m00 m * (1 * m00 m)) with (m00 m * m00 m)%R by (rewrite Rmult_1_l; reflexivity). pose proof (Rle_0_sqr (m00 m)) as Z. unfold Rsqr in Z.
        assert (T1 : Rltb (m00 m * m00 m) 0 = false) by (apply Rltb_false; lra). rewrite T1. toR. symmetry. ring.
      - destruct Dm as [Dm|Dm]; [lra|]. pose proof (Rsqr_pos_lt _ Dm) as Z. unfold Rsqr in Z.
        replace (m00 m * (-1 * m00 m)) with (- (m00 m * m00 m)) by (symmetry; ring).
        assert (T1 : Rltb (- (m00 m * m00 m)) 0 = true) by (apply Rltb_true; lra). rewrite T1. toR. symmetry. ring. }
    cbv zeta. rewrite G.
    assert (K : pydiv (dist2 (apply m (ap1 a)) (apply m (ap2 a))) (dist2 (ap1 a) (ap2 a)) = Ok 1).
    { assert (L : forall p q : Pt, (dist2 p q : R) = euclid p q * euclid p q) by (intros; rewrite euclid_sqr'; unfold dist2; rnum; ring).
      unfold pydiv. rewrite !L, (iso_dist _ _ _ _ I). assert (0 < euclid (ap1 a) (ap2 a) * euclid (ap1 a) (ap2 a)) by (apply Rmult_lt_0_compat; lra).
      rnum. assert (T1 : Reqb (euclid (ap1 a) (ap2 a) * euclid (ap1 a) (ap2 a)) 0 = false) by (apply Reqb_false; lra). rewrite T1. f_equal. toR. field. lra. }
    rewrite K. cbn [rbind]. 
    assert (RR : Num.mul (radius a) (1 : ROps) = radius a) by (rnum; toR; ring). rewrite RR. clear RR.
    assert (SN : sweep a <> 0). { intros Z. rewrite Z, turned_0 in R2. rewrite R2 in Hd. pose proof (euclid_sqr' (ap1 a) (ap1 a)) as Y. nra. }
    assert (Hs : sin (d * sweep a / 2) = d * sin (sweep a / 2)).
    { destruct Q as [-> | ->]; [rewrite !Rmult_1_l; auto|]. replace (-1 * sweep a / 2) with (- (sweep a / 2)) by lra. rewrite sin_neg. ring. }
    assert (Ad : Rabs d = 1). { destruct Q as [-> | ->]; [apply Rabs_R1|unfold Rabs; destruct Rcase_abs; lra]. }
    destruct (calc_center_wf He (apply m (ap1 a)) (apply m (ap2 a)) (radius a) (d * sweep a)) as (c & Cc & Cw); auto.
    - intros Z. apply Rmult_integral in Z as [Z|Z]; [lra|contradiction].
    - assert (- PI <= sweep a <= PI) by (clear - Sp; unfold Rabs in Sp; destruct Rcase_abs; lra). clear - H Q. destruct Q as [-> | ->]; lra.
    - rewrite (iso_dist _ _ _ _ I). exact Hd.
    - rewrite (iso_dist _ _ _ _ I), Hs, Rabs_mult, Ad, Rmult_1_l. apply chord_len, W.
    - unfold arc_auto. rewrite Cc. cbn [rmap]. eexists. split; [reflexivity|]. split; [exact Cw|]. split; [reflexivity|].
      assert (Wi : wf_arc (mkarc (apply m (ap1 a)) (apply m (ap2 a)) (radius a) (d * sweep a)%R (apply m (center a)))).
      { split; [exact R0|]. cbn [ap1 ap2 center sweep radius]. split; [rewrite (iso_dist _ _ _ _ I); exact R1|]. rewrite R2 at 1. apply iso_turned, I. }
      assert (CN : cos (d * sweep a) <> 1).
      { replace (cos (d * sweep a)) with (cos (sweep a)) by (destruct Q as [-> | ->]; [rewrite Rmult_1_l; auto|]; replace (-1 * sweep a) with (- sweep a) by ring; rewrite cos_neg; auto).
        intros Z. destruct (half_angle (sweep a)) as [Hc _]. pose proof (sin2_cos2 (sweep a / 2)) as Y. unfold Rsqr in Y.
        assert (sin (sweep a / 2) = 0) by nra. rewrite (chord_len a W), H, Rabs_R0 in Hd. lra. }
      pose proof (center_unique _ _ _ _ _ _ Cw Wi CN) as CE. cbn [center ap1 sweep]. split; [exact CE|]. intros u. rewrite CE, (iso_turned _ _ _ _ _ I). f_equal. ring.
  Qed.

  (** scaling multiplies the radius by the square of the scale *)
  Theorem arc_scale (a : Arc_) (k : R) b : EPS <= euclid (ap1 a) (ap2 a) -> atransform a (mscale k k None) = Ok b -> radius b = k * k * radius a.
  Proof.
    intros Hd. unfold atransform, mscale. cbn [m00 m11]. rnum.
    assert (T1 : Reqb (Rabs k) (Rabs k) = true) by (apply Reqb_true; reflexivity). rewrite T1. cbn [negb].
    assert (L : forall p q : Pt, (dist2 p q : R) = euclid p q * euclid p q) by (intros; rewrite euclid_sqr'; unfold dist2; rnum; ring).
    assert (K : pydiv (dist2 (apply (Mx k 0 0 0 k 0) (ap1 a)) (apply (Mx k 0 0 0 k 0) (ap2 a))) (dist2 (ap1 a) (ap2 a)) = Ok (k * k)%R).
    { unfold pydiv. assert (0 < euclid (ap1 a) (ap2 a) * euclid (ap1 a) (ap2 a)) by (apply Rmult_lt_0_compat; lra).
      rnum. assert (T2 : Reqb (dist2 (ap1 a) (ap2 a)) 0 = false) by (apply Reqb_false; rewrite L; lra). rewrite T2. f_equal. toR.
      rewrite (L (ap1 a)). transitivity (k * k * (euclid (ap1 a) (ap2 a) * euclid (ap1 a) (ap2 a)) / (euclid (ap1 a) (ap2 a) * euclid (ap1 a) (ap2 a))); [|field; clear - H; nra].
      f_equal. rewrite euclid_sqr'. unfold dist2, apply. cbn [px py m00 m01 m02 m10 m11 m12]. rnum. ring. }
    cbv zeta. match goal with |- context [rbind ?x _] => replace x with (Ok (k * k)%R : res ROps) by (symmetry; exact K) end. cbn [rbind].
    unfold arc_auto. intros H. match type of H with rmap _ ?x = _ => destruct x; [|discriminate] end. cbn in H. injection H as <-. cbn [radius]. rnum. ring.
  Qed.
End T.

(** ** height *)
Lemma height_model (a : Arc_) : wf_arc a -> aheight a = (radius a * (1 - Rabs (cos (sweep a / 2))))%R.
Proof.
  intros W. pose proof W as (R0 & R1 & R2). unfold aheight. rewrite midpoint_spec, dist_euclid. rnum.
  replace (euclid (at_param (Ln (ap1 a) (ap2 a)) (1 / 2)) (center a)) with (radius a * Rabs (cos (sweep a / 2))); [toR; ring|].
  symmetry. apply euclid_unique; [apply Rmult_le_pos; [lra|apply Rabs_pos]|]. rewrite R2. unfold at_param, turned. cbn [px py p1 p2].
  destruct (half_angle (sweep a)) as [C S]. rewrite C, S. pose proof (euclid_sqr' (ap1 a) (center a)) as Q. rewrite R1 in Q.
  set (k := sin (sweep a / 2)) in *. set (m := cos (sweep a / 2)) in *.
  assert (KM : k * k = 1 - m * m). { pose proof (sin2_cos2 (sweep a / 2)) as Z. unfold Rsqr in Z. fold k m in Z. lra. }
  set (ux := px (ap1 a) - px (center a)) in *. set (uy := py (ap1 a) - py (center a)) in *.
  replace (Rabs m) with (if Rcase_abs m then - m else m) by reflexivity.
  transitivity (m * m * (radius a * radius a)); [destruct Rcase_abs; ring|]. rewrite Q.
  replace (px (ap1 a) + 1 / 2 * (px (center a) + ((m * m - k * k) * ux - 2 * k * m * uy) - px (ap1 a)) - px (center a)) with (1/2 * (ux + (m * m - k * k) * ux - 2 * k * m * uy)) by (unfold ux; field).
  replace (py (ap1 a) + 1 / 2 * (py (center a) + (2 * k * m * ux + (m * m - k * k) * uy) - py (ap1 a)) - py (center a)) with (1/2 * (uy + 2 * k * m * ux + (m * m - k * k) * uy)) by (unfold uy; field).
  transitivity (m * m * (ux * ux + uy * uy) * (m * m + k * k)); [rewrite KM; ring|].
  transitivity (1 / 4 * ((1 + (m * m - k * k)) * (1 + (m * m - k * k)) + 4 * (m * m) * (k * k)) * (ux * ux + uy * uy)); [rewrite KM; field|field].
Qed.
Lemma height_true (a : Arc_) : wf_arc a ->
  euclid (at_param (Ln (ap1 a) (ap2 a)) (1/2)) (turned (center a) (1/2 * sweep a) (ap1 a)) = (radius a * (1 - cos (sweep a / 2)))%R.
Proof.
  intros W. pose proof W as (R0 & R1 & R2). apply euclid_unique.
  { pose proof (COS_bound (sweep a / 2)). apply Rmult_le_pos; lra. }
  replace (1/2 * sweep a) with (sweep a / 2) by lra. rewrite R2. unfold at_param, turned. cbn [px py p1 p2].
  destruct (half_angle (sweep a)) as [C S]. rewrite C, S. pose proof (euclid_sqr' (ap1 a) (center a)) as Q. rewrite R1 in Q.
  set (k := sin (sweep a / 2)) in *. set (m := cos (sweep a / 2)) in *.
  assert (KM : k * k = 1 - m * m). { pose proof (sin2_cos2 (sweep a / 2)) as Z. unfold Rsqr in Z. fold k m in Z. lra. }
  set (ux := px (ap1 a) - px (center a)) in *. set (uy := py (ap1 a) - py (center a)) in *.
  transitivity ((1 - m) * (1 - m) * (radius a * radius a)); [ring|]. rewrite Q.
  replace (px (ap1 a) + 1 / 2 * (px (center a) + ((m * m - k * k) * ux - 2 * k * m * uy) - px (ap1 a)) - (px (center a) + (m * ux - k * uy))) with ((m - 1) * (m * ux - k * uy)).
  2:{ transitivity (1/2 * ((1 + m * m - k * k) * ux - 2 * k * m * uy) - m * ux + k * uy); [rewrite KM; field|unfold ux, uy; field]. }
  replace (py (ap1 a) + 1 / 2 * (py (center a) + (2 * k * m * ux + (m * m - k * k) * uy) - py (ap1 a)) - (py (center a) + (k * ux + m * uy))) with ((m - 1) * (k * ux + m * uy)).
  2:{ transitivity (1/2 * ((1 + m * m - k * k) * uy + 2 * k * m * ux) - k * ux - m * uy); [rewrite KM; field|unfold ux, uy; field]. }
  transitivity ((m - 1) * (m - 1) * (m * m + k * k) * (ux * ux + uy * uy)); [rewrite KM; ring|ring].
Qed.
