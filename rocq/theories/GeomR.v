(** * GeomR: facts about the real-number instance used by the geometry proofs. *)
From Verif Require Import Num NumR Geom.
From Coq Require Import ZArith Reals Lra Lia Bool List Psatz.
Local Open Scope R_scope.

Ltac gunf := cbv beta iota zeta delta
  [feq is_zero TAU EPS padd psub pmul pneg padds psubs plen plen2 pis_zero palmost peq pnormal dot cross
   pdist dist2 vec llen apply compose translate px py p1 p2] in *; rnum.

Lemma lit_half : @lit ROps 5 (-1) = / 2.
Proof. cbn. unfold Rlit. cbn. lra. Qed.

(** ** hypot *)
Lemma hypot_sqr x y : Rhypot x y * Rhypot x y = x * x + y * y.
Proof. unfold Rhypot. apply sqrt_sqrt. nra. Qed.
Lemma hypot_pos x y : 0 <= Rhypot x y.
Proof. apply sqrt_pos. Qed.
Lemma hypot_zero x y : Rhypot x y = 0 <-> x = 0 /\ y = 0.
Proof.
  split.
  - intros H. pose proof (hypot_sqr x y) as S. rewrite H in S. split; nra.
  - intros [-> ->]. unfold Rhypot. replace (0 * 0 + 0 * 0) with 0 by ring. apply sqrt_0.
Qed.
Lemma hypot_unique x y r : 0 <= r -> r * r = x * x + y * y -> Rhypot x y = r.
Proof.
  intros Hr E. unfold Rhypot. rewrite <- E. apply sqrt_square; auto.
Qed.
Lemma hypot_sym x y : Rhypot (- x) (- y) = Rhypot x y.
Proof. unfold Rhypot. f_equal. ring. Qed.
Lemma hypot_scale k x y : Rhypot (k * x) (k * y) = Rabs k * Rhypot x y.
Proof.
  apply hypot_unique.
  - apply Rmult_le_pos; [apply Rabs_pos|apply hypot_pos].
  - replace (Rabs k * Rhypot x y * (Rabs k * Rhypot x y)) with
      ((Rabs k * Rabs k) * (Rhypot x y * Rhypot x y)) by ring.
    rewrite hypot_sqr, <- Rabs_mult. rewrite (Rabs_pos_eq (k * k)) by nra. ring.
Qed.

(** ** atan2: polar form and range *)
Lemma cos_atan_pos x : 0 < cos (atan x).
Proof. apply cos_gt_0; destruct (atan_bound x); lra. Qed.
Lemma sin_atan x : sin (atan x) = x * cos (atan x).
Proof.
  pose proof (tan_atan x) as H. unfold tan in H. pose proof (cos_atan_pos x).
  apply (Rmult_eq_reg_r (/ cos (atan x))); [|apply Rinv_neq_0_compat; lra].
  rewrite Rmult_assoc, Rinv_r, Rmult_1_r by lra. exact H.
Qed.
Lemma cos_atan_sqr x : cos (atan x) * cos (atan x) * (1 + x * x) = 1.
Proof.
  pose proof (sin2_cos2 (atan x)) as H. unfold Rsqr in H. rewrite sin_atan in H. lra.
Qed.

Lemma atan2_polar y x : Rhypot x y * cos (Ratan2 y x) = x /\ Rhypot x y * sin (Ratan2 y x) = y.
Proof.
  unfold Ratan2.
  assert (K : forall s, s * s = 1 -> 0 < s * x ->
            Rhypot x y = s * x / cos (atan (y / x))).
  { intros s Hs Hx. apply hypot_unique.
    - pose proof (cos_atan_pos (y / x)). apply Rlt_le, Rdiv_lt_0_compat; lra.
    - pose proof (cos_atan_pos (y / x)) as Hc. pose proof (cos_atan_sqr (y / x)) as Hq.
      assert (Hx0 : x <> 0) by (intro; subst; rewrite Rmult_0_r in Hx; lra).
      set (c := cos (atan (y / x))) in *.
      assert (Hq' : c * c * (x * x + y * y) = x * x).
      { replace (x * x + y * y) with (x * x * (1 + (y / x) * (y / x))) by (field; auto).
        replace (c * c * (x * x * (1 + y / x * (y / x)))) with (x * x * (c * c * (1 + y / x * (y / x)))) by ring.
        rewrite Hq. ring. }
      apply (Rmult_eq_reg_l (c * c)); [|nra]. rewrite Hq'. field_simplify; [|lra].
      replace (s ^ 2) with 1 by (rewrite <- Hs; ring). ring. }
  destruct (Rlt_dec 0 x) as [Hx|Hx].
  - rewrite (K 1) by lra. pose proof (cos_atan_pos (y / x)). split; [field; lra|].
    rewrite sin_atan. field. split; lra.
  - destruct (Rlt_dec x 0) as [Hx'|Hx'].
    + rewrite (K (-1)) by lra. pose proof (cos_atan_pos (y / x)).
      destruct (Rle_dec 0 y).
      * rewrite neg_cos, neg_sin, sin_atan. split; field; lra.
      * unfold Rminus. rewrite cos_plus, sin_plus, cos_neg, sin_neg, cos_PI, sin_PI, sin_atan.
        split; field; lra.
    + assert (x = 0) by lra. subst x. destruct (Rlt_dec 0 y); [|destruct (Rlt_dec y 0)].
      * rewrite (hypot_unique 0 y y) by (try lra; ring). rewrite cos_PI2, sin_PI2. lra.
      * rewrite (hypot_unique 0 y (- y)) by (try lra; ring). rewrite cos_neg, sin_neg, cos_PI2, sin_PI2. lra.
      * assert (y = 0) by lra. subst y. rewrite (hypot_unique 0 0 0) by (try lra; ring). lra.
Qed.

Lemma atan2_range y x : - PI < Ratan2 y x <= PI.
Proof.
  unfold Ratan2. pose proof (atan_bound (y / x)) as [A B]. pose proof PI_RGT_0.
  destruct (Rlt_dec 0 x); [lra|]. destruct (Rlt_dec x 0).
  - destruct (Rle_dec 0 y) as [Hy|Hy].
    + split; [lra|].
      assert (atan (y / x) <= 0); [|lra].
      rewrite <- atan_0. destruct (Rle_lt_dec (y / x) 0) as [[L|L]|L].
      * left. apply atan_increasing. auto.
      * rewrite L. lra.
      * exfalso. assert (0 <= y * / - x) by (apply Rmult_le_pos; [lra|left; apply Rinv_0_lt_compat; lra]).
        replace (y * / - x) with (- (y / x)) in H0 by (field; lra). lra.
    + split; [|lra].
      assert (0 < atan (y / x)); [|lra].
      rewrite <- atan_0. apply atan_increasing.
      replace (y / x) with (- y * / - x) by (field; lra). apply Rmult_lt_0_compat; [lra|].
      apply Rinv_0_lt_compat; lra.
  - destruct (Rlt_dec 0 y); [lra|]. destruct (Rlt_dec y 0); lra.
Qed.

(** Uniqueness: an angle in (-pi, pi] is determined by its cosine and sine. *)
Lemma angle_unique a b : - PI < a <= PI -> - PI < b <= PI -> cos a = cos b -> sin a = sin b -> a = b.
Proof.
  intros Ha Hb C S. pose proof PI_RGT_0.
  assert (D : cos (a - b) = 1).
  { rewrite cos_minus, C, S. pose proof (sin2_cos2 b) as Q. unfold Rsqr in Q. lra. }
  assert (E : sin (a - b) = 0) by (rewrite sin_minus, C, S; ring).
  destruct (Rtotal_order a b) as [L|[L|L]]; auto; exfalso.
  - assert (Hd : 0 < b - a < 2 * PI) by lra.
    assert (sin ((b - a) / 2) = 0).
    { pose proof (cos_2a_sin ((b - a) / 2)) as Q. replace (2 * ((b - a) / 2)) with (b - a) in Q by field.
      replace (b - a) with (- (a - b)) in Q by ring. rewrite cos_neg, D in Q.
      assert (sin (- (a - b) / 2) * sin (- (a - b) / 2) = 0) by nra.
      replace ((b - a) / 2) with (- (a - b) / 2) by field. apply Rmult_integral in H0. tauto. }
    assert (0 < sin ((b - a) / 2)) by (apply sin_gt_0; lra). lra.
  - assert (Hd : 0 < a - b < 2 * PI) by lra.
    assert (sin ((a - b) / 2) = 0).
    { pose proof (cos_2a_sin ((a - b) / 2)) as Q. replace (2 * ((a - b) / 2)) with (a - b) in Q by field.
      rewrite D in Q. assert (sin ((a - b) / 2) * sin ((a - b) / 2) = 0) by nra.
      apply Rmult_integral in H0. tauto. }
    assert (0 < sin ((a - b) / 2)) by (apply sin_gt_0; lra). lra.
Qed.
Lemma atan2_of_polar r a : 0 < r -> - PI < a <= PI -> Ratan2 (r * sin a) (r * cos a) = a.
Proof.
  intros Hr Ha. pose proof (atan2_polar (r * sin a) (r * cos a)) as [C S].
  assert (H : Rhypot (r * cos a) (r * sin a) = r).
  { apply hypot_unique; [lra|]. pose proof (sin2_cos2 a) as Q. unfold Rsqr in Q. nra. }
  rewrite H in *. apply angle_unique; auto; [apply atan2_range| |].
  - apply Rmult_eq_reg_l with r; lra.
  - apply Rmult_eq_reg_l with r; lra.
Qed.

(** ** Periodicity *)
Lemma cos_period_Z x k : cos (x + 2 * IZR k * PI) = cos x.
Proof.
  destruct k as [|p|p].
  - f_equal; ring.
  - rewrite <- (positive_nat_Z p), <- INR_IZR_INZ. apply cos_period.
  - rewrite <- (cos_period _ (Pos.to_nat p)). f_equal.
    rewrite INR_IZR_INZ, positive_nat_Z. rewrite <- Pos2Z.opp_pos, opp_IZR. ring.
Qed.
Lemma sin_period_Z x k : sin (x + 2 * IZR k * PI) = sin x.
Proof.
  destruct k as [|p|p].
  - f_equal; ring.
  - rewrite <- (positive_nat_Z p), <- INR_IZR_INZ. apply sin_period.
  - rewrite <- (sin_period _ (Pos.to_nat p)). f_equal.
    rewrite INR_IZR_INZ, positive_nat_Z. rewrite <- Pos2Z.opp_pos, opp_IZR. ring.
Qed.

(** ** normalize_angle *)
Definition congruent (a b : R) : Prop := exists k : Z, a = b + 2 * PI * IZR k.
Lemma normalize_congr (a c : R) : congruent (@normalize_angle ROps a c) a.
Proof.
  unfold normalize_angle, TAU. rnum. exists (- Zfloor ((a + PI - c) / (PI * 2)))%Z.
  rewrite opp_IZR. ring.
Qed.
Lemma normalize_range (a c : R) : c - PI <= @normalize_angle ROps a c < c + PI.
Proof.
  unfold normalize_angle, TAU. rnum. pose proof PI_RGT_0.
  pose proof (Zfloor_spec ((a + PI - c) / (PI * 2))) as [A B].
  set (k := IZR (Zfloor _)) in *.
  assert (Q : (a + PI - c) = (a + PI - c) / (PI * 2) * (PI * 2)) by (field; lra).
  set (q := (a + PI - c) / (PI * 2)) in *.
  assert (k * (PI * 2) <= q * (PI * 2)) by (apply Rmult_le_compat_r; lra).
  assert (q * (PI * 2) < (k + 1) * (PI * 2)) by (apply Rmult_lt_compat_r; lra).
  lra.
Qed.
Lemma congruent_cos a b : congruent a b -> cos a = cos b.
Proof. intros [k ->]. rewrite <- (cos_period_Z b k). f_equal. ring. Qed.
Lemma congruent_sin a b : congruent a b -> sin a = sin b.
Proof. intros [k ->]. rewrite <- (sin_period_Z b k). f_equal. ring. Qed.

(** ** calc_rotation *)
Lemma calc_rotation_near {E : Epsilon ROps} (s e : R) : Rabs (s - e) < EPS -> calc_rotation s e = 0.
Proof. intros H. unfold calc_rotation, feq. rnum. apply Rltb_true in H. rewrite H. reflexivity. Qed.
Lemma calc_rotation_far {E : Epsilon ROps} (s e : R) : EPS <= Rabs (s - e) ->
  congruent (calc_rotation s e) (e - s) /\ - PI <= calc_rotation s e <= PI.
Proof.
  intros H. unfold calc_rotation, feq. rnum. apply Rltb_false in H. rewrite H.
  destruct (normalize_congr s 0) as [k Hk]. destruct (normalize_congr e 0) as [j Hj].
  pose proof (normalize_range s 0) as Rs. pose proof (normalize_range e 0) as Re.
  unfold TAU. rnum. rewrite Hk, Hj in *.
  set (a := s + 2 * PI * IZR k) in *. set (b := e + 2 * PI * IZR j) in *.
  pose proof PI_RGT_0.
  destruct (Rltb (b - a) (- PI)) eqn:L; [|destruct (Rltb PI (b - a)) eqn:G]; rbool.
  - split; [|lra]. exists (j - k + 1)%Z. rewrite plus_IZR, minus_IZR. unfold a, b. ring.
  - split; [|lra]. exists (j - k - 1)%Z. rewrite !minus_IZR. unfold a, b. ring.
  - split; [|lra]. exists (j - k)%Z. rewrite minus_IZR. unfold a, b. ring.
Qed.
Lemma least_rotation r d : congruent r d -> - PI <= r <= PI -> forall n : Z, Rabs r <= Rabs (d + 2 * PI * IZR n).
Proof.
  intros [k Hk] Hr n. pose proof PI_RGT_0.
  replace (d + 2 * PI * IZR n) with (r + 2 * PI * IZR (n - k)) by (rewrite minus_IZR; lra).
  destruct (Z.eq_dec (n - k) 0) as [E|NE]; [rewrite E; replace (r + 2 * PI * 0) with r by ring; lra|].
  apply Rle_trans with PI; [apply Rabs_le; lra|].
  destruct (Z_lt_ge_dec (n - k) 0) as [L|G].
  - assert (IZR (n - k) <= -1) by (apply IZR_le; lia).
    assert (2 * PI * IZR (n - k) <= 2 * PI * -1) by (apply Rmult_le_compat_l; lra).
    rewrite Rabs_left1 by lra. lra.
  - assert (1 <= IZR (n - k)) by (apply IZR_le; lia).
    assert (2 * PI * 1 <= 2 * PI * IZR (n - k)) by (apply Rmult_le_compat_l; lra).
    rewrite Rabs_pos_eq by lra. lra.
Qed.
