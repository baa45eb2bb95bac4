(** * BezierProofs5: a smooth, well-conditioned curve on which biarc_approximation crashes. *)
From Verif Require Import Num NumR Geom GeomR GeomSpec GeomProofs GeomProofs2 GeomProofs3 GeomProofs4 GeomProofs5 GeomProofs7 Ellipse Bezier BezierSpec BezierProofs BezierProofs3 BezierProofs4 ArcTangent.
From Coq Require Import ZArith Reals Lra Lia Bool List Psatz.
Import ListNotations.
Local Open Scope R_scope.

Definition crash_curve : Bez :=
  Bz (P (-16)%R (-12)%R) (P 0%R 0%R) (P 22%R 0%R) (P 38%R (-12)%R).

Section C.
  Context {E : Epsilon ROps}.
  Hypothesis He : 0 < EPS.
  Hypothesis He2 : EPS <= 1 / 1000.
  Lemma peq_no (a b : Pt) : EPS * EPS <= (px a - px b) * (px a - px b) + (py a - py b) * (py a - py b) -> peq a b = false.
  Proof. intros H. apply peq_false. auto. pose proof (euclid_sqr a b). pose proof (euclid_pos a b). nra. Qed.
  Lemma ee : EPS * EPS <= 1 / 1000000.
  Proof. nra. Qed.
  Lemma unit_of (x y l : R) : 0 < l -> l * l = x * x + y * y -> 1 <= l -> punit (P x y : Pt) = P (x / l)%R (y / l)%R.
  Proof.
    intros Hl Q L1. unfold punit, plen2. cbn [px py]. rnum. pose proof ee.
    destruct (Rltb (EPS * EPS) (x * x + y * y)) eqn:Z; rbool; [|nra].
    rewrite <- Q. rewrite sqrt_square by lra. reflexivity.
  Qed.
  Lemma crash_tan0 : ztangent crash_curve (of_Z 0) = P (4/5)%R (3/5)%R.
  Proof.
    unfold ztangent, crash_curve. cbn [z1 z2 k1 k2].
    assert (A : is_zero (of_Z 0 : ROps) = true) by (apply isz; auto; rnum; rewrite Rabs_R0; auto). rewrite A.
    rewrite peq_no by (cbn [px py]; pose proof ee; lra).
    unfold psub. cbn [px py]. rnum. rewrite (unit_of _ _ 20) by lra. apply pt_ext; cbn [px py]; toR; lra.
  Qed.
  Lemma crash_tan1 : ztangent crash_curve (of_Z 1) = P (4/5)%R (-3/5)%R.
  Proof.
    unfold ztangent, crash_curve. cbn [z1 z2 k1 k2].
    assert (A : is_zero (of_Z 1 : ROps) = false) by (apply isz_false; auto; rnum; rewrite Rabs_R1; lra). rewrite A.
    assert (B : feq (of_Z 1 : ROps) (of_Z 1) = true).
    { unfold feq. rnum. rbool. rewrite Rminus_diag_eq by auto. rewrite Rabs_R0. auto. }
    rewrite B. rewrite peq_no by (cbn [px py]; pose proof ee; lra).
    unfold psub, pneg. cbn [px py]. rnum. rewrite (unit_of _ _ 20) by lra. apply pt_ext; cbn [px py]; toR; lra.
  Qed.
  Lemma crash_inflections : subdivide_inflections crash_curve = Ok [Some crash_curve].
  Proof.
    assert (Q : find_inflections crash_curve false = (0, 0)).
    { unfold find_inflections, crash_curve. cbn [z1 z2 k1 k2]. unfold psub, pneg, pmul. cbn [px py]. rnum.
      rewrite peq_no by (cbn [px py]; pose proof ee; lra).
      match goal with |- context [Rabs (2 * ?a)] => set (A := a); assert (AV : A = -144) by (unfold A; lra) end.
      match goal with |- context [Rabs (?b * ?b - 4 * A * ?c)] => set (B := b); set (C := c); assert (BV : B = 144) by (unfold B; lra); assert (CV : C = -264) by (unfold C; lra) end.
      rewrite AV, BV, CV. clear - He.
      replace (144 * 144 - 4 * -144 * -264) with (-131328) by lra.
      rewrite (Rabs_left (-131328)) by lra. rewrite (Rabs_left (2 * -144)) by lra.
      destruct (Rltb 0 (- (2 * -144))) eqn:Z; rbool; [|lra].
      destruct (Rltb (-131328) 0) eqn:Z1; rbool; [|lra]. cbn [negb andb].
      set (s := R_sqrt.sqrt (- -131328)).
      assert (S1 : 0 <= s) by apply sqrt_pos. assert (S2 : s * s = 131328) by (unfold s; rewrite sqrt_sqrt; lra).
      assert (S3 : 360 < s) by nra.
      assert (R2 : (- (144) + s) / (2 * -144) < 0).
      { replace ((- (144) + s) / (2 * -144)) with (- ((s - 144) / 288)) by field. lra. }
      match goal with |- context [if Rltb ((- (144) + s) / (2 * -144)) ?e || ?y then _ else _] => destruct (Rltb ((- (144) + s) / (2 * -144)) e || y) eqn:Z2 end.
      - rewrite (proj2 (Reqb_true 0 0) eq_refl), orb_true_r. reflexivity.
      - exfalso. apply orb_false_iff in Z2. destruct Z2 as [Z2 _]. rbool. lra. }
    unfold subdivide_inflections. rewrite Q. rnum.
    assert (F : Rltb 0 0 = false) by (rbool; lra). rewrite F. cbn [andb]. rewrite andb_false_r. reflexivity.
  Qed.
  Lemma crash_joint : exists ang, joint_arc crash_curve = Some (mkarc (z1 crash_curve) (z2 crash_curve) 45 ang (P 11%R (-48)%R)) /\ 1 / 2 <= Rabs ang.
  Proof.
    unfold joint_arc. rewrite crash_tan0, crash_tan1. unfold crash_curve. cbn [z1 z2].
    match goal with |- context [intersection ?a ?b _ _ _] => assert (I : intersection a b false false false = Some (P 11%R (-48)%R)) end.
    { unfold intersection, intersection_mu, cross_terms, lbisector. rewrite !midpoint_spec. unfold at_param, padd, psub, pneg. cbn [px py p1 p2 orb andb]. rnum.
      match goal with |- context [Rabs ?d] => set (D := d); assert (DV : D = -324/5 :> R) by (unfold D; lra) end.
      rewrite DV. rewrite (Rabs_left (-324/5)) by lra. destruct (Rltb (- (-324/5)) EPS) eqn:Z; rbool; [lra|]. cbn [orb andb].
      f_equal. unfold lpoint_at, vec, padd, pmul, psub. cbn [px py p1 p2]. rnum. apply pt_ext; cbn [px py]; toR; lra. }
    rewrite I.
    assert (R45 : pdist (P 11%R (-48)%R) (P (-16)%R (-12)%R : Pt) = 45).
    { rewrite dist_euclid. apply euclid_unique; cbn [px py]; lra. }
    rewrite R45. eexists. split; [reflexivity|].
    assert (A : 1 / 2 <= Rabs (angle2 (P 11%R (-48)%R) (P (-16)%R (-12)%R) (P 38%R (-12)%R : Pt))).
    { unfold angle2, psub. cbn [px py]. rewrite peq_no by (cbn [px py]; rnum; pose proof ee; lra).
      unfold cross, dot. cbn [px py]. rnum. unfold Ratan2.
      match goal with |- context [Rlt_dec ?a ?b] => destruct (Rlt_dec a b) as [L|L]; [|exfalso; lra] end.
      match goal with |- context [atan ?x] => assert (X : x = -24/7 :> R) by lra; rewrite X end.
      replace (-24/7) with (- (24/7)) by lra. rewrite atan_opp, Rabs_Ropp.
      assert (PI / 4 < atan (24/7)) by (rewrite <- atan_1; apply atan_increasing; lra).
      pose proof PI2_3_2. unfold PI2 in *. rewrite Rabs_pos_eq by lra. lra. }
    destruct (peq _ _); [|exact A]. rnum. rewrite Rabs_Ropp. exact A.
  Qed.
  Lemma crash_flat : exists fl, flatness crash_curve = Ok fl /\ 12 <= fl.
  Proof.
    unfold flatness, crash_curve. cbn [z1 z2 k1 k2].
    rewrite peq_no by (cbn [px py]; pose proof ee; lra). cbn [andb].
    set (l := Ln _ _).
    destruct (ldist_segment He l (P 0%R 0%R)) as (q1 & A1 & (u & Hu & ->) & _).
    destruct (ldist_segment He l (P 22%R 0%R)) as (q2 & A2 & _ & _).
    rewrite A1, A2. cbn [rbind]. rewrite pymax_R. eexists. split; [reflexivity|].
    eapply Rle_trans; [|apply Rmax_l].
    pose proof (euclid_pos (at_param l u) (P 0%R 0%R)) as Q. pose proof (euclid_sqr (at_param l u) (P 0%R 0%R)) as S.
    set (e := euclid (at_param l u) (P 0%R 0%R)) in *. clearbody e. unfold at_param, l in S. cbn [px py p1 p2] in S.
    change (T ROps) with R in *. clear - S Q. set (x := -16 + u * (38 - -16) - 0) in S. clearbody x.
    replace (-12 + u * (-12 - -12) - 0) with (-12) in S by ring. nra.
  Qed.
  Lemma crash_mid : zpoint_at crash_curve (lit 5 (-1)) = P 11%R (-3)%R.
  Proof.
    rewrite (lit_half : @eq R _ _). rewrite point_at_general; auto.
    - unfold on_bez, crash_curve, bern3. cbn [z1 z2 k1 k2 px py]. apply pt_ext; cbn [px py]; toR; lra.
    - rewrite Rabs_pos_eq; lra.
    - rewrite Rabs_left; lra.
  Qed.
  Theorem crash (tol lf : R) md : 0 <= tol -> lf <= 12 -> biarc_approximation crash_curve tol md lf = Raise AttributeError.
  Proof.
    intros Ht Hl. unfold biarc_approximation. replace (md + 2)%nat with (S (md + 1)) by lia.
    set (f := (md + 1)%nat). cbn [biarc].
    assert (N12 : peq (z1 crash_curve) (z2 crash_curve) = false) by (apply peq_no; cbn; pose proof ee; lra).
    rewrite N12. destruct crash_flat as (fl & F1 & F2). rewrite F1. cbn [rbind]. rnum.
    destruct (Rltb fl lf) eqn:Z; rbool; [lra|]. cbn [Nat.eqb]. rewrite crash_inflections. cbn [rbind length Nat.ltb Nat.leb].
    destruct crash_joint as (ang & -> & Ha). cbn [radius center].
    destruct (Rltb 45 EPS) eqn:Z1; rbool; [lra|]. cbn [orb]. unfold alen. cbn [radius sweep]. rnum.
    destruct (Rltb (Rabs (45 * ang)) EPS) eqn:Z2; rbool.
    { rewrite Rabs_mult, (Rabs_pos_eq 45) in Z2 by lra. lra. }
    match goal with |- context [zpoint_at crash_curve ?h] => replace (zpoint_at crash_curve h) with (P 11%R (-3)%R : Pt) by (symmetry; exact crash_mid) end.
    assert (PL : plen (psub (P 11%R (-3)%R) (P 11%R (-48)%R : Pt)) = 45 :> R).
    { unfold plen, psub. cbn [px py]. rnum. apply hypot_unique; lra. }
    rewrite PL. unfold pydiv. rnum. destruct (Reqb 45 0) eqn:Z3; rbool; [lra|]. cbn [rbind].
    match goal with |- context [pdist ?a ?b] => assert (PJ : a = P 11%R (-3)%R :> Pt) end.
    { unfold padd, pmul, psub. cbn [px py]. rnum. apply pt_ext; cbn [px py]; toR; field. }
    rewrite PJ.
    assert (PD : pdist (P 11%R (-3)%R) (P 11%R (-3)%R : Pt) = 0 :> R) by (rewrite dist_euclid; apply euclid_zero; reflexivity).
    rewrite PD. assert (Z4 : Rltb tol 0 = false) by (rbool; lra). rewrite Z4, andb_false_r.
    unfold crash_curve at 1 2 3 4 5 6 7 8. cbn [z1 z2 k1 k2].
    assert (Q1 : peq (P 0%R 0%R) (P (-16)%R (-12)%R : Pt) = false) by (apply peq_no; cbn [px py]; pose proof ee; lra).
    assert (Q2 : peq (P 22%R 0%R) (P 38%R (-12)%R : Pt) = false) by (apply peq_no; cbn [px py]; pose proof ee; lra).
    rewrite Q1, Q2. cbn [negb].
    assert (A1 : arc_from_tangent (P (-16)%R (-12)%R) (P 0%R 0%R) (P 11%R (-3)%R : Pt) false = Ok None).
    { unfold arc_from_tangent.
      assert (Q : peq (P (-16)%R (-12)%R) (padd (P (-16)%R (-12)%R) (P 0%R 0%R) : Pt) = true).
      { apply peq_true; auto. replace (euclid _ _) with 0; auto. symmetry. apply euclid_zero. unfold padd. cbn [px py]. rnum.
        apply pt_ext; cbn [px py]; toR; lra. }
      rewrite Q, orb_true_r. reflexivity. }
    rewrite A1. cbn [rbind].
    destruct (from_tangent He (P 38%R (-12)%R) (P 22%R 0%R) (P 11%R (-3)%R) true) as (x & X & _).
    - pose proof (euclid_sqr (P 38%R (-12)%R) (P 11%R (-3)%R)) as S. pose proof (euclid_pos (P 38%R (-12)%R) (P 11%R (-3)%R)). cbn [px py] in S. nra.
    - pose proof (euclid_sqr (P 22%R 0%R) (P 11%R (-3)%R)) as S. pose proof (euclid_pos (P 22%R 0%R) (P 11%R (-3)%R)). cbn [px py] in S. nra.
    - pose proof (euclid_sqr (P 22%R 0%R) (P 0%R 0%R)) as S. pose proof (euclid_pos (P 22%R 0%R) (P 0%R 0%R)). cbn [px py] in S. nra.
    - unfold cross, psub. cbn [px py]. rnum. toR. lra.
    - unfold dot, psub. cbn [px py]. rnum. toR. lra.
    - change (k2 crash_curve) with (P 22%R 0%R : Pt); rewrite X. reflexivity.
  Qed.
End C.
