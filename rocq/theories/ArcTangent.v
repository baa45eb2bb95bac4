(** * ArcTangent: arcs built from two points and a tangent. *)
From Verif Require Import Num NumR Geom GeomR GeomSpec GeomProofs GeomProofs2 GeomProofs3 GeomProofs4 GeomProofs5 GeomProofs7.
From Coq Require Import ZArith Reals Lra Lia Bool List Psatz.
Import ListNotations.
Local Open Scope R_scope.

(** from the rotation of the end points to the tangent: pure algebra *)
Lemma tangent_algebra (C S k wx wy ux uy vx vy : R) : C * C + S * S = 1 ->
  vx = (C * C - S * S) * wx - 2 * S * C * wy - wx ->
  vy = 2 * S * C * wx + (C * C - S * S) * wy - wy ->
  C * ux - S * uy = k * vx -> S * ux + C * uy = k * vy ->
  ux = 2 * k * S * (- wy) /\ uy = 2 * k * S * wx.
Proof.
  intros U -> -> H1 H2.
  assert (A : ux = C * (C * ux - S * uy) + S * (S * ux + C * uy)).
  { transitivity ((C * C + S * S) * ux); [rewrite U; ring|ring]. }
  assert (B : uy = - S * (C * ux - S * uy) + C * (S * ux + C * uy)).
  { transitivity ((C * C + S * S) * uy); [rewrite U; ring|ring]. }
  rewrite H1, H2 in A, B. assert (CC : C * C = 1 - S * S) by lra. split.
  - rewrite A. transitivity (k * (C * wx * (C * C + S * S - 1) - S * wy * (C * C + S * S + 1))); [ring|rewrite U; ring].
  - rewrite B. transitivity (k * (S * wx * (C * C + S * S + 1) + C * wy * (C * C + S * S - 1))); [ring|rewrite U; ring].
Qed.

Section A.
  Context {E : Epsilon ROps}.
  Hypothesis He : 0 < EPS.

  (** [u] is the direction of travel of arc [x] at the point [p] of its circle, up to a positive factor *)
  Definition heading (x : Arc_) (p u : Pt) : Prop :=
    exists k, 0 < k /\ px u = k * (sweep x * - (py p - py (center x))) /\ py u = k * (sweep x * (px p - px (center x))).

  Lemma sin_angle_cases (C S t : R) : - PI < t <= PI -> 0 <= cos t -> sin t <> 0 -> - PI / 2 <= t <= PI / 2 /\ 0 < t * sin t.
  Proof.
    intros Ht Hc Hs.
    assert (B : - PI / 2 <= t <= PI / 2).
    { split; apply Rnot_lt_le; intro L.
      - assert (cos t < 0); [|lra]. rewrite <- cos_neg. apply cos_lt_0; lra.
      - assert (cos t < 0); [|lra]. apply cos_lt_0; lra. }
    split; auto. assert (t <> 0) by (intros ->; apply Hs; apply sin_0).
    destruct (Rlt_le_dec 0 t).
    - apply Rmult_lt_0_compat; auto. apply sin_gt_0; lra.
    - assert (0 < sin (- t)) by (apply sin_gt_0; lra). rewrite sin_neg in *. nra.
  Qed.
  (** for more than half a turn the centre is put on the wrong side *)
  Lemma calc_center_major (a b : Pt) (r t : R) : 0 < r -> PI < Rabs t < 2 * PI -> EPS <= euclid a b -> euclid a b = 2 * r * Rabs (sin (t / 2)) ->
    exists c, calc_center a b r t = Ok c /\ ~ wf_arc (mkarc a b r t c).
  Proof.
    intros Hr Rt Hd Hc. pose proof PI_RGT_0.
    assert (T0 : exists t', t' <> 0 /\ - PI < t' < PI /\ Num.ltb (n := ROps) (Num.of_Z 0) t' = Num.ltb (n := ROps) (Num.of_Z 0) t /\ (t = 2 * PI - t' \/ t = - 2 * PI - t')).
    { unfold Rabs in Rt. destruct (Rcase_abs t).
      - exists (- 2 * PI - t). split; [lra|]. split; [lra|]. split; [|lra]. transitivity false; [apply Rltb_false|symmetry; apply Rltb_false]; cbn; lra.
      - exists (2 * PI - t). split; [lra|]. split; [lra|]. split; [|lra]. transitivity true; [apply Rltb_true|symmetry; apply Rltb_true]; cbn; lra. }
    destruct T0 as (t' & N & Rt' & SG & TT).
    assert (HS : Rabs (sin (t / 2)) = Rabs (sin (t' / 2))).
    { destruct TT as [->| ->].
      - replace ((2 * PI - t') / 2) with (PI - t' / 2) by lra. rewrite sin_PI_x. reflexivity.
      - replace ((- 2 * PI - t') / 2) with (- (t' / 2 + PI)) by lra. rewrite sin_neg, neg_sin, Ropp_involutive. reflexivity. }
    destruct (calc_center_wf He a b r t' Hr N ltac:(lra) Hd ltac:(congruence)) as (c & QC & W).
    exists c. split.
    - rewrite <- QC. unfold calc_center. rewrite SG. reflexivity.
    - intros (_ & _ & W2). destruct W as (_ & W0 & W1). cbn [ap1 ap2 center sweep radius] in *.
      assert (CT : cos t = cos t' /\ sin t = - sin t').
      { destruct TT as [->| ->].
        - replace (2 * PI - t') with (- t' + 2 * PI) by lra. rewrite cos_plus, sin_plus, cos_2PI, sin_2PI, cos_neg, sin_neg. lra.
        - replace (- 2 * PI - t') with (- (t' + 2 * PI)) by lra. rewrite cos_neg, sin_neg, cos_plus, sin_plus, cos_2PI, sin_2PI. lra. }
      destruct CT as [CT ST]. rewrite W1 in W2. unfold turned in W2. rewrite CT, ST in W2.
      pose proof (f_equal px W2) as X. pose proof (f_equal py W2) as Y. cbn [px py] in X, Y.
      assert (SN : sin t' <> 0).
      { destruct (Rlt_le_dec 0 t'); [pose proof (sin_gt_0 t'); lra|]. assert (0 < sin (- t')) by (apply sin_gt_0; lra). rewrite sin_neg in *. lra. }
      assert (PX : py a = py c) by (apply Rmult_eq_reg_l with (2 * sin t'); [|lra]; change (T ROps) with R in *; lra).
      assert (PY : px a = px c) by (apply Rmult_eq_reg_l with (2 * sin t'); [|lra]; change (T ROps) with R in *; lra).
      assert (Z : euclid a c = 0). { unfold euclid. rewrite PX, PY. change (T ROps) with R. rewrite !Rminus_diag_eq by reflexivity. unfold Rsqr. rewrite Rmult_0_l, Rplus_0_l. apply sqrt_0. }
      rewrite Z in W0. lra.
  Qed.
  Lemma from_tangent (a tn b : Pt) rev : EPS <= euclid a b -> EPS <= euclid tn b -> EPS <= euclid tn (P 0 0) ->
    cross (psub tn a) (psub b a) <> 0 -> 0 <= dot (psub tn a) (psub b a) ->
    exists x, arc_from_tangent a tn b rev = Ok (Some x) /\ wf_arc x /\ - PI <= sweep x <= PI /\
      if rev then ap1 x = b /\ ap2 x = a /\ heading x a (psub a tn)
      else ap1 x = a /\ ap2 x = b /\ heading x a (psub tn a).
  Proof.
    intros Hab Htb Ht0 Hc Hd. unfold arc_from_tangent.
    assert (Q1 : peq a b = false) by (apply peq_false; auto).
    assert (Q2 : peq a (padd a tn) = false).
    { apply peq_false. auto. replace (euclid a (padd a tn)) with (euclid tn (P 0 0)); auto.
      destruct a as [a1 a2], tn as [t1 t2]. unfold euclid, Rsqr, padd. cbn [px py]. rnum. f_equal. ring. }
    rewrite Q1, Q2. cbn [orb].
    assert (Na : a <> tn).
    { intros <-. apply Hc. destruct a as [a1 a2], b as [b1 b2]. unfold cross, psub. cbn [px py]. rnum. toR. ring. }
    assert (Nb : a <> b).
    { intros <-. apply Hc. destruct a as [a1 a2], tn as [b1 b2]. unfold cross, psub. cbn [px py]. rnum. toR. ring. }
    pose proof (angle2_turns He a tn b Na Nb Htb) as TT.
    pose proof (angle2_range a tn b) as RG.
    assert (Lu : 0 < euclid a tn). { destruct (euclid_pos a tn); auto. exfalso. apply Na, euclid_zero. auto. }
    assert (Lv : 0 < euclid a b) by lra.
    assert (CS : euclid a tn * euclid a b * cos (angle2 a tn b) = dot (psub tn a) (psub b a) /\
                 euclid a tn * euclid a b * sin (angle2 a tn b) = cross (psub tn a) (psub b a)).
    { unfold angle2.
      assert (F : peq (psub tn a) (psub b a) = false).
      { apply peq_false. auto. replace (euclid (psub tn a) (psub b a)) with (euclid tn b); auto.
        destruct a, tn, b. unfold euclid, Rsqr. gunf. f_equal. ring. }
      rewrite F. rnum. pose proof (atan2_polar (cross (psub tn a) (psub b a)) (dot (psub tn a) (psub b a))) as [C S].
      rewrite hypot_dc in C, S.
      assert (L1 : (plen (psub tn a) : R) = euclid a tn).
      { rewrite euclid_hypot. unfold plen, psub. cbn [px py]. rnum. rewrite <- hypot_sym. f_equal; ring. }
      assert (L2 : (plen (psub b a) : R) = euclid a b).
      { rewrite euclid_hypot. unfold plen, psub. cbn [px py]. rnum. rewrite <- hypot_sym. f_equal; ring. }
      rewrite L1, L2 in C, S. auto. }
    destruct CS as [CC SS].
    set (th := angle2 a tn b) in *. change (T ROps) with R in th. 
    assert (Cp : 0 <= cos th).
    { apply Rmult_le_reg_l with (euclid a tn * euclid a b); [nra|]. rewrite CC. lra. }
    assert (Sn : sin th <> 0). { intro Z. rewrite Z in SS. apply Hc. rewrite <- SS. toR. ring. }
    destruct (sin_angle_cases 0 0 th RG Cp Sn) as [B PS].
    unfold pydiv. rnum. replace (2 * th / 2) with th by lra.
    destruct (Reqb (2 * sin th) 0) eqn:Z; rbool; [lra|]. cbn [rbind].
    set (r := Rabs (pdist a b / (2 * sin th))).
    assert (R0 : r = euclid a b / (2 * Rabs (sin th))).
    { unfold r. rewrite dist_euclid. unfold Rdiv. rewrite Rabs_mult, Rabs_inv, Rabs_mult.
      rewrite (Rabs_pos_eq (euclid a b)), (Rabs_pos_eq 2) by lra. reflexivity. }
    assert (As : 0 < Rabs (sin th)) by (apply Rabs_pos_lt; auto).
    assert (Rp : 0 < r).
    { rewrite R0. unfold Rdiv. apply Rmult_lt_0_compat; [lra|]. apply Rinv_0_lt_compat. lra. }
    assert (Tn : 2 * th <> 0) by (intro Q; assert (Z0 : th = 0) by lra; rewrite Z0 in Sn; apply Sn, sin_0).
    assert (EQ : euclid a b = 2 * r * Rabs (sin (2 * th / 2))).
    { replace (2 * th / 2) with th by lra. rewrite R0. field. lra. }
    unfold turned, at_param in TT. cbn [px py p1 p2] in TT. injection TT as T1 T2.
    assert (U : cos th * cos th + sin th * sin th = 1).
    { pose proof (sin2_cos2 th) as Q. unfold Rsqr in Q. lra. }
    assert (D1 : cos (2 * th) = cos th * cos th - sin th * sin th) by apply cos_2a.
    assert (D2 : sin (2 * th) = 2 * sin th * cos th) by apply sin_2a.
    set (k := euclid a tn / euclid a b) in *.
    assert (Kp : 0 < k) by (unfold k, Rdiv; apply Rmult_lt_0_compat; auto; apply Rinv_0_lt_compat; auto).
    destruct rev.
    - destruct (calc_center_wf He b a r (- (2 * th)) Rp ltac:(lra) ltac:(lra)) as (c & QC & W).
      { rewrite euclid_sym. auto. }
      { rewrite euclid_sym, EQ. replace (- (2 * th) / 2) with (- (2 * th / 2)) by lra. rewrite sin_neg, Rabs_Ropp. reflexivity. }
      unfold arc_auto. rewrite QC. cbn [rmap]. eexists. split; [reflexivity|]. split; [exact W|].
      cbn [sweep ap1 ap2]. split; [lra|]. split; [reflexivity|split; [reflexivity|]].
      destruct W as (_ & _ & W). cbn [ap1 ap2 center sweep] in W. unfold turned in W.
      destruct a as [a1 a2], b as [b1 b2], tn as [t1 t2], c as [c1 c2]. cbn [px py] in *.
      injection W as W1 W2. rewrite cos_neg, sin_neg, D1, D2 in W1, W2.
      (* b = Rot(2 th) a *)
      assert (V1 : b1 - a1 = (cos th * cos th - sin th * sin th) * (a1 - c1) - 2 * sin th * cos th * (a2 - c2) - (a1 - c1)).
      { assert (X1 : (cos th * cos th - sin th * sin th) * (a1 - c1) - 2 * sin th * cos th * (a2 - c2) =
          (cos th * cos th + sin th * sin th) * (cos th * cos th + sin th * sin th) * (b1 - c1)).
        { rewrite W1 at 1. rewrite W2 at 1. ring. }
        rewrite U in X1. lra. }
      assert (V2 : b2 - a2 = 2 * sin th * cos th * (a1 - c1) + (cos th * cos th - sin th * sin th) * (a2 - c2) - (a2 - c2)).
      { assert (X1 : 2 * sin th * cos th * (a1 - c1) + (cos th * cos th - sin th * sin th) * (a2 - c2) =
          (cos th * cos th + sin th * sin th) * (cos th * cos th + sin th * sin th) * (b2 - c2)).
        { rewrite W1 at 1. rewrite W2 at 1. ring. }
        rewrite U in X1. lra. }
      destruct (tangent_algebra (cos th) (sin th) k (a1 - c1) (a2 - c2) (t1 - a1) (t2 - a2) (b1 - a1) (b2 - a2) U V1 V2) as [E1 E2]; [lra|lra|].
      exists (2 * k * sin th / (2 * th)). unfold psub. cbn [px py center sweep]. rnum. toR. split; [|split].
      + replace (2 * k * sin th / (2 * th)) with (k * (th * sin th) * (/ th * / th)) by (field; intros Z0; apply Tn; rewrite Z0; ring).
        apply Rmult_lt_0_compat; [apply Rmult_lt_0_compat; auto|]. apply (Rsqr_pos_lt (/ th)). apply Rinv_neq_0_compat; intros Z0; apply Tn; rewrite Z0; ring.
      + transitivity (- (t1 - a1)); [ring|]. rewrite E1. field. intros Z0; apply Tn; rewrite Z0; ring.
      + transitivity (- (t2 - a2)); [ring|]. rewrite E2. field. intros Z0; apply Tn; rewrite Z0; ring.
    - destruct (calc_center_wf He a b r (2 * th) Rp Tn ltac:(lra) Hab EQ) as (c & QC & W).
      unfold arc_auto. rewrite QC. cbn [rmap]. eexists. split; [reflexivity|]. split; [exact W|].
      cbn [sweep ap1 ap2]. split; [lra|]. split; [reflexivity|split; [reflexivity|]].
      destruct W as (_ & _ & W). cbn [ap1 ap2 center sweep] in W. unfold turned in W.
      destruct a as [a1 a2], b as [b1 b2], tn as [t1 t2], c as [c1 c2]. cbn [px py] in *.
      injection W as W1 W2. rewrite D1, D2 in W1, W2.
      destruct (tangent_algebra (cos th) (sin th) k (a1 - c1) (a2 - c2) (t1 - a1) (t2 - a2) (b1 - a1) (b2 - a2) U) as [E1 E2]; [lra|lra|lra|lra|].
      exists (2 * k * sin th / (2 * th)). unfold psub. cbn [px py center sweep]. rnum. toR. split; [|split].
      + replace (2 * k * sin th / (2 * th)) with (k * (th * sin th) * (/ th * / th)) by (field; intros Z0; apply Tn; rewrite Z0; ring).
        apply Rmult_lt_0_compat; [apply Rmult_lt_0_compat; auto|]. apply (Rsqr_pos_lt (/ th)). apply Rinv_neq_0_compat; intros Z0; apply Tn; rewrite Z0; ring.
      + rewrite E1. field. intros Z0; apply Tn; rewrite Z0; ring.
      + rewrite E2. field. intros Z0; apply Tn; rewrite Z0; ring.
  Qed.
  (** a tangent point behind: the arc returned does not lead from the one end point to the other *)
  Lemma from_tangent_behind (a tn b : Pt) rev : EPS <= euclid a b -> EPS <= euclid tn b -> EPS <= euclid tn (P 0 0) ->
    cross (psub tn a) (psub b a) <> 0 -> dot (psub tn a) (psub b a) < 0 ->
    exists x, arc_from_tangent a tn b rev = Ok (Some x) /\ PI < Rabs (sweep x) < 2 * PI /\ ~ wf_arc x.
  Proof.
    intros Hab Htb Ht0 Hc Hd. unfold arc_from_tangent. pose proof PI_RGT_0 as PP.
    assert (Q1 : peq a b = false) by (apply peq_false; auto).
    assert (Q2 : peq a (padd a tn) = false).
    { apply peq_false. auto. replace (euclid a (padd a tn)) with (euclid tn (P 0 0)); auto.
      destruct a as [a1 a2], tn as [t1 t2]. unfold euclid, Rsqr, padd. cbn [px py]. rnum. f_equal. ring. }
    rewrite Q1, Q2. cbn [orb].
    pose proof (angle2_range a tn b) as RG.
    assert (CS : plen (psub tn a) * plen (psub b a) * cos (angle2 a tn b) = dot (psub tn a) (psub b a) /\
                 plen (psub tn a) * plen (psub b a) * sin (angle2 a tn b) = cross (psub tn a) (psub b a)).
    { unfold angle2.
      assert (F : peq (psub tn a) (psub b a) = false).
      { apply peq_false. auto. replace (euclid (psub tn a) (psub b a)) with (euclid tn b); auto.
        destruct a, tn, b. unfold euclid, Rsqr. gunf. f_equal. ring. }
      rewrite F. rnum. pose proof (atan2_polar (cross (psub tn a) (psub b a)) (dot (psub tn a) (psub b a))) as [C S].
      rewrite hypot_dc in C, S. auto. }
    destruct CS as [CC SS]. set (th := angle2 a tn b) in *. change (T ROps) with R in th. set (m := plen (psub tn a) * plen (psub b a)) in *.
    change (T ROps) with R in m. assert (Lv : 0 < euclid a b) by lra.
    assert (M0 : 0 <= m) by (unfold m; apply Rmult_le_pos; apply sqrt_pos).
    assert (Cp : cos th < 0). { destruct (Rlt_le_dec (cos th) 0); auto. exfalso. assert (0 <= m * cos th) by (apply Rmult_le_pos; auto). change (T ROps) with R in *. lra. }
    assert (Sn : sin th <> 0). { intro Z. rewrite Z in SS. apply Hc. rewrite <- SS. toR. ring. }
    assert (TH : PI < Rabs (2 * th) < 2 * PI).
    { rewrite Rabs_mult, (Rabs_pos_eq 2) by lra. assert (HC : cos (Rabs th) < 0) by (unfold Rabs; destruct (Rcase_abs th); rewrite ?cos_neg; auto).
      assert (H1 : Rabs th <= PI) by (unfold Rabs; destruct (Rcase_abs th); lra). pose proof (Rabs_pos th) as H0.
      assert (H2 : Rabs th <> PI). { intros Q. apply Sn. unfold Rabs in Q. destruct (Rcase_abs th). - replace th with (- PI) by lra. rewrite sin_neg, sin_PI. ring. - rewrite Q. apply sin_PI. }
      assert (H3 : PI / 2 < Rabs th). { destruct (Rlt_le_dec (PI / 2) (Rabs th)); auto. exfalso. pose proof (cos_ge_0 (Rabs th)). lra. }
      lra. }
    unfold pydiv. rnum. replace (2 * th / 2) with th by lra.
    destruct (Reqb (2 * sin th) 0) eqn:Z; rbool; [lra|]. cbn [rbind].
    set (r := Rabs (pdist a b / (2 * sin th))).
    assert (R0 : r = euclid a b / (2 * Rabs (sin th))).
    { unfold r. rewrite dist_euclid. unfold Rdiv. rewrite Rabs_mult, Rabs_inv, Rabs_mult.
      rewrite (Rabs_pos_eq (euclid a b)), (Rabs_pos_eq 2) by lra. reflexivity. }
    assert (As : 0 < Rabs (sin th)) by (apply Rabs_pos_lt; auto).
    assert (Rp : 0 < r). { rewrite R0. unfold Rdiv. apply Rmult_lt_0_compat; [lra|]. apply Rinv_0_lt_compat. lra. }
    assert (EQ : euclid a b = 2 * r * Rabs (sin (2 * th / 2))) by (replace (2 * th / 2) with th by lra; rewrite R0; field; lra).
    destruct rev.
    - destruct (calc_center_major b a r (- (2 * th)) Rp) as (c & QC & W); [rewrite Rabs_Ropp; exact TH|rewrite euclid_sym; auto| |].
      { rewrite euclid_sym, EQ. replace (- (2 * th) / 2) with (- (2 * th / 2)) by lra. rewrite sin_neg, Rabs_Ropp. reflexivity. }
      unfold arc_auto. rewrite QC. cbn [rmap]. eexists. split; [reflexivity|]. cbn [sweep]. rewrite Rabs_Ropp. auto.
    - destruct (calc_center_major a b r (2 * th) Rp TH Hab EQ) as (c & QC & W).
      unfold arc_auto. rewrite QC. cbn [rmap]. eexists. split; [reflexivity|]. auto.
  Qed.
End A.
