(** * PropsGeom2: arcs, lines, boxes and paths, continued (C101-C108).  Over R. *)
From Verif Require Import Num NumR Geom GeomR GeomSpec GeomSpec2 GeomProofs GeomProofs2 GeomProofs3 GeomProofs4 GeomProofs5 GeomProofs7
  GeomProofs8 GeomProofs9 GeomProofs10 PropsGeom Gcode Cam OffsetSpec OffsetProofs FilletSpec.
From Coq Require Import ZArith Reals Lra Lia Bool List Psatz.
Import ListNotations.
Local Open Scope R_scope.

(** ** C101: distance from a point to an arc *)
Section C101.
  Context {E : Epsilon ROps}.
  Hypothesis He : 0 < EPS.
  Theorem C101_distance_partial (a : Arc_) (p : Pt) : plain_arc a ->
    exists d t, adist a p false = Ok d /\ nearest a p t /\ Rabs (d - t) < EPS /\
      (EPS <= euclid p (ap1 a) \/ Rabs (sweep a) <= PI -> d = t).
  Proof. intros (A & B & C & D & F). apply arc_distance; auto. Qed.
  (** With [segment], points beside the arc are answered by -1. *)
  Theorem C101_over_arc (a : Arc_) (p : Pt) u : plain_arc a -> 0 < u < 1 -> radially a u p ->
    EPS <= euclid p (ap1 a) \/ Rabs (sweep a) <= PI -> exists d, adist a p true = Ok d /\ nearest a p d.
  Proof. intros (A & B & C & D & F). intros. eapply over_arc; eauto. Qed.
  Theorem C101_beside_arc (a : Arc_) (p : Pt) u : plain_arc a -> 1 < u -> u * Rabs (sweep a) < 2 * PI -> radially a u p ->
    EPS <= euclid p (ap1 a) \/ Rabs (sweep a) <= PI -> adist a p true = Ok (-1).
  Proof. intros (A & B & C & D & F). intros. eapply beside_arc; eauto. Qed.
  (** A full circle is treated as its start point: from the opposite point of the circle the answer is the diameter. *)
  Theorem C101_full_circle_refuted : exists (a : Arc_) (p : Pt), wf_arc a /\ sweep a = 2 * PI /\ nearest a p 0 /\ adist a p false = Ok 2.
  Proof.
    exists (mkarc (P 1 0) (P 1 0) 1 (2 * PI) (P 0 0)), (P (-1) 0).
    assert (Z : euclid (P (-1) 0) (P (-1) 0) = 0) by (apply euclid_unique; cbn; lra).
    split; [|split; [reflexivity|split]].
    - split; [cbn; lra|]. split; [apply euclid_unique; cbn; lra|]. cbn [ap1 ap2 center sweep]. unfold turned. rewrite cos_2PI, sin_2PI. ptx; ring.
    - split; [|intros q _; apply euclid_pos]. exists (P (-1) 0). split; [|exact Z]. exists (1/2). split; [lra|]. cbn [ap1 center sweep].
      replace (1 / 2 * (2 * PI)) with PI by lra. unfold turned. rewrite cos_PI, sin_PI. ptx; ring.
    - unfold adist. assert (Q : peq (P 1 0 : Pt) (P 1 0) = true). { apply peq_true; auto. replace (euclid (P 1 0) (P 1 0)) with 0; auto. symmetry. apply euclid_unique; cbn; lra. }
      cbn [ap1 ap2 radius]. rewrite Q, orb_true_r. f_equal. etransitivity; [apply dist_euclid|]. apply euclid_unique; cbn; lra.
  Qed.
End C101.
Example C101_example : let a : Arc_ := mkarc (P 1 0) (P 0 1) 1 (PI / 2) (P 0 0) in @plain_arc eps6 a /\ radially a (1/2) (P 2 2).
Proof.
  cbv zeta. pose proof PI2_3_2. pose proof PI_4. split.
  - split; [apply C42_example|]. cbn [ap1 ap2 radius sweep]. split; [unfold EPS, eps6; lra|]. split.
    + pose proof (euclid_sqr (P 1 0) (P 0 1)) as Q. pose proof (euclid_pos (P 1 0) (P 0 1)). cbn in Q. unfold EPS, eps6. nra.
    + rewrite (Rabs_pos_eq (PI / 2)) by lra. split; [lra|]. right. unfold EPS, eps6. rewrite Rabs_left by lra. lra.
  - exists (2 * R_sqrt.sqrt 2). pose proof (sqrt_lt_R0 2). split; [lra|]. cbn [ap1 center sweep]. replace (1 / 2 * (PI / 2)) with (PI / 4) by lra.
    unfold turned, at_param. cbn [p1 p2 px py]. rewrite cos_PI4, sin_PI4. ptx; field; lra.
Qed.

(** ** C102: transforming an arc *)
Section C102.
  Context {E : Epsilon ROps}.
  Hypothesis He : 0 < EPS.
  (** A rotation (with [d] = 1) or a mirroring (with [d] = -1), followed by a translation. *)
  Theorem C102_isometry_partial (a : Arc_) m d : wf_arc a -> Rabs (sweep a) <= PI -> EPS <= euclid (ap1 a) (ap2 a) ->
    isometry m d -> d = 1 \/ m00 m <> 0 ->
    exists b, atransform a m = Ok b /\ wf_arc b /\ radius b = radius a /\
      forall u, reached (SArc b) u = apply m (reached (SArc a) u).
  Proof. intros A B C D F. destruct (arc_transform He a m d A B C D F) as (b & Q1 & Q2 & Q3 & _ & Q4). exists b. auto. Qed.
  (** Scaling by [k] gives the radius of a scaling by the square of [k]. *)
  Theorem C102_scale_refuted (a : Arc_) k b : EPS <= euclid (ap1 a) (ap2 a) -> wf_arc a -> 0 < k -> k <> 1 ->
    atransform a (mscale k k None) = Ok b -> ap1 b = apply (mscale k k None) (ap1 a) /\
    euclid (ap1 b) (apply (mscale k k None) (center a)) = k * radius a /\ radius b = k * k * radius a /\ radius b <> k * radius a.
  Proof.
    intros Hd W Hk Hn H. pose proof (arc_scale He a k b Hd H) as Q. destruct W as (R0 & R1 & _).
    assert (A1 : ap1 b = apply (mscale k k None) (ap1 a)).
    { unfold atransform in H. destruct (negb _); [discriminate|]. destruct (pydiv _ _) as [x|]; [|discriminate]. cbn [rbind] in H.
      unfold arc_auto in H. match type of H with rmap _ ?x = _ => destruct x; [|discriminate] end. cbn [rmap] in H. injection H as <-. reflexivity. }
    split; [exact A1|]. split; [|split; [exact Q|]].
    - rewrite A1. apply euclid_unique; [apply Rmult_le_pos; lra|]. rewrite <- R1. transitivity (k * k * (euclid (ap1 a) (center a) * euclid (ap1 a) (center a))); [ring|].
      rewrite euclid_sqr'. unfold apply, mscale. cbn [px py m00 m01 m02 m10 m11 m12]. rnum. ring.
    - rewrite Q. intros Z. apply Hn. apply Rmult_eq_reg_r with (k * radius a); [lra|]. apply Rgt_not_eq, Rmult_lt_0_compat; lra.
  Qed.
  (** Different scales are refused (AssertionError). *)
  Theorem C102_distorting (a : Arc_) m : Rabs (m00 m) <> Rabs (m11 m) -> atransform a m = Raise ValueError.
  Proof. intros H. unfold atransform. rnum. apply Reqb_false in H. rewrite H. reflexivity. Qed.
  (** Mirroring at the diagonal keeps the direction of rotation: a quarter circle about the origin becomes one about (1,1). *)
  Theorem C102_mirror_refuted : EPS < 1 -> exists (a b : Arc_) m, wf_arc a /\ isometry m (-1) /\ atransform a m = Ok b /\
    center b <> apply m (center a).
  Proof.
    intros H1. pose proof PI_RGT_0. pose (a := mkarc (P 1 0) (P 0 1) 1 (PI / 2) (P 0 0) : Arc_). pose (m := Mx 0 1 0 1 0 0 : mat ROps).
    assert (D : euclid (P 0 1) (P 1 0) * euclid (P 0 1) (P 1 0) = 2) by (rewrite euclid_sqr; cbn; lra).
    assert (Dp : 1 < euclid (P 0 1) (P 1 0)) by (pose proof (euclid_pos (P 0 1) (P 1 0)); nra).
    destruct (calc_center_wf He (P 0 1) (P 1 0) 1 (PI / 2)) as (c & Q & W); try lra.
    { replace (PI / 2 / 2) with (PI / 4) by lra. rewrite sin_PI4, Rabs_pos_eq by (apply Rlt_le, Rdiv_lt_0_compat; [lra|apply sqrt_lt_R0; lra]).
      apply euclid_unique; [apply Rmult_le_pos; [lra|apply Rlt_le, Rdiv_lt_0_compat; [lra|apply sqrt_lt_R0; lra]]|]. cbn.
      assert (S2 : R_sqrt.sqrt 2 * R_sqrt.sqrt 2 = 2) by (apply sqrt_sqrt; lra). assert (0 < R_sqrt.sqrt 2) by (apply sqrt_lt_R0; lra).
      set (x := R_sqrt.sqrt 2) in *. transitivity (4 / (x * x)); [field; lra|rewrite S2; lra]. }
    exists a, (mkarc (P 0 1) (P 1 0) 1 (PI / 2) c), m. split; [apply C42_example|]. split; [unfold isometry, m; cbn; repeat split; lra|]. split.
    - unfold atransform, m, a. cbn [m00 m11 ap1 ap2 sweep radius]. rnum.
      rewrite (proj2 (Reqb_true (Rabs 0) (Rabs 0)) eq_refl). cbn [negb].
      rewrite (proj2 (Rltb_false (0 * 0) 0)) by lra.
      replace (apply (Mx 0 1 0 1 0 0 : mat ROps) (P 1 0)) with (P 0 1 : Pt) by (apply pt_ext; unfold apply; cbn; lra).
      replace (apply (Mx 0 1 0 1 0 0 : mat ROps) (P 0 1)) with (P 1 0 : Pt) by (apply pt_ext; unfold apply; cbn; lra).
      assert (K : pydiv (dist2 (P 0 1 : Pt) (P 1 0)) (dist2 (P 1 0 : Pt) (P 0 1)) = Ok 1).
      { unfold pydiv, dist2. cbn [px py]. rnum. rewrite (proj2 (Reqb_false _ 0)) by lra. f_equal. toR. field. }
      rewrite K. cbn [rbind]. unfold arc_auto. replace (1 * 1) with 1 by ring.
      match goal with |- rmap _ ?x = _ => replace x with (Ok c : res Pt) by (symmetry; exact Q) end. reflexivity.
    - cbn [center]. destruct W as (_ & _ & W). cbn [ap1 ap2 center sweep] in W. unfold a. cbn [center]. intros Z.
      rewrite Z in W. unfold apply, turned, m in W. cbn [px py m00 m01 m02 m10 m11 m12] in W. rewrite cos_PI2, sin_PI2 in W. pose proof (f_equal px W) as X. cbn in X. lra.
  Qed.
  (** More than half a circle: even the identity moves the centre. *)
  Theorem C102_major_refuted : EPS < 1 -> exists (a b : Arc_), wf_arc a /\ atransform a IDENTITY = Ok b /\ center b <> center a.
  Proof.
    intros H1. pose proof PI_RGT_0.
    assert (D : euclid (P 1 0) (P 0 (-1)) * euclid (P 1 0) (P 0 (-1)) = 2) by (rewrite euclid_sqr; cbn; lra).
    assert (Dp : 1 < euclid (P 1 0) (P 0 (-1))) by (pose proof (euclid_pos (P 1 0) (P 0 (-1))); nra).
    destruct (calc_center_wf He (P 1 0) (P 0 (-1)) 1 (PI / 2)) as (c & Q & W); try lra.
    { replace (PI / 2 / 2) with (PI / 4) by lra. rewrite sin_PI4, Rabs_pos_eq by (apply Rlt_le, Rdiv_lt_0_compat; [lra|apply sqrt_lt_R0; lra]).
      apply euclid_unique; [apply Rmult_le_pos; [lra|apply Rlt_le, Rdiv_lt_0_compat; [lra|apply sqrt_lt_R0; lra]]|]. cbn.
      assert (S2 : R_sqrt.sqrt 2 * R_sqrt.sqrt 2 = 2) by (apply sqrt_sqrt; lra). assert (0 < R_sqrt.sqrt 2) by (apply sqrt_lt_R0; lra).
      set (x := R_sqrt.sqrt 2) in *. transitivity (4 / (x * x)); [field; lra|rewrite S2; lra]. }
    assert (Q' : calc_center (P 1 0 : Pt) (P 0 (-1)) 1 (3 * (PI / 2)) = Ok c).
    { rewrite <- Q. unfold calc_center. rnum. rewrite (proj2 (Rltb_true 0 (3 * (PI / 2)))), (proj2 (Rltb_true 0 (PI / 2))) by lra. reflexivity. }
    exists (mkarc (P 1 0) (P 0 (-1)) 1 (3 * (PI / 2)) (P 0 0)), (mkarc (P 1 0) (P 0 (-1)) 1 (3 * (PI / 2)) c). split; [|split].
    - split; [cbn; lra|]. split; [apply euclid_unique; cbn; lra|]. cbn [ap1 ap2 center sweep]. unfold turned. rewrite cos_3PI2, sin_3PI2. ptx; ring.
    - unfold atransform, IDENTITY. cbn [m00 m11 ap1 ap2 sweep radius]. rnum.
      rewrite (proj2 (Reqb_true (Rabs 1) (Rabs 1)) eq_refl). cbn [negb]. rewrite (proj2 (Rltb_false (1 * 1) 0)) by lra.
      assert (I : forall x : Pt, apply (Mx 1 0 0 0 1 0 : mat ROps) x = x) by (intros [x y]; apply pt_ext; unfold apply; cbn [px py m00 m01 m02 m10 m11 m12]; rnum; match goal with |- ?a = ?b => change (@eq R a b) end; ring). rewrite !I.
      assert (K : pydiv (dist2 (P 1 0 : Pt) (P 0 (-1))) (dist2 (P 1 0 : Pt) (P 0 (-1))) = Ok 1).
      { unfold pydiv, dist2. cbn [px py]. rnum. rewrite (proj2 (Reqb_false _ 0)) by lra. f_equal. toR. field. }
      rewrite K. cbn [rbind]. replace (1 * 1) with 1 by ring. unfold arc_auto.
      match goal with |- rmap _ ?x = _ => replace x with (Ok c : res Pt) by (symmetry; exact Q') end. reflexivity.
    - cbn [center]. destruct W as (_ & _ & W). cbn [ap1 ap2 center sweep] in W. intros Z. rewrite Z in W.
      unfold turned in W. cbn [px py] in W. rewrite cos_PI2, sin_PI2 in W. pose proof (f_equal py W) as X. cbn in X. lra.
  Qed.
End C102.

(** ** C103: an arc from its end points and centre *)
Section C103.
  Context {E : Epsilon ROps}.
  Hypothesis He : 0 < EPS.
  Theorem C103_small_partial (a b c : Pt) : 0 < euclid a c -> euclid b c = euclid a c -> EPS <= euclid a b ->
    let s := arc_from_center a b c false in
    wf_arc s /\ ap1 s = a /\ ap2 s = b /\ center s = c /\ - PI < sweep s <= PI /\ sweep s <> 0.
  Proof.
    intros H1 H2 H3 s. unfold s, arc_from_center. cbn [ap1 ap2 center sweep].
    assert (Q : turned c (angle2 c a b) a = b) by (apply (angle2_turned He c a b (euclid a c)); auto).
    split; [|split; [reflexivity|split; [reflexivity|split; [reflexivity|split; [apply angle2_range|]]]]].
    - pose proof (dist_euclid a c) as D. unfold wf_arc. cbn [ap1 ap2 center sweep radius]. 
      split; [exact (eq_ind_r (fun x => 0 < x) H1 D)|]. split; [symmetry; exact D|]. symmetry. exact Q.
    - intros Z. rewrite Z, turned_0 in Q. rewrite Q in H3. assert (Y : euclid b b = 0) by (apply euclid_unique; [lra|toR; ring]). lra.
  Qed.
  (** The large arc is given the wrong direction: it does not lead to its end point, unless it is half a circle. *)
  Theorem C103_large_refuted (a b c : Pt) : 0 < euclid a c -> euclid b c = euclid a c -> EPS <= euclid a b ->
    sweep (arc_from_center a b c false) <> PI -> 
    let s := arc_from_center a b c true in
    PI < Rabs (sweep s) < 2 * PI /\ ap1 s = a /\ ap2 s = b /\ center s = c /\ turned c (sweep s) a <> b.
  Proof.
    intros H1 H2 H3 Hp s. pose proof (C103_small_partial a b c H1 H2 H3) as (W & _ & _ & _ & Rg & Nz). unfold s, arc_from_center in *. cbn [ap1 ap2 center sweep] in *.
    set (t := angle2 c a b) in *. unfold TAU. rnum. pose proof PI_RGT_0.
    assert (Q : turned c t a = b) by (destruct W as (_ & _ & W); symmetry; exact W).
    assert (G : exists k : R, (k = 1 \/ k = -1) /\ (if Rltb t 0 then - (PI * 2) else PI * 2) - t = k * (2 * PI) - t /\ 0 < k * t /\ k * t < PI).
    { destruct (Rltb t 0) eqn:L; rbool; [exists (-1)|exists 1]; (split; [auto|split; [ring|]]); [lra|]. assert (t <> PI) by exact Hp. lra. }
    destruct G as (k & Hk & -> & K1 & K2). split; [destruct Hk as [-> | ->]; unfold Rabs; destruct Rcase_abs; lra|].
    split; [reflexivity|]. split; [reflexivity|]. split; [reflexivity|]. rewrite <- Q. intros Z.
    assert (Zt : turned c (k * (2 * PI) - t) a = turned c (- t) a).
    { unfold turned. assert (Cq : cos (k * (2 * PI) - t) = cos (- t) /\ sin (k * (2 * PI) - t) = sin (- t)).
      { destruct Hk as [-> | ->]; [rewrite <- (cos_period_Z (- t) 1), <- (sin_period_Z (- t) 1)|rewrite <- (cos_period_Z (- t) (-1)), <- (sin_period_Z (- t) (-1))]; split; f_equal; ring. }
      destruct Cq as [-> ->]. reflexivity. }
    rewrite Zt in Z. assert (Y : turned c (2 * t) a = a).
    { replace (2 * t) with (t + t) by ring. rewrite <- turned_add, <- Z, turned_add. replace (t + - t) with 0 by ring. apply turned_0. }
    pose proof (euclid_sqr a c) as D2.
    unfold turned in Y. pose proof (f_equal px Y) as X1. pose proof (f_equal py Y) as X2. cbn [px py] in X1, X2.
    set (ux := px a - px c) in *. set (uy := py a - py c) in *.
    assert (S2 : sin (2 * t) * (ux * ux + uy * uy) = 0).
    { transitivity (ux * (sin (2 * t) * ux + cos (2 * t) * uy) - uy * (cos (2 * t) * ux - sin (2 * t) * uy)); [ring|].
      replace (sin (2 * t) * ux + cos (2 * t) * uy) with uy by (unfold uy at 1; lra). replace (cos (2 * t) * ux - sin (2 * t) * uy) with ux by (unfold ux at 1; lra). ring. }
    assert (C2 : cos (2 * t) * (ux * ux + uy * uy) = ux * ux + uy * uy).
    { transitivity (ux * (cos (2 * t) * ux - sin (2 * t) * uy) + uy * (sin (2 * t) * ux + cos (2 * t) * uy)); [ring|].
      replace (sin (2 * t) * ux + cos (2 * t) * uy) with uy by (unfold uy at 1; lra). replace (cos (2 * t) * ux - sin (2 * t) * uy) with ux by (unfold ux at 1; lra). ring. }
    assert (Pos : 0 < ux * ux + uy * uy) by (rewrite <- D2; apply Rmult_lt_0_compat; lra).
    assert (C2' : cos (2 * t) = 1) by (apply Rmult_eq_reg_r with (ux * ux + uy * uy); lra).
    pose proof (cos_2a_sin t) as K. assert (Sz : sin t = 0) by nra.
    destruct Hk as [-> | ->].
    - assert (0 < sin t) by (apply sin_gt_0; lra). lra.
    - assert (0 < sin (- t)) by (apply sin_gt_0; lra). rewrite sin_neg in *. lra.
  Qed.
End C103.
Example C103_example : 0 < euclid (P 1 0) (P 0 0) /\ euclid (P 0 1) (P 0 0) = euclid (P 1 0) (P 0 0) /\ @EPS _ eps6 <= euclid (P 1 0) (P 0 1).
Proof.
  assert (A : euclid (P 1 0) (P 0 0) = 1) by (apply euclid_unique; cbn; lra). assert (B : euclid (P 0 1) (P 0 0) = 1) by (apply euclid_unique; cbn; lra).
  rewrite A, B. split; [lra|]. split; [reflexivity|]. pose proof (euclid_sqr (P 1 0) (P 0 1)) as Q. pose proof (euclid_pos (P 1 0) (P 0 1)). cbn in Q. unfold EPS, eps6. nra.
Qed.

(** ** C104: is a point on an arc? *)
Section C104.
  Context {E : Epsilon ROps}.
  Hypothesis He : 0 < EPS.
  (** Up to half a circle: points of the arc are accepted, and accepted points are close to the arc. *)
  Theorem C104_minor_complete_partial (a : Arc_) p : wf_arc a -> 0 < Rabs (sweep a) < PI -> EPS <= radius a * radius a * sin (Rabs (sweep a)) ->
    on_arc a p -> point_on_arc a p = true.
  Proof. intros. apply poa_complete; auto. Qed.
  Theorem C104_minor_sound_partial (a : Arc_) p : wf_arc a -> 0 < Rabs (sweep a) < PI -> EPS * (radius a + EPS) < radius a * cos (Rabs (sweep a) / 2) ->
    point_on_arc a p = true -> exists q, on_arc a q /\ euclid p q <= EPS * (1 + 2 * (radius a + EPS)).
  Proof. intros A B C D. apply (poa_sound He a p A B C D). Qed.
  (** More than half a circle: the answer is the opposite of the answer for the rest of the circle. *)
  Theorem C104_major (a : Arc_) p : wf_arc a -> PI < Rabs (sweep a) < 2 * PI ->
    exists b : Arc_, wf_arc b /\ ap1 b = ap1 a /\ ap2 b = ap2 a /\ center b = center a /\ radius b = radius a /\ Rabs (sweep b) = 2 * PI - Rabs (sweep a) /\
      (Rabs (radius a - euclid p (center a)) < EPS -> point_on_arc a p = negb (point_on_arc b p)) /\
      (EPS <= Rabs (radius a - euclid p (center a)) -> point_on_arc a p = false).
  Proof.
    intros W H. exists (rest a). split; [apply rest_wf, W|]. split; [reflexivity|]. split; [reflexivity|]. split; [reflexivity|]. split; [reflexivity|].
    split; [apply rest_sweep; pose proof PI_RGT_0; lra|]. split; [apply poa_major; auto|].
    intros F. rewrite poa_unfold. destruct (Rlt_dec _ _); [lra|reflexivity].
  Qed.
  (** Hence the end points of an arc of more than half a circle are not on it. *)
  Theorem C104_major_end_refuted (a : Arc_) : wf_arc a -> PI < Rabs (sweep a) < 2 * PI -> EPS <= radius a * radius a * sin (2 * PI - Rabs (sweep a)) ->
    on_arc a (ap1 a) /\ point_on_arc a (ap1 a) = false.
  Proof.
    intros W H Hs. pose proof PI_RGT_0. split; [exists 0; split; [lra|]; rewrite Rmult_0_l, turned_0; reflexivity|].
    assert (Z : Rabs (radius a - euclid (ap1 a) (center a)) < EPS) by (destruct W as (_ & -> & _); rewrite Rminus_diag_eq, Rabs_R0; auto).
    rewrite (poa_major a (ap1 a) H Z). rewrite C104_minor_complete_partial; auto.
    - apply rest_wf, W.
    - rewrite rest_sweep by lra. lra.
    - rewrite rest_sweep by lra. exact Hs.
    - exists 0. split; [lra|]. rewrite Rmult_0_l, turned_0. reflexivity.
  Qed.
  (** Exactly half a circle: the opposite half is accepted too. *)
  Theorem C104_half_turn_refuted : EPS < 1 -> exists (a : Arc_) p, wf_arc a /\ sweep a = PI /\ nearest a p (R_sqrt.sqrt 2) /\ point_on_arc a p = true.
  Proof.
    intros H1. pose proof PI_RGT_0. exists (mkarc (P 1 0) (P (-1) 0) 1 PI (P 0 0)), (P 0 (-1)).
    assert (W : wf_arc (mkarc (P 1 0) (P (-1) 0) 1 PI (P 0 0))).
    { split; [cbn; lra|]. split; [apply euclid_unique; cbn; lra|]. cbn [ap1 ap2 center sweep]. unfold turned. rewrite cos_PI, sin_PI. ptx; ring. }
    split; [exact W|]. split; [reflexivity|]. split.
    - pose (a := mkarc (P 1 0) (P (-1) 0) 1 PI (P 0 0) : Arc_). fold a in W |- *.
      assert (Sw : sweep a = 1 * Rabs (sweep a)) by (unfold a; cbn [sweep]; rewrite Rabs_pos_eq; lra).
      assert (Pf : polar (center a) (ap1 a) (P 0 (-1)) 1 (3 * (PI / 2))).
      { unfold polar, a. cbn [center ap1 px py]. rewrite cos_3PI2, sin_3PI2. replace (euclid (P 1 0) (P 0 0)) with 1 by (symmetry; apply euclid_unique; cbn; lra).
        replace (euclid (P 0 (-1)) (P 0 0)) with 1 by (symmetry; apply euclid_unique; cbn; lra). split; cbn; lra. }
      pose proof (off_cone a (P 0 (-1)) 1 (3 * (PI / 2)) W (or_introl eq_refl) Sw Pf) as N.
      replace (R_sqrt.sqrt 2) with (Rmin (euclid (ap1 a) (P 0 (-1))) (euclid (ap2 a) (P 0 (-1)))).
      + apply N. unfold a. cbn [sweep]. rewrite Rabs_pos_eq; lra.
      + assert (S2 : R_sqrt.sqrt 2 * R_sqrt.sqrt 2 = 2) by (apply sqrt_sqrt; lra). assert (0 < R_sqrt.sqrt 2) by (apply sqrt_lt_R0; lra).
        assert (A1 : euclid (ap1 a) (P 0 (-1)) = R_sqrt.sqrt 2) by (apply euclid_unique; [lra|]; rewrite S2; cbn; lra).
        assert (A2 : euclid (ap2 a) (P 0 (-1)) = R_sqrt.sqrt 2) by (apply euclid_unique; [lra|]; rewrite S2; cbn; lra).
        rewrite A1, A2. unfold Rmin. destruct Rle_dec; reflexivity.
    - rewrite poa_unfold. cbn [radius center ap1 ap2 sweep]. replace (euclid (P 0 (-1)) (P 0 0)) with 1 by (symmetry; apply euclid_unique; cbn; lra).
      destruct (Rlt_dec _ _) as [_|N]; [|exfalso; apply N; rewrite Rminus_diag_eq, Rabs_R0; auto].
      assert (I : exists q, intersection (Ln (P 1 0) (P (-1) 0) : Line_) (Ln (P 0 0) (P 0 (-1))) true false false = Some q).
      { unfold intersection. rewrite (intersection_mu_complete (Ln (P 1 0) (P (-1) 0)) (Ln (P 0 0) (P 0 (-1))) true false false (1/2) 0); auto; [eexists; reflexivity| | | |].
        - unfold dir_cross. cbn [p1 p2 px py]. rnum. rewrite Rabs_pos_eq; lra.
        - unfold at_param. cbn [p1 p2 px py]. apply pt_ext; cbn; lra.
        - intros _. lra.
        - intros _. lra. }
      destruct I as (q & ->). rewrite (Rabs_pos_eq PI), (proj2 (Rltb_false PI PI)) by lra. reflexivity.
  Qed.
End C104.
Example C104_example : let a : Arc_ := mkarc (P 1 0) (P 0 1) 1 (PI / 2) (P 0 0) in wf_arc a /\ 0 < Rabs (sweep a) < PI /\
  @EPS _ eps6 <= radius a * radius a * sin (Rabs (sweep a)) /\ @EPS _ eps6 * (radius a + @EPS _ eps6) < radius a * cos (Rabs (sweep a) / 2) /\ on_arc a (P 0 1).
Proof.
  cbv zeta. pose proof PI_RGT_0. split; [apply C42_example|]. cbn [sweep radius]. rewrite Rabs_pos_eq by lra. split; [lra|]. rewrite sin_PI2.
  replace (PI / 2 / 2) with (PI / 4) by lra. rewrite cos_PI4. unfold EPS, eps6. split; [lra|]. split.
  - assert (S2 : R_sqrt.sqrt 2 * R_sqrt.sqrt 2 = 2) by (apply sqrt_sqrt; lra). assert (0 < R_sqrt.sqrt 2) by (apply sqrt_lt_R0; lra).
    assert (R_sqrt.sqrt 2 < 2) by nra. apply Rlt_le_trans with (1/2); [lra|]. rewrite Rmult_1_l. unfold Rdiv. rewrite !Rmult_1_l. apply Rinv_le_contravar; lra.
  - exists 1. split; [lra|]. cbn [center ap1 sweep]. rewrite Rmult_1_l. unfold turned. rewrite cos_PI2, sin_PI2. ptx; ring.
Qed.

(** ** C105: measures of an arc *)
Theorem C105_height_partial (a : Arc_) : wf_arc a -> Rabs (sweep a) <= PI ->
  aheight a = euclid (at_param (Ln (ap1 a) (ap2 a)) (1/2)) (reached (SArc a) (1/2)).
Proof.
  intros W H. pose proof PI_RGT_0. etransitivity; [apply height_model, W|]. cbn [reached]. rewrite (height_true a W). f_equal. f_equal. apply Rabs_pos_eq, cos_ge_0; unfold Rabs in H; destruct Rcase_abs; lra.
Qed.
(** For more than half a circle the height is too small. *)
Theorem C105_height_major_refuted (a : Arc_) : wf_arc a -> PI < Rabs (sweep a) < 2 * PI ->
  aheight a < euclid (at_param (Ln (ap1 a) (ap2 a)) (1/2)) (reached (SArc a) (1/2)).
Proof.
  intros W H. pose proof PI_RGT_0. rewrite (height_model a W). cbn [reached]. rewrite (height_true a W).
  assert (cos (sweep a / 2) < 0).
  { destruct (Rle_dec 0 (sweep a)) as [S|S]; [rewrite Rabs_pos_eq in H by lra|rewrite Rabs_left in H by lra; rewrite <- cos_neg]; apply cos_lt_0; lra. }
  rewrite Rabs_left by auto. apply Rmult_lt_compat_l; [apply W|lra].
Qed.
(** The sector, and the segment cut off by the chord: the sector less (or plus) the triangle over the chord. *)
Theorem C105_areas (a : Arc_) : wf_arc a -> aarea a = (Rabs (sweep a) / (2 * PI) * (PI * radius a * radius a))%R /\
  asegment_area a = Rabs (sweep a / (2 * PI) * (PI * radius a * radius a) - side (Ln (center a) (ap1 a)) (ap2 a) / 2).
Proof.
  intros (R0 & R1 & R2). pose proof PI_RGT_0. unfold aarea, asegment_area. rnum. split; [toR; field; lra|].
  assert (S : side (Ln (center a) (ap1 a)) (ap2 a) = radius a * radius a * sin (sweep a)).
  { rewrite R2. unfold side, turned. cbn [p1 p2 px py]. pose proof (euclid_sqr (ap1 a) (center a)) as Q. rewrite R1 in Q. rewrite Q. ring. }
  rewrite S. replace (sweep a / (2 * PI) * (PI * radius a * radius a) - radius a * radius a * sin (sweep a) / 2) with (radius a * radius a / 2 * (sweep a - sin (sweep a))) by (field; lra).
  rewrite Rabs_mult, (Rabs_pos_eq (radius a * radius a / 2)); [toR; field|]. assert (0 < radius a * radius a) by (apply Rmult_lt_0_compat; lra). lra.
Qed.
Theorem C105_length (a : Arc_) : wf_arc a -> alen a = (Rabs (sweep a) / (2 * PI) * (2 * PI * radius a))%R.
Proof. intros (R0 & _). pose proof PI_RGT_0. unfold alen. rnum. rewrite Rabs_mult, (Rabs_pos_eq (radius a)) by lra. toR. field. lra. Qed.
(** The fraction of a point on the arc, within half a turn of the start. *)
(** The midpoint of an arc halves its sweep and is as far from one end as from the other. *)
Theorem C42_midpoint (a : Arc_) : wf_arc a ->
  amidpoint a = turned (center a) (sweep a / 2) (ap1 a) /\ on_circle (center a) (radius a) (amidpoint a) /\
  euclid (amidpoint a) (ap1 a) = euclid (amidpoint a) (ap2 a).
Proof.
  intros W. assert (Q : amidpoint a = turned (center a) (sweep a / 2) (ap1 a)).
  { unfold amidpoint. rnum. replace (Rlit 5 (-1)) with (1 / 2) by (unfold Rlit; cbn; lra). rewrite arc_point; [f_equal; toR; lra|exact W|split; toR; lra]. }
  pose proof W as (R0 & R1 & R2). rewrite Q. split; [reflexivity|]. split.
  - unfold on_circle. rewrite euclid_sym, turned_dist. exact R1.
  - rewrite R2. replace (turned (center a) (sweep a) (ap1 a)) with (turned (center a) (sweep a / 2) (turned (center a) (sweep a / 2) (ap1 a)))
      by (rewrite turned_add; f_equal; lra).
    destruct (center a) as [cx cy], (ap1 a) as [x y]. unfold turned, euclid. cbn [px py]. f_equal.
    pose proof (sin2_cos2 (sweep a / 2)) as K. set (s := sin (sweep a / 2)) in *. set (c := cos (sweep a / 2)) in *. toR. unfold Rsqr in *.
    set (u := (x - cx)%R). set (v := (y - cy)%R). replace x with (cx + u)%R by (unfold u; lra). replace y with (cy + v)%R by (unfold v; lra).
    clearbody u v s c. match goal with |- @eq _ ?a ?b => cut (@eq R b ((s * s + c * c) * a)%R); [rewrite K; intros ->; lra|ring] end.
Qed.
Theorem C105_mu {E : Epsilon ROps} (a : Arc_) u : 0 < EPS -> wf_arc a -> sweep a <> 0 -> - PI < u * sweep a <= PI ->
  EPS <= euclid (ap1 a) (reached (SArc a) u) -> amu a (reached (SArc a) u) = Ok u.
Proof.
  intros He (R0 & R1 & R2) Hs Hu Hd. cbn [reached] in *. unfold amu, pydiv. rnum. rewrite (proj2 (Reqb_false _ _) Hs). f_equal.
  set (q := turned (center a) (u * sweep a) (ap1 a)) in *.
  assert (Dq : euclid q (center a) = radius a) by (unfold q; rewrite turned_dist; exact R1).
  assert (A : (angle2 (center a) (ap1 a) q : R) = u * sweep a).
  { apply angle_unique; [apply angle2_range|exact Hu| |].
    all: pose proof (angle2_turned He (center a) (ap1 a) q (radius a) R0 R1 Dq Hd) as T; unfold q in T at 2; unfold turned in T;
      pose proof (f_equal px T) as X; pose proof (f_equal py T) as Y; cbn [px py] in X, Y; pose proof (euclid_sqr (ap1 a) (center a)) as Q; rewrite R1 in Q;
      set (t := angle2 (center a) (ap1 a) q) in *; set (ux := px (ap1 a) - px (center a)) in *; set (uy := py (ap1 a) - py (center a)) in *;
      assert (0 < radius a * radius a) by (apply Rmult_lt_0_compat; lra); apply Rmult_eq_reg_l with (radius a * radius a); try lra; rewrite Q.
    - transitivity (ux * (cos t * ux - sin t * uy) + uy * (sin t * ux + cos t * uy)); [ring|].
      replace (cos t * ux - sin t * uy) with (cos (u * sweep a) * ux - sin (u * sweep a) * uy) by lra.
      replace (sin t * ux + cos t * uy) with (sin (u * sweep a) * ux + cos (u * sweep a) * uy) by lra. ring.
    - transitivity (ux * (sin t * ux + cos t * uy) - uy * (cos t * ux - sin t * uy)); [ring|].
      replace (cos t * ux - sin t * uy) with (cos (u * sweep a) * ux - sin (u * sweep a) * uy) by lra.
      replace (sin t * ux + cos t * uy) with (sin (u * sweep a) * ux + cos (u * sweep a) * uy) by lra. ring. }
  rewrite A. toR. field. exact Hs.
Qed.
(** Splitting at a point of the arc, in either direction: two arcs that meet there and make up the sweep, as long as the point is
    less than half a turn from the start and away from both ends. *)
Theorem C43_at_point_partial {E : Epsilon ROps} (a : Arc_) u : 0 < EPS -> wf_arc a -> 0 < u < 1 -> - PI < u * sweep a <= PI ->
  EPS <= Rabs (u * sweep a) -> EPS <= Rabs ((1 - u) * sweep a) -> EPS <= euclid (ap1 a) (reached (SArc a) u) ->
  exists a1 a2, asubdivide_at_point a (reached (SArc a) u) = [a1; a2] /\ wf_arc a1 /\ wf_arc a2 /\
    ap1 a1 = ap1 a /\ ap2 a1 = reached (SArc a) u /\ ap1 a2 = reached (SArc a) u /\ ap2 a2 = ap2 a /\
    radius a1 = radius a /\ radius a2 = radius a /\ center a1 = center a /\ center a2 = center a /\
    sweep a1 = u * sweep a /\ sweep a2 = (1 - u) * sweep a.
Proof.
  intros He W Hu Hp H1 H2 Hd. assert (Hs : sweep a <> 0) by (intros Z; rewrite Z, Rmult_0_r, Rabs_R0 in H1; lra).
  pose proof (C105_mu a u He W Hs Hp Hd) as M. unfold amu, pydiv in M. rnum. rewrite (proj2 (Reqb_false _ _) Hs) in M. injection M as M.
  pose proof W as (R0 & R1 & R2). unfold asubdivide_at_point. set (q := reached (SArc a) u) in *.
  assert (M' : @eq R (angle2 (center a) (ap1 a) q / sweep a) u) by exact M.
  assert (A : (angle2 (center a) (ap1 a) q : R) = u * sweep a) by (apply (Rmult_eq_reg_r (/ sweep a)); [change (@eq R (angle2 (center a) (ap1 a) q / sweep a) (u * sweep a * / sweep a)); rewrite M', Rmult_assoc, Rinv_r by exact Hs; toR; lra|apply Rinv_neq_0_compat; exact Hs]).
  rewrite A. rewrite (proj2 (isz_false (u * sweep a)) H1).
  assert (F : feq (u * sweep a : ROps) (sweep a) = false).
  { unfold feq. rnum. apply Rltb_false. replace (u * sweep a - sweep a) with (- ((1 - u) * sweep a)) by ring. rewrite Rabs_Ropp. exact H2. }
  cbn [orb]. rewrite F.
  eexists _, _. split; [reflexivity|]. unfold wf_arc. cbn [ap1 ap2 radius center sweep]. rnum.
  assert (Q : q = turned (center a) (u * sweep a) (ap1 a)) by reflexivity.
  split; [|split].
  - split; [exact R0|]. split; [exact R1|]. exact Q.
  - split; [exact R0|]. split; [rewrite Q, turned_dist; exact R1|]. rewrite Q, turned_add, R2. f_equal. change (@eq R (sweep a) (sweep a - u * sweep a + u * sweep a)). lra.
  - repeat split; try reflexivity. change (@eq R (sweep a - u * sweep a) ((1 - u) * sweep a)). lra.
Qed.
Example C43_at_point_example : let a : Arc_ := mkarc (P 0 1) (P 1 0) 1 (- (PI / 2)) (P 0 0) in
  wf_arc a /\ - PI < 1 / 3 * sweep a <= PI /\ @EPS _ eps6 <= Rabs (1 / 3 * sweep a) /\ @EPS _ eps6 <= Rabs ((1 - 1 / 3) * sweep a) /\
  @EPS _ eps6 <= euclid (ap1 a) (reached (SArc a) (1 / 3)).
Proof.
  cbv zeta. pose proof PI_RGT_0. pose proof PI2_1 as P3.
  split; [|split; [|split; [|split]]].
  - unfold wf_arc. cbn [ap1 ap2 radius center sweep]. split; [lra|]. split.
    + unfold euclid. cbn [px py]. replace ((0 - 0)² + (1 - 0)²) with 1 by (unfold Rsqr; ring). apply sqrt_1.
    + unfold turned. cbn [px py]. rewrite cos_neg, sin_neg, cos_PI2, sin_PI2. apply pt_ext; cbn [px py]; ring.
  - cbn [sweep]. lra.
  - cbn [sweep]. unfold EPS, eps6. cbn. rewrite Rabs_left by lra. lra.
  - cbn [sweep]. unfold EPS, eps6. cbn. rewrite Rabs_left by lra. lra.
  - cbn [reached ap1 center sweep]. replace (1 / 3 * - (PI / 2)) with (- (PI / 6)) by field. unfold turned. cbn [px py]. rewrite cos_neg, sin_neg, cos_PI6, sin_PI6.
    unfold euclid. cbn [px py]. apply Rle_trans with (1 / 2); [unfold EPS, eps6; cbn; lra|].
    apply Rle_trans with (R_sqrt.sqrt (1 / 2)²); [right; symmetry; apply sqrt_Rsqr; lra|]. apply sqrt_le_1_alt. toR. match goal with |- _ <= ?x² + ?y² => pose proof (Rle_0_sqr y); replace x with (- (1 / 2)) by (toR; field) end. rewrite <- Rsqr_neg. lra.
Qed.

(** ** C106: comparing lines, and boxes *)
Section C106.
  Context {E : Epsilon ROps}.
  Hypothesis He : 0 < EPS.
  Theorem C106_coincident (l o : Line_) tol : 0 <= tol ->
    (is_coincident l o tol = true <-> euclid (p1 l) (p1 o) < tol /\ euclid (p2 l) (p2 o) < tol).
  Proof.
    intros Ht. unfold is_coincident. rewrite andb_true_iff.
    assert (K : forall a b : Pt, palmost a b tol = true <-> euclid a b < tol).
    { intros a b. split; [apply palmost_true; auto|]. intros H. unfold palmost. rnum. apply Rltb_true.
      pose proof (euclid_sqr a b) as Q. pose proof (euclid_pos a b). rewrite <- Q. nra. }
    rewrite !K. tauto.
  Qed.
  (** Lines are equal if their end points are, in either order. *)
  Theorem C106_equal (l o : Line_) : leq l o = true <->
    (euclid (p1 l) (p1 o) < EPS /\ euclid (p2 l) (p2 o) < EPS) \/ (euclid (p1 l) (p2 o) < EPS /\ euclid (p2 l) (p1 o) < EPS).
  Proof. unfold leq. rewrite orb_true_iff, !andb_true_iff, !(peq_true He). tauto. Qed.
  Theorem C106_parallel_inline (l o : Line_) : is_parallel l o true = true <->
    Rabs (dir_cross l o) < EPS /\ Rabs (side o (p1 l)) < EPS /\ Rabs (side l (p1 o)) < EPS.
  Proof.
    unfold is_parallel. rewrite cross_terms_R. rnum.
    replace ((py (p2 o) - py (p1 o)) * (px (p2 l) - px (p1 l)) - (px (p2 o) - px (p1 o)) * (py (p2 l) - py (p1 l)))
      with (dir_cross l o) by (unfold dir_cross; ring).
    assert (A : Rabs ((px (p2 o) - px (p1 o)) * (py (p1 l) - py (p1 o)) - (py (p2 o) - py (p1 o)) * (px (p1 l) - px (p1 o))) = Rabs (side o (p1 l))) by reflexivity.
    assert (B : Rabs ((px (p2 l) - px (p1 l)) * (py (p1 l) - py (p1 o)) - (py (p2 l) - py (p1 l)) * (px (p1 l) - px (p1 o))) = Rabs (side l (p1 o))).
    { rewrite <- Rabs_Ropp. f_equal. unfold side. ring. }
    rewrite A, B. destruct (Rltb (Rabs (dir_cross l o)) EPS) eqn:Z; rbool.
    - rewrite andb_true_iff, !Rltb_true. tauto.
    - split; [discriminate|lra].
  Qed.
  (** A point is on the line if its distance from it times the length is below the tolerance; with [segment],
      it must also be in the box of the end points, up to the tolerance. *)
  Theorem C106_point_on_line (l : Line_) p : (point_on_line l p false = true <-> Rabs (side l p) < EPS) /\
    (point_on_line l p true = true <-> Rabs (side l p) < EPS /\
      Rmin (px (p1 l)) (px (p2 l)) - EPS <= px p <= Rmax (px (p1 l)) (px (p2 l)) + EPS /\
      Rmin (py (p1 l)) (py (p2 l)) - EPS <= py p <= Rmax (py (p1 l)) (py (p2 l)) + EPS).
  Proof.
    assert (S : (cross (vec l) (psub p (p1 l)) : R) = side l p) by (unfold cross, vec, psub, side; cbn [px py]; rnum; ring).
    assert (Z : is_zero (cross (vec l) (psub p (p1 l))) = true <-> Rabs (side l p) < EPS) by (rewrite isz, S; tauto).
    unfold point_on_line. cbn [andb]. split; [exact Z|]. destruct (is_zero _) eqn:Q.
    - rewrite !andb_true_iff. rewrite !pymin_R, !pymax_R. rnum. rewrite !Rleb_true. tauto.
    - split; [discriminate|]. intros [H _]. apply Z in H. discriminate.
  Qed.
  Corollary C106_segment_points (l : Line_) p : on_segment l p -> point_on_line l p true = true.
  Proof.
    intros (u & Hu & ->). apply C106_point_on_line.
    assert (K : forall a b : R, Rmin a b - EPS <= a + u * (b - a) <= Rmax a b + EPS).
    { intros a b. unfold Rmin, Rmax. destruct (Rle_dec a b); split; nra. }
    split; [|split].
    - replace (side l (at_param l u)) with 0; [rewrite Rabs_R0; auto|]. unfold side, at_param. cbn [px py]. ring.
    - unfold at_param. cbn [px py]. apply K; auto.
    - unfold at_param. cbn [px py]. apply K; auto.
  Qed.
  (** The side of a direction: 1 if it points to the left of the line or along it. *)
  Theorem C106_side_of_direction (l : Line_) t : 0 < seg_len l -> let d := seg_len l * sin (t - langle l) in
    which_side_angle l t false = (if Rlt_dec d 0 then -1 else 1)%Z /\
    (Rabs d < EPS -> which_side_angle l t true = 0%Z) /\ (EPS <= Rabs d -> which_side_angle l t true = which_side_angle l t false).
  Proof.
    intros H d. destruct (line_angle l H) as [C S].
    assert (Q : (cross (vec l) (psub (padd (from_polar (N:=ROps) (Num.of_Z 1) t) (p2 l)) (p1 l)) : R) = d).
    { unfold d. rewrite sin_minus. transitivity ((seg_len l * cos (langle l)) * sin t - (seg_len l * sin (langle l)) * cos t); [|ring]. rewrite C, S.
      unfold cross, vec, psub, padd, from_polar. cbn [px py]. rnum. ring. }
    unfold which_side_angle, which_side. cbn [andb]. 
    assert (L : (Num.leb (Num.of_Z (n:=ROps) 0) (cross (vec l) (psub (padd (from_polar (N:=ROps) (Num.of_Z 1) t) (p2 l)) (p1 l)))) = Rleb 0 d) by (rnum; rewrite Q; reflexivity).
    rewrite L. split.
    - destruct (Rlt_dec d 0), (Rleb 0 d) eqn:Z; rbool; auto; lra.
    - split; intros K.
      + assert (Z : is_zero (cross (vec l) (psub (padd (from_polar (N:=ROps) (Num.of_Z 1) t) (p2 l)) (p1 l))) = true) by (apply isz; rewrite Q; exact K). rewrite Z. reflexivity.
      + assert (Z : is_zero (cross (vec l) (psub (padd (from_polar (N:=ROps) (Num.of_Z 1) t) (p2 l)) (p1 l))) = false) by (apply isz_false; auto; rewrite Q; exact K). rewrite Z. reflexivity.
  Qed.
  (** Slope and intercept: every point of the line satisfies y = m x + b, up to the tolerance for
      lines that are nearly horizontal; a vertical line has none. *)
  Theorem C106_slope (l : Line_) : px (p1 l) <> px (p2 l) -> EPS <= Rabs (py (p2 l) - py (p1 l)) \/ py (p1 l) = py (p2 l) ->
    exists m b, slope l = Ok m /\ slope_intercept l = Ok (m, b) /\ forall q, on_line l q <-> py q = m * px q + b.
  Proof.
    intros Hx Hy. unfold slope_intercept, slope. rnum. destruct (is_zero _) eqn:Z.
    - apply isz in Z. destruct Hy as [Hy|Hy]; [lra|]. exists 0, (0 * - px (p1 l) + py (p1 l)). split; [reflexivity|]. split; [reflexivity|].
      intros q. split.
      + intros (u & ->). unfold at_param. cbn [px py]. rewrite <- Hy. ring.
      + intros Q. exists ((px q - px (p1 l)) / (px (p2 l) - px (p1 l))). destruct q as [x y]. unfold at_param. cbn [px py] in *. apply pt_ext; cbn [px py]; toR; [field; lra|rewrite Q, <- Hy; field; lra].
    - unfold pydiv. rnum. rewrite (proj2 (Reqb_false (px (p2 l) - px (p1 l)) 0)) by lra. eexists _, _. split; [reflexivity|]. split; [reflexivity|].
      intros q. split.
      + intros (u & ->). unfold at_param. cbn [px py]. field. lra.
      + intros Q. exists ((px q - px (p1 l)) / (px (p2 l) - px (p1 l))). destruct q as [x y]. unfold at_param. cbn [px py] in *. apply pt_ext; cbn [px py]; toR; [field; lra|rewrite Q; field; lra].
  Qed.
  Theorem C106_vertical (l : Line_) : px (p1 l) = px (p2 l) -> EPS <= Rabs (py (p2 l) - py (p1 l)) -> slope l = Raise ZeroDivisionError.
  Proof.
    intros Hx Hy. unfold slope. rnum. destruct (is_zero _) eqn:Z; [apply isz in Z; lra|]. unfold pydiv. rnum. rewrite (proj2 (Reqb_true (px (p2 l) - px (p1 l)) 0)) by lra. reflexivity.
  Qed.
  Theorem C106_from_polar (s : Pt) len a : 0 < len -> - PI < a <= PI -> seg_len (l_from_polar s len a) = len /\ langle (l_from_polar s len a) = a /\ p1 (l_from_polar s len a) = s.
  Proof.
    intros Hl Ha. unfold l_from_polar, seg_len. cbn [p1 p2]. split; [|split; [|reflexivity]].
    - apply euclid_unique; [lra|]. unfold padd, from_polar. cbn [px py]. rnum. pose proof (sin2_cos2 a) as Q. unfold Rsqr in Q.
      transitivity (len * len * (sin a * sin a + cos a * cos a)); [rewrite Q; ring|ring].
    - unfold langle, pangle, vec, psub, padd, from_polar. cbn [px py p1 p2]. rnum.
      replace (py s + len * sin a - py s) with (len * sin a) by ring. replace (px s + len * cos a - px s) with (len * cos a) by ring. apply atan2_of_polar; auto.
  Qed.
  (** The counter-clockwise angle. *)
  Theorem C106_ccw_angle (o a b : Pt) : o <> a -> o <> b -> EPS <= euclid a b ->
    0 <= ccw_angle2 o a b < 2 * PI /\ turned o (ccw_angle2 o a b) a = at_param (Ln o b) (euclid o a / euclid o b).
  Proof.
    intros Ha Hb Hd. unfold ccw_angle2. pose proof (normalize_range (angle2 o a b) PI) as B. pose proof (normalize_congr (angle2 o a b) PI) as G.
    split; [change (Num.pi : ROps) with PI; lra|]. rewrite <- (angle2_turns He o a b Ha Hb Hd). unfold turned.
    pose proof (congruent_cos _ _ G) as C. pose proof (congruent_sin _ _ G) as S.
    change (cos (normalize_angle (N:=ROps) (angle2 o a b) Num.pi) = cos (angle2 o a b)) in C. change (sin (normalize_angle (N:=ROps) (angle2 o a b) Num.pi) = sin (angle2 o a b)) in S.
    apply pt_ext; cbn [px py]; (etransitivity; [rewrite C, S; reflexivity|reflexivity]).
  Qed.
End C106.
Theorem C106_box_center (b : Box_) : euclid (bcenter b) (b1 b) = euclid (bcenter b) (b2 b) /\ (proper_box b -> in_box b (bcenter b)).
Proof.
  assert (C : bcenter b = at_param (Ln (b1 b) (b2 b)) (1/2)).
  { unfold bcenter, at_param, padd, psub. cbn [px py p1 p2]. apply pt_ext; cbn [px py]; rnum; toR; field. }
  rewrite C. split.
  - apply euclid_unique; [apply euclid_pos|]. rewrite euclid_sqr. unfold at_param. cbn [px py p1 p2]. toR. field.
  - unfold proper_box, in_box, at_param. cbn [px py p1 p2]. lra.
Qed.
Theorem C106_point_inside (b : Box_) p : point_inside b p = true <-> px (b1 b) < px p < px (b2 b) /\ py (b1 b) < py p < py (b2 b).
Proof. unfold point_inside, xmin, xmax, ymin, ymax. rnum. rewrite !andb_true_iff, !Rltb_true. tauto. Qed.
Theorem C106_all_inside (b : Box_) l : all_points_inside b l = true <-> forall p, In p l -> point_inside b p = true.
Proof. apply forallb_forall. Qed.
(** Transforming a box by a scaling and translation gives the box of the transformed points. *)
Theorem C106_box_transform_partial (b : Box_) sx sy x y q : proper_box b -> sx <> 0 -> sy <> 0 ->
  let m := mscale_translate (N:=ROps) sx sy x y in in_box (btransform b m) (apply m q) <-> in_box b q.
Proof.
  intros [H1 H2] Hx Hy m. unfold m, btransform, mkbox, in_box, mscale_translate, apply. cbn [px py b1 b2 m00 m01 m02 m10 m11 m12]. rewrite !pymin_R, !pymax_R. rnum.
  assert (K : forall s lo hi v t z : R, s <> 0 -> lo <= hi -> (Rmin (s * lo + 0 * t + z) (s * hi + 0 * t + z) <= s * v + 0 * t + z <= Rmax (s * lo + 0 * t + z) (s * hi + 0 * t + z) <-> lo <= v <= hi)).
  { intros s lo hi v t z Hs Hl. rewrite !Rmult_0_l, !Rplus_0_r. destruct (Rtotal_order s 0) as [N|[N|N]]; [|contradiction|].
    - assert (s * hi <= s * lo) by nra. rewrite Rmin_right, Rmax_left by lra. split; intros [A B]; split; nra.
    - assert (s * lo <= s * hi) by nra. rewrite Rmin_left, Rmax_right by lra. split; intros [A B]; split; nra. }
  replace (0 * px (b1 b) + sy * py (b1 b) + y) with (sy * py (b1 b) + 0 * px q + y) by (toR; ring).
  replace (0 * px (b2 b) + sy * py (b2 b) + y) with (sy * py (b2 b) + 0 * px q + y) by (toR; ring).
  replace (0 * px q + sy * py q + y) with (sy * py q + 0 * px q + y) by (toR; ring).
  replace (sx * px (b1 b) + 0 * py (b1 b) + x) with (sx * px (b1 b) + 0 * py q + x) by (toR; ring).
  replace (sx * px (b2 b) + 0 * py (b2 b) + x) with (sx * px (b2 b) + 0 * py q + x) by (toR; ring).
  rewrite (K sx), (K sy) by auto. tauto.
Qed.
(** Under a rotation it is not: the box of the transformed corners can lose most of the box. *)
Theorem C106_box_rotate_refuted : exists (b : Box_) m d q, isometry m d /\ in_box b q /\ ~ in_box (btransform b m) (apply m q).
Proof.
  exists (Bx (P (-1) (-1)) (P 1 1)), (Mx (R_sqrt.sqrt 2 / 2) (- (R_sqrt.sqrt 2 / 2)) 0 (R_sqrt.sqrt 2 / 2) (R_sqrt.sqrt 2 / 2) 0), 1, (P 1 (-1)).
  assert (S2 : R_sqrt.sqrt 2 * R_sqrt.sqrt 2 = 2) by (apply sqrt_sqrt; lra). assert (0 < R_sqrt.sqrt 2) by (apply sqrt_lt_R0; lra). set (r := R_sqrt.sqrt 2) in *.
  split; [unfold isometry; cbn; repeat split; try lra; nra|]. split; [unfold in_box; cbn; lra|].
  unfold btransform, mkbox, in_box, apply. cbn [px py b1 b2 m00 m01 m02 m10 m11 m12]. rewrite !pymin_R, !pymax_R. rnum. intros [[_ X] _].
  replace (r / 2 * -1 + - (r / 2) * -1 + 0) with 0 in X by field. replace (r / 2 * 1 + - (r / 2) * 1 + 0) with 0 in X by field.
  replace (r / 2 * 1 + - (r / 2) * -1 + 0) with r in X by field. unfold Rmax in X. destruct Rle_dec; lra.
Qed.
Example C106_example : let l : Line_ := Ln (P 0 0) (P 3 4) in 0 < seg_len l /\ px (p1 l) <> px (p2 l) /\ @EPS _ eps6 <= Rabs (py (p2 l) - py (p1 l)).
Proof.
  cbv zeta. split; [|split].
  - replace (seg_len (Ln (P 0 0) (P 3 4))) with 5; [lra|]. symmetry. unfold seg_len. apply euclid_unique; cbn; lra.
  - cbn. lra.
  - cbn. unfold EPS, eps6. rewrite Rabs_pos_eq; lra.
Qed.

(** ** C107: reversing a path *)
Theorem C107_reversed (p : list Seg) : Forall proper p ->
  length (reverse_path p) = length p /\
  (forall i s, nth_error p i = Some s -> exists t, nth_error (reverse_path p) (length p - 1 - i) = Some t /\ proper t /\
     forall u, reached t u = reached s (1 - u)) /\
  reverse_path (reverse_path p) = p.
Proof.
  intros H. assert (R1 : forall s, proper s -> proper (s_reversed s) /\ forall u, reached (s_reversed s) u = reached s (1 - u)).
  { intros [l|a]; cbn [proper s_reversed reached].
    - intros Hl. split.
      + unfold seg_len in *. cbn [lreversed p1 p2]. rewrite euclid_sym. exact Hl.
      + intros u. unfold at_param. cbn [lreversed p1 p2]. apply pt_ext; cbn [px py]; toR; ring.
    - intros [W S]. split; [split; [apply wf_reversed, W|]|].
      + cbn [areversed sweep]. rnum. intros Z. apply S. change (- sweep a = 0 :> R) in Z. change (sweep a = 0 :> R). lra.
      + intros u. cbn [areversed center sweep ap1]. destruct W as (_ & _ & W). rewrite W, turned_add. f_equal. rnum. toR. ring. }
  assert (R2 : forall s : Seg, s_reversed (s_reversed s) = s).
  { intros [[a b]|[a b r s c]]; [reflexivity|]. cbn. unfold areversed. cbn. rewrite Ropp_involutive. reflexivity. }
  split; [unfold reverse_path; rewrite map_length, rev_length; reflexivity|]. split.
  - intros i s Hi. assert (Li : (i < length p)%nat) by (apply nth_error_Some; congruence).
    exists (s_reversed s). split.
    + unfold reverse_path. rewrite nth_error_map. replace (nth_error (rev p) (length p - 1 - i)) with (Some s); [reflexivity|].
      symmetry. rewrite (nth_error_nth' _ s) by (rewrite rev_length; lia). f_equal. rewrite rev_nth by lia.
      replace (length p - S (length p - 1 - i))%nat with i by lia. apply nth_error_nth with (1 := Hi).
    + apply R1. rewrite Forall_forall in H. apply H. apply nth_error_In with (1 := Hi).
  - unfold reverse_path. rewrite <- map_rev, map_map, rev_involutive. rewrite <- (map_id p) at 2. apply map_ext. exact R2.
Qed.
Theorem C107_unbroken (p : list Seg) eps : unbroken eps p -> unbroken eps (reverse_path p).
Proof.
  assert (F : forall s : Seg, seg_begin (s_reversed s) = seg_finish s /\ seg_finish (s_reversed s) = seg_begin s) by (intros [[a b]|[a b r s c]]; split; reflexivity).
  unfold reverse_path. induction p as [|s [|t r] IH]; intros H; [exact Logic.I|exact Logic.I|]. destruct H as [H1 H2]. specialize (IH H2).
  cbn [rev] in *. rewrite <- app_assoc. rewrite map_app in *. cbn [map app] in *.
  revert IH. generalize (map (@s_reversed ROps) (rev r)). intros q. induction q as [|x [|y z] IHq]; cbn [app].
  - intros _. split; [|exact Logic.I]. destruct (F t) as [_ ->]. destruct (F s) as [-> _]. rewrite euclid_sym. exact H1.
  - intros [A _]. split; [exact A|]. split; [|exact Logic.I]. destruct (F t) as [_ ->]. destruct (F s) as [-> _]. rewrite euclid_sym. exact H1.
  - intros [A B]. split; [exact A|]. apply IHq. exact B.
Qed.
Example C107_example : Forall proper [SLine (Ln (P 0 0) (P 3 4)); SArc (mkarc (P 3 4) (P 2 5) 1 (PI / 2) (P 2 4))] /\
  unbroken 1 [SLine (Ln (P 0 0) (P 3 4)); SArc (mkarc (P 3 4) (P 2 5) 1 (PI / 2) (P 2 4))].
Proof.
  split.
  - constructor; [|constructor; [|constructor]]; cbn [proper].
    + replace (seg_len (Ln (P 0 0) (P 3 4))) with 5; [lra|]. symmetry. unfold seg_len. apply euclid_unique; cbn; lra.
    + split; [|cbn; pose proof PI_RGT_0; lra]. split; [cbn; lra|]. split; [apply euclid_unique; cbn; lra|]. cbn [ap1 ap2 center sweep]. unfold turned. rewrite cos_PI2, sin_PI2. apply pt_ext; cbn; lra.
  - cbn. split; [|exact Logic.I]. replace (euclid (P 3 4) (P 3 4)) with 0; [lra|]. symmetry. apply euclid_unique; cbn; lra.
Qed.

(** ** C108: tangential joints *)
(** Two segments accepted as G1 meet within the tolerance, and the directions there differ by an angle below the tolerance. *)
Theorem C108_sound (s t : Seg) tol : proper s -> proper t -> 0 <= tol -> segments_are_g1 s t tol = true ->
  euclid (reached s 1) (reached t 0) < tol /\ exists a b, unit_at a = heading s 1 /\ unit_at b = heading t 0 /\ Rabs (a - b) < tol.
Proof.
  intros Hs Ht Tl H. unfold segments_are_g1 in H. apply andb_true_iff in H as [H1 H2]. rnum. rbool. split.
  - rewrite (reached_1 s Hs), (reached_0 t). apply palmost_true; auto.
  - exists (s_end_tangent s), (s_start_tangent t). split; [apply end_heading, Hs|]. split; [apply start_heading, Ht|exact H2].
Qed.
(** Conversely, joints with equal directions are accepted, except when the direction is that of the negative x axis ... *)
Theorem C108_complete_partial (s t : Seg) tol : proper s -> proper t -> 0 < tol -> reached s 1 = reached t 0 -> heading s 1 = heading t 0 ->
  0 <= px (heading s 1) \/ py (heading s 1) <> 0 -> segments_are_g1 s t tol = true.
Proof.
  intros Hs Ht Tl H1 H2 Hn. unfold segments_are_g1. apply andb_true_iff. split.
  - rewrite <- (reached_1 s Hs), <- (reached_0 t), H1. unfold palmost. rnum. apply Rltb_true. rewrite !Rminus_diag_eq by reflexivity. nra.
  - rnum. apply Rltb_true. pose proof (end_heading s Hs) as A. pose proof (start_heading t Ht) as B.
    assert (Rg : forall x : Seg, proper x -> - PI <= s_start_tangent x <= PI /\ - PI <= s_end_tangent x <= PI).
    { intros [l|a]; cbn [proper s_start_tangent s_end_tangent]; intros K.
      - pose proof (atan2_range (py (vec l)) (px (vec l))). unfold langle, pangle. cbn in *. lra.
      - destruct K as [K1 K2]. destruct (C42_tangents a K1 K2) as (_ & _ & ? & ?). lra. }
    destruct (Rg s Hs) as [_ R1]. destruct (Rg t Ht) as [R2 _]. rewrite H2, <- B in A. rewrite <- (end_heading s Hs) in Hn.
    unfold unit_at in A, Hn. cbn [px py] in Hn. pose proof (f_equal px A) as C. pose proof (f_equal py A) as S. cbn [px py] in C, S.
    set (x := s_end_tangent s) in *. set (y := s_start_tangent t) in *.
    assert (NP : forall z, - PI <= z <= PI -> 0 <= cos z \/ sin z <> 0 -> - PI < z <= PI).
    { intros z Hz Q. split; [|lra]. destruct Hz as [[Hz|Hz] _]; [exact Hz|]. exfalso. rewrite <- Hz, cos_neg, sin_neg, cos_PI, sin_PI in Q. lra. }
    assert (x = y). { apply angle_unique; auto; apply NP; auto. rewrite <- C, <- S. exact Hn. }
    rewrite H, Rminus_diag_eq, Rabs_R0 by reflexivity. exact Tl.
Qed.
(** ... where the angles of a line (PI) and of an arc (-PI) differ by a full turn. *)
Theorem C108_leftwards_refuted tol : 0 < tol < 6 -> exists s t : Seg, proper s /\ proper t /\ reached s 1 = reached t 0 /\ heading s 1 = heading t 0 /\
  segments_are_g1 s t tol = false.
Proof.
  intros Ht. pose proof PI_RGT_0. pose proof PI2_3_2 as P3.
  pose (l := Ln (P 1 0) (P 0 0) : Line_). pose (a := mkarc (P 0 0) (P (-1) (-1)) 1 (PI / 2) (P 0 (-1)) : Arc_).
  assert (Ll : seg_len l = 1) by (unfold seg_len, l; apply euclid_unique; cbn; lra).
  assert (W : wf_arc a). { split; [cbn; lra|]. split; [apply euclid_unique; cbn; lra|]. unfold a. cbn [ap1 ap2 center sweep]. unfold turned. rewrite cos_PI2, sin_PI2. apply pt_ext; cbn; lra. }
  assert (Ps : proper (SLine l)) by (cbn [proper]; lra). assert (Pt_ : proper (SArc a)) by (cbn [proper]; split; [exact W|cbn; lra]).
  exists (SLine l), (SArc a). split; [exact Ps|]. split; [exact Pt_|]. split; [|split].
  - cbn [reached]. rewrite Rmult_0_l, turned_0. unfold l, a. cbn [ap1]. apply pt_ext; cbn; lra.
  - cbn [heading]. rewrite Ll, Rmult_0_l, turned_0. unfold l, a. cbn [ap1 center radius sweep p1 p2]. destruct (Rlt_dec (PI / 2) 0); [lra|]. apply pt_ext; cbn; lra.
  - unfold segments_are_g1. apply andb_false_iff. right. rnum. apply Rltb_false. cbn [s_end_tangent s_start_tangent].
    assert (A : (langle l : R) = PI).
    { unfold langle, pangle, vec, l, psub. cbn [px py p1 p2]. rnum. replace (0 - 0) with (1 * sin PI) by (rewrite sin_PI; ring). replace (0 - 1) with (1 * cos PI) by (rewrite cos_PI; ring). apply atan2_of_polar; lra. }
    destruct (C42_tangents a W ltac:(cbn; lra)) as ((T1 & T2) & _ & T3 & _). cbv zeta in *.
    assert (B : (astart_tangent a : R) = - PI).
    { set (t := astart_tangent a) in *. clearbody t. unfold a in T1, T2. cbn [radius sweep ap1 center px py] in T1, T2.
      destruct (Rlt_dec (PI / 2) 0) in T1; [lra|]. destruct (Rlt_dec (PI / 2) 0) in T2; [lra|].
      destruct T3 as [[T3|T3] T4]; [exfalso|symmetry; exact T3].
      assert (Q : t = PI); [|change (t < PI) in T4; lra]. apply angle_unique; try lra.
      - rewrite cos_PI. change (1 * cos t = - (1) * (0 - -1)) in T1. lra.
      - rewrite sin_PI. change (1 * sin t = 1 * (0 - 0)) in T2. lra. }
    rewrite A, B, Rabs_pos_eq by lra. lra.
Qed.
Example C108_example : exists s t : Seg, proper s /\ proper t /\ reached s 1 = reached t 0 /\ heading s 1 = heading t 0 /\ 0 <= px (heading s 1).
Proof.
  exists (SLine (Ln (P 0 0) (P 1 0))), (SLine (Ln (P 1 0) (P 3 0))).
  assert (A : seg_len (Ln (P 0 0) (P 1 0)) = 1) by (unfold seg_len; apply euclid_unique; cbn; lra).
  assert (B : seg_len (Ln (P 1 0) (P 3 0)) = 2) by (unfold seg_len; apply euclid_unique; cbn; lra).
  cbn [proper heading reached]. rewrite A, B. cbn [px py p1 p2]. split; [lra|]. split; [lra|]. split; [apply pt_ext; cbn; lra|]. split; [apply pt_ext; cbn; lra|]. lra.
Qed.
