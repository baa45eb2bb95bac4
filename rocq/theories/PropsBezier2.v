(** * PropsBezier2: tangents, inflections and joints of Bezier curves (C109, C110; more on C70-C72), over R. *)
From Verif Require Import Num NumR Geom GeomR GeomSpec GeomSpec2 GeomProofs GeomProofs2 GeomProofs3 GeomProofs4 GeomProofs5 GeomProofs7 GeomProofs8 Ellipse Bezier BezierSpec
  BezierProofs BezierLen BezierProofs2 BezierProofs3 BezierProofs4 BezierProofs5 ArcTangent PropsGeom PropsBezier.
From Coq Require Import ZArith Reals Lra Lia Bool List Psatz.
Import ListNotations.
Local Open Scope R_scope.

(** ** C109: tangents and normals *)
(** [u] is a vector of length 1. *)
Definition unit_vector (u : Pt) : Prop := px u * px u + py u * py u = 1.
(** [u] is the direction in which the curve leaves its start: the limit of the directions of the secants from the start. *)
Definition leaves (b : Bez) (u : Pt) : Prop := forall e, 0 < e -> exists d, 0 < d /\ forall s, 0 < s < d ->
  let q := on_bez b s in let n := euclid (z1 b) q in
  0 < n /\ Rabs ((px q - px (z1 b)) / n - px u) < e /\ Rabs ((py q - py (z1 b)) / n - py u) < e.
(** ... and in which it arrives at its end. *)
Definition arrives (b : Bez) (u : Pt) : Prop := forall e, 0 < e -> exists d, 0 < d /\ forall s, 1 - d < s < 1 ->
  let q := on_bez b s in let n := euclid q (z2 b) in
  0 < n /\ Rabs ((px (z2 b) - px q) / n - px u) < e /\ Rabs ((py (z2 b) - py q) / n - py u) < e.

(** The limit of directions, for a curve that is s^(n+1) w(s) at s with w a quadratic polynomial. *)
Lemma limit_dir (a0 a1 a2 b0 b1 b2 : R) : let w := R_sqrt.sqrt (a0 * a0 + b0 * b0) in 0 < a0 * a0 + b0 * b0 ->
  forall e, 0 < e -> exists d, 0 < d <= 1 /\ forall s, 0 < s < d -> let x := a0 + a1 * s + a2 * (s * s) in let y := b0 + b1 * s + b2 * (s * s) in
    0 < x * x + y * y /\ Rabs (x / R_sqrt.sqrt (x * x + y * y) - a0 / w) < e /\ Rabs (y / R_sqrt.sqrt (x * x + y * y) - b0 / w) < e.
Proof.
  intros w H0 e He.
  pose (X := fun s : R => a0 + a1 * s + a2 * (s * s)). pose (Y := fun s : R => b0 + b1 * s + b2 * (s * s)). pose (W := fun s : R => X s * X s + Y s * Y s).
  assert (W0 : W 0 = a0 * a0 + b0 * b0) by (unfold W, X, Y; ring). assert (Wp : 0 < W 0) by lra.
  assert (CX : continuity_pt X 0) by (unfold X; reg). assert (CY : continuity_pt Y 0) by (unfold Y; reg). assert (CW : continuity_pt W 0) by (unfold W, X, Y; reg).
  assert (CS : continuity_pt (fun s => R_sqrt.sqrt (W s)) 0).
  { apply (continuity_pt_comp W R_sqrt.sqrt); [exact CW|]. apply continuity_pt_sqrt. lra. }
  assert (SW : R_sqrt.sqrt (W 0) <> 0) by (apply Rgt_not_eq, sqrt_lt_R0; auto).
  assert (C1 : continuity_pt (fun s => X s / R_sqrt.sqrt (W s)) 0) by (apply continuity_pt_div; auto).
  assert (C2 : continuity_pt (fun s => Y s / R_sqrt.sqrt (W s)) 0) by (apply continuity_pt_div; auto).
  destruct (CW (W 0) Wp) as (d0 & D0 & K0). destruct (C1 e He) as (d1 & D1 & K1). destruct (C2 e He) as (d2 & D2 & K2).
  cbn in K0, K1, K2. unfold R_dist in K0, K1, K2.
  exists (Rmin 1 (Rmin d0 (Rmin d1 d2))). split; [split; [repeat apply Rmin_pos; lra|apply Rmin_l]|]. intros s Hs.
  assert (S0 : s < d0 /\ s < d1 /\ s < d2).
  { destruct Hs as [_ Hs]. pose proof (Rmin_r 1 (Rmin d0 (Rmin d1 d2))). pose proof (Rmin_l d0 (Rmin d1 d2)). pose proof (Rmin_r d0 (Rmin d1 d2)).
    pose proof (Rmin_l d1 d2). pose proof (Rmin_r d1 d2). lra. }
  assert (Ds : D_x no_cond 0 s) by (split; [exact Logic.I|lra]).
  assert (As : Rabs (s - 0) = s) by (rewrite Rminus_0_r; apply Rabs_pos_eq; lra).
  assert (X0 : X 0 = a0) by (unfold X; ring). assert (Y0 : Y 0 = b0) by (unfold Y; ring). rewrite X0, W0 in K1. rewrite Y0, W0 in K2.
  cbv zeta. fold (X s) (Y s). fold (W s). split; [|split].
  - assert (Z : Rabs (W s - W 0) < W 0) by (apply K0; split; [exact Ds|unfold R_dist; rewrite As; lra]). apply Rabs_def2 in Z. lra.
  - apply K1. split; auto. unfold R_dist. rewrite As; lra.
  - apply K2. split; auto. unfold R_dist. rewrite As; lra.
Qed.

Section C109.
  Context {E : Epsilon ROps}.
  Hypothesis He : 0 < EPS.
  Lemma punit_spec (v : Pt) : EPS < euclid v (P 0 0) -> unit_vector (punit v) /\ along v (punit v) /\ punit v = P (px v / euclid v (P 0 0))%R (py v / euclid v (P 0 0))%R.
  Proof.
    intros H. pose proof (euclid_sqr v (P 0 0)) as Q. cbn [px py] in Q. rewrite !Rminus_0_r in Q. set (n := euclid v (P 0 0)) in *. 
    assert (L : (plen2 v : R) = n * n) by (unfold plen2; rnum; rewrite Q; reflexivity).
    assert (U : punit v = P (px v / n) (py v / n)).
    { unfold punit. rnum. rewrite L. rewrite (proj2 (Rltb_true (EPS * EPS) (n * n))) by nra. 
      replace (R_sqrt.sqrt (n * n)) with n; [reflexivity|]. symmetry. apply sqrt_square. lra. }
    rewrite U. split; [|split; [|reflexivity]].
    - unfold unit_vector. cbn [px py]. apply Rmult_eq_reg_r with (n * n); [|nra]. rewrite Rmult_1_l. rewrite Q at 2. field. lra.
    - exists (/ n). split; [apply Rinv_0_lt_compat; lra|]. cbn [px py]. split; toR; unfold Rdiv; ring.
  Qed.
  Lemma is_zero_R (t : R) : is_zero t = true <-> Rabs t < EPS.
  Proof. apply isz. Qed.
  (** Inside the curve the tangent is the direction of the derivative. *)
  Theorem C109_tangent (b : Bez) t dx dy : EPS <= Rabs t -> EPS <= Rabs (t - 1) ->
    derivable_pt_lim (fun s => px (on_bez b s)) t dx -> derivable_pt_lim (fun s => py (on_bez b s)) t dy -> EPS < euclid (P dx dy) (P 0 0) ->
    unit_vector (ztangent b t) /\ along (P dx dy) (ztangent b t).
  Proof.
    intros H0 H1 Dx Dy Hd. destruct (C45_derivative1 b t) as [Ex Ey].
    assert (D : derivative1 b t = P dx dy).
    { apply pt_ext; [apply (uniqueness_limite _ t _ _ Ex Dx)|apply (uniqueness_limite _ t _ _ Ey Dy)]. }
    unfold ztangent. destruct (is_zero t) eqn:Z; [apply isz in Z; lra|]. destruct (feq t _) eqn:F.
    - unfold feq in F. rnum. rbool. lra.
    - rewrite D. destruct (punit_spec (P dx dy) Hd) as (A & B & _). auto.
  Qed.
  (** At the start it is the direction in which the curve leaves, also if the first control point is the start point ... *)
  Theorem C109_start (b : Bez) t : Rabs t < EPS -> EPS < euclid (k1 b) (z1 b) \/ k1 b = z1 b /\ EPS < euclid (k2 b) (z1 b) ->
    unit_vector (ztangent b t) /\ leaves b (ztangent b t).
  Proof.
    intros Ht Hk. unfold ztangent. rewrite (proj2 (isz t) Ht).
    destruct b as [[a1 a2] [b1 b2] [c1 c2] [d1 d2]]. cbn [z1 k1 k2 z2] in *.
    assert (G : forall v0 v1 u0 u1 w0 w1 : R, EPS < euclid (P v0 v1) (P 0 0) -> forall n, (forall s, 
         px (on_bez (Bz (P a1 a2) (P b1 b2) (P c1 c2) (P d1 d2)) s) - a1 = s ^ S n * 3 * (v0 + u0 * s + w0 * (s * s)) /\
         py (on_bez (Bz (P a1 a2) (P b1 b2) (P c1 c2) (P d1 d2)) s) - a2 = s ^ S n * 3 * (v1 + u1 * s + w1 * (s * s))) ->
         leaves (Bz (P a1 a2) (P b1 b2) (P c1 c2) (P d1 d2)) (punit (P v0 v1))).
    { intros v0 v1 u0 u1 w0 w1 Hv n Hs. destruct (punit_spec _ Hv) as (_ & _ & U). rewrite U. cbn [px py].
      pose proof (euclid_sqr (P v0 v1) (P 0 0)) as Q. cbn [px py] in Q. rewrite !Rminus_0_r in Q.
      assert (V : 0 < v0 * v0 + v1 * v1) by (rewrite <- Q; nra).
      assert (N : euclid (P v0 v1) (P 0 0) = R_sqrt.sqrt (v0 * v0 + v1 * v1)) by (symmetry; apply sqrt_lem_1; [lra|lra|exact Q]).
      intros e Ee. destruct (limit_dir v0 u0 w0 v1 u1 w1 V e Ee) as (d & Hd & K). exists d. split; [lra|]. intros s Sd. destruct (K s Sd) as (K1 & K2 & K3).
      cbv zeta in *. destruct (Hs s) as [Hx Hy]. cbn [z1 px py]. rewrite Hx, Hy.
      set (x := v0 + u0 * s + w0 * (s * s)) in *. set (y := v1 + u1 * s + w1 * (s * s)) in *.
      assert (Sp : 0 < s ^ S n * 3) by (apply Rmult_lt_0_compat; [apply pow_lt; lra|lra]). set (k := s ^ S n * 3) in *.
      assert (D : euclid (P a1 a2) (on_bez (Bz (P a1 a2) (P b1 b2) (P c1 c2) (P d1 d2)) s) = k * R_sqrt.sqrt (x * x + y * y)).
      { rewrite euclid_sym. apply euclid_unique; [apply Rmult_le_pos; [lra|apply sqrt_pos]|]. cbn [px py].
        match goal with |- _ = ?A * ?A + ?B * ?B => change (A = k * x) in Hx; change (B = k * y) in Hy; rewrite Hx, Hy end.
        pose proof (sqrt_sqrt (x * x + y * y) ltac:(lra)) as SS. transitivity (k * k * (R_sqrt.sqrt (x * x + y * y) * R_sqrt.sqrt (x * x + y * y))); [ring|rewrite SS; ring]. }
      assert (Rp : 0 < R_sqrt.sqrt (x * x + y * y)) by (apply sqrt_lt_R0; auto).
      rewrite D. split; [apply Rmult_lt_0_compat; auto|]. rewrite N.
      replace (k * x / (k * R_sqrt.sqrt (x * x + y * y))) with (x / R_sqrt.sqrt (x * x + y * y)) by (field; split; lra).
      replace (k * y / (k * R_sqrt.sqrt (x * x + y * y))) with (y / R_sqrt.sqrt (x * x + y * y)) by (field; split; lra). auto. }
    destruct Hk as [Hk|[Hk Hl]].
    - destruct (peq _ _) eqn:Z; [apply peq_true in Z; auto; lra|].
      assert (Hv : EPS < euclid (psub (P b1 b2) (P a1 a2) : Pt) (P 0 0)).
      { replace (euclid (psub (P b1 b2) (P a1 a2)) (P 0 0)) with (euclid (P b1 b2) (P a1 a2)); [exact Hk|]. unfold euclid, psub. cbn [px py]. rnum. rewrite !Rminus_0_r. reflexivity. }
      split; [apply punit_spec; exact Hv|]. unfold psub in *. cbn [px py] in *. 
      apply (G (b1 - a1) (b2 - a2) (a1 - 2 * b1 + c1) (a2 - 2 * b2 + c2) ((d1 - 3 * c1 + 3 * b1 - a1) / 3) ((d2 - 3 * c2 + 3 * b2 - a2) / 3) Hv 0%nat).
      intros s. unfold on_bez, bern3. cbn [px py z1 k1 k2 z2]. split; field.
    - injection Hk as -> ->. replace (peq (P a1 a2 : Pt) (P a1 a2)) with true.
      2: { symmetry. apply peq_true; auto. replace (euclid (P a1 a2) (P a1 a2)) with 0; auto. symmetry. apply euclid_unique; [lra|]. ring. }
      assert (Hv : EPS < euclid (psub (P c1 c2) (P a1 a2) : Pt) (P 0 0)).
      { replace (euclid (psub (P c1 c2) (P a1 a2)) (P 0 0)) with (euclid (P c1 c2) (P a1 a2)); [exact Hl|]. unfold euclid, psub. cbn [px py]. rnum. rewrite !Rminus_0_r. reflexivity. }
      split; [apply punit_spec; exact Hv|]. unfold psub in *. cbn [px py] in *. 
      apply (G (c1 - a1) (c2 - a2) ((d1 - 3 * c1 + 2 * a1) / 3) ((d2 - 3 * c2 + 2 * a2) / 3) 0 0 Hv 1%nat).
      intros s. unfold on_bez, bern3. cbn [px py z1 k1 k2 z2]. split; field.
  Qed.
  Lemma punit_neg (v : Pt) : punit (pneg v) = pneg (punit v).
  Proof.
    unfold punit. assert (L : plen2 (pneg v) = plen2 v) by (unfold plen2, pneg; cbn [px py]; rnum; match goal with |- ?a = ?b => change (@eq R a b) end; ring). rewrite L.
    destruct (_ <? _)%num; unfold pneg; cbn [px py]; rnum; [|apply pt_ext; cbn; lra]. apply pt_ext; cbn [px py]; toR; unfold Rdiv; ring.
  Qed.
  (** ... and at the end the direction in which it arrives. *)
  Theorem C109_end (b : Bez) t : EPS <= Rabs t -> Rabs (t - 1) < EPS -> EPS < euclid (k2 b) (z2 b) \/ k2 b = z2 b /\ EPS < euclid (k1 b) (z2 b) ->
    unit_vector (ztangent b t) /\ arrives b (ztangent b t).
  Proof.
    intros H0 H1 Hk. pose (r := Bz (z2 b) (k2 b) (k1 b) (z1 b) : Bez).
    assert (Rv : forall s, on_bez r s = on_bez b (1 - s)). { intros s. unfold r, on_bez, bern3. cbn [px py z1 k1 k2 z2]. apply pt_ext; cbn [px py]; toR; ring. }
    destruct (C109_start r 0) as [U L]; [rewrite Rabs_R0; exact He|exact Hk|].
    assert (Q : ztangent b t = pneg (ztangent r 0)).
    { unfold ztangent. destruct (is_zero t) eqn:Z; [apply isz in Z; lra|]. replace (feq t _) with true by (symmetry; unfold feq; rnum; apply Rltb_true; exact H1).
      rewrite (proj2 (isz 0)) by (rewrite Rabs_R0; exact He). unfold r. cbn [z1 k1 k2 z2]. rewrite <- punit_neg. destruct (peq _ _); reflexivity. }
    rewrite Q. split.
    - unfold unit_vector, pneg in *. cbn [px py]. rnum. rewrite <- U. ring.
    - intros e Ee. destruct (L e Ee) as (d & Hd & K). exists d. split; auto. intros s Hs. destruct (K (1 - s)) as (K1 & K2 & K3); [lra|]. cbv zeta in *.
      rewrite Rv in *. replace (1 - (1 - s)) with s in * by ring. unfold r in *. cbn [z1] in *. rewrite euclid_sym in K1, K2, K3.
      set (q := on_bez b s) in *. set (n := euclid q (z2 b)) in *. set (u := ztangent _ 0) in *. unfold pneg. cbn [px py]. rnum.
      split; [exact K1|]. split.
      + replace ((px (z2 b) - px q) / n - - px u) with (- ((px q - px (z2 b)) / n - px u)) by (field; lra). rewrite Rabs_Ropp. exact K2.
      + replace ((py (z2 b) - py q) / n - - py u) with (- ((py q - py (z2 b)) / n - py u)) by (field; lra). rewrite Rabs_Ropp. exact K3.
  Qed.
  (** The normal is the tangent turned to the left by a right angle. *)
  Theorem C109_normal (b : Bez) t : znormal b t = turned (P 0 0) (PI / 2) (ztangent b t).
  Proof. unfold znormal, pnormal, turned. rewrite cos_PI2, sin_PI2. cbn [px py]. rnum. apply pt_ext; cbn [px py]; symmetry; toR; ring. Qed.
  (** The tangent angles are the angles of the tangents. *)
  Theorem C109_angles (b : Bez) : unit_vector (ztangent b 0) -> unit_vector (ztangent b 1) ->
    ztangent b 0 = P (cos (zstart_tangent b)) (sin (zstart_tangent b)) /\ ztangent b 1 = P (cos (zend_tangent b)) (sin (zend_tangent b)) /\
    - PI < zstart_tangent b <= PI /\ - PI < zend_tangent b <= PI.
  Proof.
    assert (G : forall u : Pt, unit_vector u -> u = P (cos (pangle u)) (sin (pangle u)) /\ - PI < pangle u <= PI).
    { intros [x y] U. unfold unit_vector in U. cbn [px py] in U. unfold pangle. cbn [px py]. rnum.
      pose proof (atan2_range y x) as Rg. pose proof (atan2_polar y x) as Pl. 
      assert (HN : Rhypot x y = 1). { unfold Rhypot. replace (x * x + y * y) with 1 by (symmetry; exact U). apply sqrt_1. }
      split; [|exact Rg]. apply pt_ext; cbn [px py]; toR; destruct Pl as [P1 P2]; rewrite HN in *; lra. }
    intros U0 U1. destruct (G _ U0) as [A B]. destruct (G _ U1) as [C D]. unfold zstart_tangent, zend_tangent. rnum. auto.
  Qed.
  (** Not handled: a straight curve with both control points at its start has no tangent there. *)
  Theorem C109_straight_refuted (p q : Pt) : EPS < euclid q p -> let b := Bz p p p q : Bez in
    ztangent b 0 = P 0 0 /\ exists u, unit_vector u /\ leaves b u.
  Proof.
    intros H b. split.
    - unfold ztangent. rewrite (proj2 (isz 0)) by (rewrite Rabs_R0; exact He). unfold b. cbn [k1 k2 z1 z2]. 
      replace (peq p p) with true. 2: { symmetry. apply peq_true; auto. replace (euclid p p) with 0; auto. symmetry. apply euclid_unique; [lra|]. ring. }
      unfold punit, psub, plen2. cbn [px py]. rnum. rewrite !Rminus_diag_eq by reflexivity. rewrite (proj2 (Rltb_false _ _)); [reflexivity|]. nra.
    - set (n := euclid q p) in *. pose proof (euclid_sqr' q p) as Q. fold n in Q. exists (P ((px q - px p) / n) ((py q - py p) / n))%R. split.
      + unfold unit_vector. cbn [px py]. apply Rmult_eq_reg_r with (n * n); [|nra]. rewrite Rmult_1_l. rewrite Q at 2. field. lra.
      + intros e Ee. exists 1. split; [lra|]. intros s Hs. cbv zeta. unfold b. cbn [z1].
        assert (X : on_bez (Bz p p p q) s = at_param (Ln p q) (s * s * s)). { unfold on_bez, bern3, at_param. cbn [z1 k1 k2 z2 px py p1 p2]. apply pt_ext; cbn [px py]; toR; ring. }
        assert (Sp : 0 < s * s * s) by (repeat apply Rmult_lt_0_compat; lra).
        assert (D : euclid p (on_bez (Bz p p p q) s) = s * s * s * n).
        { rewrite X. apply euclid_unique; [apply Rmult_le_pos; lra|]. unfold at_param. cbn [px py p1 p2]. transitivity (s * s * s * (s * s * s) * (n * n)); [ring|rewrite Q; toR; ring]. }
        rewrite D, X. unfold at_param. cbn [px py p1 p2]. split; [apply Rmult_lt_0_compat; lra|].
        split; match goal with |- Rabs ?z < _ => replace z with 0; [rewrite Rabs_R0; auto|] end; toR; field; split; try lra; split; lra.
  Qed.
End C109.
Example C109_example : @EPS _ eps6 < euclid (k1 S_curve) (z1 S_curve) /\ @EPS _ eps6 < euclid (k2 S_curve) (z2 S_curve).
Proof.
  unfold EPS, eps6, S_curve. cbn [k1 k2 z1 z2]. pose proof (euclid_sqr (P 1 3) (P 0 0)) as A. pose proof (euclid_sqr (P 3 (-2)) (P 4 1)) as B.
  pose proof (euclid_pos (P 1 3) (P 0 0)). pose proof (euclid_pos (P 3 (-2)) (P 4 1)). cbn in A, B. split; nra.
Qed.

(** ** C70: the curves have the directions of the ellipse at their ends *)
Theorem C70_tangents (e : ellipse ROps) u v dx dy ex ey : u < v -> v - u <= PI / 2 ->
  derivable_pt_lim (fun s => px (epoint_at e s)) u dx -> derivable_pt_lim (fun s => py (epoint_at e s)) u dy ->
  derivable_pt_lim (fun s => px (epoint_at e s)) v ex -> derivable_pt_lim (fun s => py (epoint_at e s)) v ey ->
  let b := bezier_elliptical_arc e u v in along (P dx dy) (psub (k1 b) (z1 b)) /\ along (P ex ey) (psub (z2 b) (k2 b)).
Proof.
  intros H0 H1 Dx Dy Ex Ey. pose proof PI_RGT_0.
  assert (A : 0 < sin (v - u) * (R_sqrt.sqrt (4 + 3 * (tan ((v - u) / 2) * tan ((v - u) / 2))) - 1) / 3).
  { assert (0 < sin (v - u)) by (apply sin_gt_0; lra). pose proof (Rle_0_sqr (tan ((v - u) / 2))) as Q. unfold Rsqr in Q.
    assert (2 <= R_sqrt.sqrt (4 + 3 * (tan ((v - u) / 2) * tan ((v - u) / 2)))).
    { set (z := tan _ * tan _) in *. pose proof (sqrt_le_1_alt (2 * 2) (4 + 3 * z) ltac:(lra)) as Z. rewrite (sqrt_square 2) in Z by lra. exact Z. }
    apply Rdiv_lt_0_compat; [apply Rmult_lt_0_compat; [assumption|clear - H3; lra]|lra]. }
  intros b. destruct (C62_derivatives e u) as (D1 & D2 & _). destruct (C62_derivatives e v) as (D3 & D4 & _).
  pose proof (uniqueness_limite _ _ _ _ D1 Dx) as <-. pose proof (uniqueness_limite _ _ _ _ D2 Dy) as <-.
  pose proof (uniqueness_limite _ _ _ _ D3 Ex) as <-. pose proof (uniqueness_limite _ _ _ _ D4 Ey) as <-.
  unfold b, bezier_elliptical_arc. cbn [z1 k1 k2 z2]. rnum. set (al := _ / 3) in *.
  split; exists al; (split; [exact A|]); unfold psub, padd, pmul; cbn [px py]; rnum; split; ring.
Qed.
Example C70_tangents_ex : 0 < PI / 2 /\ PI / 2 - 0 <= PI / 2.
Proof. pose proof PI_RGT_0. lra. Qed.

(** ** C71: the shape of the sine wave *)
(** A quarter of a wave starts in the direction of the sine, ends at the amplitude with a horizontal tangent; the second quarter
    is its mirror image, and the second half is the first half mirrored downwards and moved by half a wave length. *)
Lemma sine_cycle_shape (amp wl : R) : exists a b c : R, a * amp = b * (wl / (2 * PI)) /\ sine_cycle (N:=ROps) amp wl =
  [Bz (P 0 0) (P a b) (P c amp) (P (wl / 4) amp);
   Bz (P (wl / 4) amp) (P (wl / 2 - c) amp) (P (wl / 2 - a) b) (P (wl / 2) 0);
   Bz (P (wl / 2) 0) (P (wl / 2 + a) (- b)) (P (wl / 2 + c) (- amp)) (P (wl / 2 + wl / 4) (- amp));
   Bz (P (wl / 2 + wl / 4) (- amp)) (P (wl - c) (- amp)) (P (wl - a) (- b)) (P wl 0)]%R.
Proof.
  pose proof PI_RGT_0 as PP. unfold sine_cycle, sine_quadrant.
  generalize (lit 512286623256592433 (-18) : ROps). intros c1. generalize (lit 1002313685767898599 (-18) : ROps). intros c2. change (T ROps) with R in *.
  exists (wl / 4 / (PI / 2) * c1), (amp * c1), (wl / 4 / (PI / 2) * c2). split; [field; lra|].
  unfold ztransform, mscale, apply. cbn [z1 z2 k1 k2 px py m00 m01 m02 m10 m11 m12]. rnum.
  assert (X2 : wl / 4 / (PI / 2) * (PI / 2) = wl / 4) by (field; lra).
  set (s := wl / 4 / (PI / 2)) in *. set (h := PI / 2) in *. clearbody s h.
  assert (B : forall a b c d a' b' c' d' : Pt, a = a' -> b = b' -> c = c' -> d = d' -> Bz a b c d = Bz a' b' c' d') by (intros; congruence).
  repeat (apply f_equal2; [apply B; (apply pt_ext; cbn [px py]; toR; lra)|]). reflexivity.
Qed.
Theorem C71_shape (amp wl : R) (n : nat) (o : Pt) i : (i < n)%nat -> let w := bezier_sine_wave amp wl n o in
  let x0 := px o + INR i * wl in
  exists q0 q1 q2 q3, nth_error w (4 * i) = Some q0 /\ nth_error w (4 * i + 1) = Some q1 /\ nth_error w (4 * i + 2) = Some q2 /\ nth_error w (4 * i + 3) = Some q3 /\
    z1 q0 = P x0 (py o) /\ z2 q0 = P (x0 + wl / 4)%R (py o + amp)%R /\ py (k2 q0) = py o + amp /\
    (px (k1 q0) - x0) * amp = (py (k1 q0) - py o) * (wl / (2 * PI)) /\
    (forall t, on_bez q1 t = P (2 * (x0 + wl / 4) - px (on_bez q0 (1 - t)))%R (py (on_bez q0 (1 - t)))) /\
    (forall t, on_bez q2 t = P (px (on_bez q0 t) + wl / 2)%R (2 * py o - py (on_bez q0 t))%R) /\
    (forall t, on_bez q3 t = P (px (on_bez q1 t) + wl / 2)%R (2 * py o - py (on_bez q1 t))%R).
Proof.
  intros Hi w x0. pose proof PI_RGT_0 as PP.
  destruct (sine_cycle_shape amp wl) as (a & b & c & Hab & Hc).
  pose (f := fun i => let t := translate (wl * Num.of_Z (n:=ROps) (Z.of_nat i) + px o) (py o) in map (fun q => ztransform q t) (sine_cycle amp wl)).
  assert (W : w = flat_map f (seq 0 n)) by reflexivity.
  assert (L4 : forall k, length (f k) = 4%nat) by reflexivity.
  assert (G : forall m k j r, (j < m)%nat -> (r < 4)%nat -> nth_error (flat_map f (seq k m)) (4 * j + r) = nth_error (f (k + j)%nat) r).
  { clear - L4. induction m as [|m IH]; intros k j r Hj Hr; [lia|]. cbn [seq flat_map]. pose proof (L4 k) as L.
    destruct j as [|j].
    - rewrite nth_error_app1 by lia. rewrite Nat.mul_0_r, !Nat.add_0_r. reflexivity.
    - rewrite nth_error_app2 by lia. rewrite L. replace (4 * S j + r - 4)%nat with (4 * j + r)%nat by lia. rewrite IH by lia. do 2 f_equal. lia. }
  pose proof (G n 0%nat i 0%nat Hi ltac:(lia)) as Q0. pose proof (G n 0%nat i 1%nat Hi ltac:(lia)) as Q1.
  pose proof (G n 0%nat i 2%nat Hi ltac:(lia)) as Q2. pose proof (G n 0%nat i 3%nat Hi ltac:(lia)) as Q3.
  rewrite Nat.add_0_r in Q0. rewrite W, Q0, Q1, Q2, Q3. cbn [Nat.add]. unfold f. cbv zeta. rewrite Hc. cbn [map nth_error].
  assert (Ei : (Num.of_Z (n:=ROps) (Z.of_nat i) : R) = INR i) by (rnum; symmetry; apply INR_IZR_INZ).
  eexists _, _, _, _. do 4 (split; [reflexivity|]). clear - Hab Ei PP.
  unfold x0, ztransform, translate, apply, on_bez, bern3. cbn [z1 z2 k1 k2 px py m00 m01 m02 m10 m11 m12]. rewrite Ei.
  generalize (INR i). intros I. rnum. change (T ROps) with R in *.
  split; [apply pt_ext; cbn [px py]; toR; ring|]. split; [apply pt_ext; cbn [px py]; toR; field|].
  split; [toR; ring|]. split; [toR; transitivity (a * amp); [ring|]; rewrite Hab; ring|].
  split; [intros t; apply pt_ext; cbn [px py]; toR; field|].
  split; [intros t; apply pt_ext; cbn [px py]; toR; field|]. intros t; apply pt_ext; cbn [px py]; toR; field.
Qed.
Example C71_shape_ex : (0 < 1)%nat.
Proof. lia. Qed.

(** ** C72: the smoothed path has no corners *)
Lemma last_d {A} (y : A) l d d' : last (y :: l) d = last (y :: l) d'.
Proof. revert y. induction l as [|z l IH]; intros y; [reflexivity|]. apply IH. Qed.
Lemma in_last_cons {A} (y : A) l d : In (last (y :: l) d) (y :: l).
Proof. revert y. induction l as [|z l IH]; intros y; [left; reflexivity|]. right. apply IH. Qed.
(** Two curves meet without a corner: they have a common direction at the joint. *)
Definition smooth_joint (c d : Bez) : Prop :=
  z2 c = z1 d /\ exists u, unit_vector u /\ along u (psub (z2 c) (k2 c)) /\ along u (psub (k1 d) (z1 d)).
Fixpoint no_corners (l : list Bez) : Prop :=
  match l with c :: r => match r with d :: _ => smooth_joint c d /\ no_corners r | [] => True end | [] => True end.
(** The lengths of the control arms at the joint of [s] and [t]: for lines the share of the segment in the length of both, times the
    distance of their midpoints, times 1.2 * smoothness; for arcs the arm of a circle, 0.5522847498308 r tan (sweep/2). *)
Definition arm_in (s t : seg ROps) (sm : R) : R :=
  match s with
  | SLine _ => s_length s / (s_length s + s_length t) * euclid (seg_midpoint s) (seg_midpoint t) * (12 / 10 * sm)
  | SArc a => radius a * tan (Rabs (sweep a) / 2) * (5522847498308 / 10000000000000)
  end.
Definition arm_out (s t : seg ROps) (sm : R) : R :=
  match t with
  | SLine _ => s_length t / (s_length s + s_length t) * euclid (seg_midpoint s) (seg_midpoint t) * (12 / 10 * sm)
  | SArc a => radius a * tan (Rabs (sweep a) / 2) * (5522847498308 / 10000000000000)
  end.
Section C72S.
  Context {E : Epsilon ROps}.
  Hypothesis He : 0 < EPS.
  (** the segments meet and the arms are long enough *)
  Definition roundable (sm : R) (s t : seg ROps) : Prop := s_p2 s = s_p1 t /\ 0 < arm_in s t sm /\ EPS <= arm_out s t sm.
  Definition dirn (s t : seg ROps) : Pt := let g := langle (Ln (seg_midpoint s) (seg_midpoint t)) in P (cos g) (sin g).
  Lemma dirn_unit s t : unit_vector (dirn s t).
  Proof. unfold unit_vector, dirn. cbn [px py]. rnum. pose proof (sin2_cos2 (langle (N:=ROps) (Ln (seg_midpoint s) (seg_midpoint t)))) as Q. unfold Rsqr in Q. rewrite <- Q. ring. Qed.
  Lemma llen_mid (s t : seg ROps) : (llen (Ln (seg_midpoint s) (seg_midpoint t)) : R) = euclid (seg_midpoint s) (seg_midpoint t).
  Proof. rewrite seg_len_llen. reflexivity. Qed.
  Lemma polar_back (q : Pt) (m g : R) : padd q (from_polar (N:=ROps) m (g + PI)%R) = P (px q - m * cos g)%R (py q - m * sin g)%R.
  Proof. unfold padd, from_polar. cbn [px py]. rnum. rewrite neg_cos, neg_sin. apply pt_ext; cbn [px py]; toR; ring. Qed.
  Lemma arms (s1 s2 : seg ROps) cp sm c nx : smoothing_curve s1 (Some s2) (Some cp) sm true = Ok (c, nx) -> 0 < arm_in s1 s2 sm ->
    along (dirn s1 s2) (psub (z2 c) (k2 c)) /\ nx = P (px (s_p2 s1) + arm_out s1 s2 sm * px (dirn s1 s2))%R (py (s_p2 s1) + arm_out s1 s2 sm * py (dirn s1 s2))%R.
  Proof.
    intros H Hin. unfold smoothing_curve in H. destruct (pydiv _ _) as [ratio|] eqn:Rt; [|discriminate]. cbn [rbind] in H.
    assert (Rq : ratio = s_length s1 / (s_length s1 + s_length s2) /\ s_length s1 + s_length s2 <> 0).
    { unfold pydiv in Rt. rnum. destruct (Reqb _ 0) eqn:Z; [discriminate|]. injection Rt as <-. rbool. auto. }
    destruct Rq as [Rq Rn].
    assert (K12 : (lit 12 (-1) : R) = 12 / 10) by (rnum; cbn; lra).
    assert (KA : (lit 5522847498308 (-13) : R) = 5522847498308 / 10000000000000) by (rnum; unfold Rlit; cbn; lra).
    match type of H with (let '(a, b) := ?x in _) = _ => destruct x as [cp1 mag2] eqn:M end.
    assert (M2 : exists k, 0 < k /\ mag2 = k * arm_in s1 s2 sm).
    { destruct s1 as [l|a].
      - pose proof (f_equal snd M) as MM. cbn [snd] in MM. rewrite <- MM. exists 1. split; [lra|]. pose proof (llen_mid (SLine l) s2) as LM. cbn [seg_midpoint arm_in] in *.
        rewrite LM, K12, Rq. rnum. ring.
      - assert (Q : (radius a * Num.tan (abs (sweep a) / Num.of_Z 2) * lit 5522847498308 (-13) : ROps)%num = arm_in (SArc a) s2 sm) by (cbn [arm_in]; rnum; rewrite <- KA; reflexivity).
        cbv beta iota zeta in M. rewrite Q in M. destruct (_ || _); pose proof (f_equal snd M) as MM; cbn [snd] in MM; rewrite <- MM; [exists (1 / 2)|exists 1]; (split; [lra|]); [|symmetry; apply Rmult_1_l].
        rnum. assert (K5 : Rlit 5 (-1) = 1 / 2) by (cbn; lra). rewrite K5. ring. }
    destruct M2 as (k & Hk & ->). set (g := langle _) in H. change (dirn s1 s2) with (P (cos g) (sin g) : Pt). cbn [px py].
    pose proof (f_equal (fun r => match r with Ok (x, _) => x | _ => c end) H) as Hc. pose proof (f_equal (fun r => match r with Ok (_, x) => x | _ => nx end) H) as Hnx. cbv beta iota in Hc, Hnx. clear H. split.
    - assert (CP : padd (s_p2 s1) (from_polar (N:=ROps) (k * arm_in s1 s2 sm) (g + Num.pi)%num) = P (px (s_p2 s1) - k * arm_in s1 s2 sm * cos g)%R (py (s_p2 s1) - k * arm_in s1 s2 sm * sin g)%R) by apply polar_back.
      rewrite CP in Hc. clear CP M. revert Hc. destruct (peq cp1 (s_p1 s1)); [destruct s1 as [l|a]|]; intros <-; cbn [z2 k2 from_quadratic].
      + exists (k * arm_in (SLine l) s2 sm * (2 / 3)). split; [nra|]. unfold psub, padd, pdiv3, pmul. cbn [px py]. rnum. split; field.
      + exists (k * arm_in (SArc a) s2 sm). split; [nra|]. unfold psub. cbn [px py]. rnum. split; ring.
      + exists (k * arm_in s1 s2 sm). split; [nra|]. unfold psub. cbn [px py]. rnum. split; ring.
    - rewrite <- Hnx. destruct s2 as [l|a].
      + pose proof (llen_mid s1 (SLine l)) as LM. cbn [seg_midpoint arm_out] in *. rewrite LM, K12, Rq. unfold padd, from_polar. cbn [px py]. rnum. apply pt_ext; cbn [px py]; toR; field; exact Rn.
      + cbn [arm_out]. rewrite KA. unfold padd, from_polar. cbn [px py]. rnum. reflexivity.
  Qed.
  Lemma arm_start (s : seg ROps) x cp sm c nx : smoothing_curve s x (Some cp) sm true = Ok (c, nx) -> EPS <= euclid cp (s_p1 s) ->
    z1 c = s_p1 s /\ z2 c = s_p2 s /\ exists k, 0 < k /\ psub (k1 c) (z1 c) = P (k * (px cp - px (s_p1 s)))%R (k * (py cp - py (s_p1 s)))%R.
  Proof.
    intros H Hd. pose proof (smoothing_ends _ _ _ _ _ _ _ H) as En. unfold zends, ends in En. injection En as E1 E2. split; [auto|]. split; [auto|].
    unfold smoothing_curve in H. destruct x as [s2|].
    - destruct (pydiv _ _) as [ratio|]; [|discriminate]. cbn [rbind] in H.
      match type of H with (let '(a, b) := ?x in _) = _ => destruct x as [cp1 mag2] eqn:M end. pose proof (f_equal (fun r => match r with Ok (x, _) => x | _ => c end) H) as Hc. cbv beta iota in Hc. clear H.
      assert (M1 : exists k, 1 <= k /\ cp1 = P (px (s_p1 s) + k * (px cp - px (s_p1 s)))%R (py (s_p1 s) + k * (py cp - py (s_p1 s)))%R).
      { assert (One : cp1 = cp -> exists k, 1 <= k /\ cp1 = P (px (s_p1 s) + k * (px cp - px (s_p1 s)))%R (py (s_p1 s) + k * (py cp - py (s_p1 s)))%R).
        { intros ->. exists 1. split; [lra|]. apply pt_ext; cbn [px py]; symmetry; toR; ring. }
        destruct s as [l|a]; [injection M as <- <-; apply One; reflexivity|]. cbv beta iota zeta in M. destruct (_ || _); pose proof (f_equal fst M) as MM; cbn [fst] in MM; [|apply One; symmetry; exact MM]. rewrite <- MM.
        exists (15 / 10). split; [lra|]. unfold padd, pmul, psub. cbn [px py]. rnum. assert (K : Rlit 15 (-1) = 15 / 10) by (cbn; lra). rewrite K. apply pt_ext; cbn [px py]; toR; ring. }
      destruct M1 as (k & Hk & Hcp). 
      assert (Z : peq cp1 (s_p1 s) = false).
      { destruct (peq cp1 (s_p1 s)) eqn:Z; auto. apply peq_true in Z; auto. exfalso.
        assert (D : euclid cp1 (s_p1 s) = k * euclid cp (s_p1 s)).
        { apply euclid_unique; [apply Rmult_le_pos; [lra|apply euclid_pos]|]. rewrite Hcp. cbn [px py]. pose proof (euclid_sqr cp (s_p1 s)) as Q.
          transitivity (k * k * (euclid cp (s_p1 s) * euclid cp (s_p1 s))); [ring|rewrite Q; toR; ring]. }
        rewrite D in Z. nra. }
      rewrite Z in Hc. rewrite <- Hc. cbn [k1 z1]. exists k. split; [lra|]. rewrite Hcp. unfold psub. cbn [px py]. rnum. apply pt_ext; cbn [px py]; toR; ring.
    - injection H as <- _. exists (2 / 3). split; [lra|]. unfold from_quadratic. cbn [k1 z1]. unfold padd, psub, pdiv3, pmul. cbn [px py]. rnum. apply pt_ext; cbn [px py]; toR; field.
  Qed.
  Lemma arm_far (s t : seg ROps) sm nx : roundable sm s t ->
    nx = P (px (s_p2 s) + arm_out s t sm * px (dirn s t))%R (py (s_p2 s) + arm_out s t sm * py (dirn s t))%R -> EPS <= euclid nx (s_p1 t).
  Proof.
    intros (J & _ & O) ->. rewrite <- J. replace (euclid _ _) with (arm_out s t sm); [exact O|]. symmetry. apply euclid_unique; [lra|]. cbn [px py].
    pose proof (dirn_unit s t) as U. unfold unit_vector in U. transitivity (arm_out s t sm * arm_out s t sm * (px (dirn s t) * px (dirn s t) + py (dirn s t) * py (dirn s t))); [rewrite U; ring|ring].
  Qed.
  Lemma joint_ok (s t : seg ROps) x cp cp' sm c nx d nx' : roundable sm s t -> z2 c = s_p2 s -> along (dirn s t) (psub (z2 c) (k2 c)) ->
    cp' = P (px (s_p2 s) + arm_out s t sm * px (dirn s t))%R (py (s_p2 s) + arm_out s t sm * py (dirn s t))%R ->
    smoothing_curve t x (Some cp') sm true = Ok (d, nx') -> cp = cp' -> nx = nx' -> smooth_joint c d.
  Proof.
    intros Rd Hz Al Hcp H _ _. pose proof (arm_far s t sm cp' Rd Hcp) as F. destruct (arm_start t x cp' sm d nx' H F) as (Z1 & Z2 & k & Hk & Hv).
    destruct Rd as (J & _ & O). split; [rewrite Hz, Z1; exact J|]. exists (dirn s t). split; [apply dirn_unit|]. split; [exact Al|].
    rewrite Hv, Hcp, <- J. exists (k * arm_out s t sm). split; [apply Rmult_lt_0_compat; lra|]. cbn [px py]. split; toR; ring.
  Qed.
  Fixpoint all_roundable (sm : R) (l : list (seg ROps)) : Prop :=
    match l with s :: r => match r with t :: _ => roundable sm s t /\ all_roundable sm r | [] => True end | [] => True end.
  Lemma no_corners_app (l : list Bez) c : no_corners l -> (forall d, last (map Some l) None = Some d -> smooth_joint d c) -> no_corners (l ++ [c]).
  Proof.
    induction l as [|a [|b r] IH]; intros H K; [exact Logic.I|cbn; split; [apply K; reflexivity|exact Logic.I]|].
    destruct H as [H1 H2]. cbn [app]. split; [exact H1|]. apply IH; [exact H2|]. intros d Hd. apply K. exact Hd.
  Qed.
  Definition nondeg (s : seg ROps) : Prop := EPS <= euclid (s_p1 s) (s_p2 s).
  Lemma add_curve_nondeg (s : seg ROps) c acc : nondeg s -> z1 c = s_p1 s -> z2 c = s_p2 s -> add_curve c acc = acc ++ [c].
  Proof.
    intros Hn E1 E2. unfold add_curve. rewrite E1, E2. destruct (peq _ _) eqn:Z; [apply peq_true in Z; auto; unfold nondeg in Hn; lra|reflexivity].
  Qed.
  Lemma curve_ends (s : seg ROps) x cp sm m c nx : smoothing_curve s x cp sm m = Ok (c, nx) -> z1 c = s_p1 s /\ z2 c = s_p2 s.
  Proof. intros H. pose proof (smoothing_ends _ _ _ _ _ _ _ H) as En. unfold zends, ends in En. injection En as E1 E2. auto. Qed.
  Lemma last_snoc {A} (l : list A) c : last (map Some (l ++ [c])) None = Some c.
  Proof. rewrite map_app. cbn. apply last_last. Qed.
  (** the state between two segments: the last curve arrives in the direction in which the control point lies *)
  Definition ready (sm : R) (s t : seg ROps) (acc : list Bez) (cp : Pt) : Prop :=
    no_corners acc /\ cp = P (px (s_p2 s) + arm_out s t sm * px (dirn s t))%R (py (s_p2 s) + arm_out s t sm * py (dirn s t))%R /\
    exists c, last (map Some acc) None = Some c /\ z2 c = s_p2 s /\ along (dirn s t) (psub (z2 c) (k2 c)).
  Lemma loop_ready sm rest : forall (s t : seg ROps) cp acc sl cp' out, smooth_loop t cp rest sm acc = Ok (sl, cp', out) ->
    ready sm s t acc cp -> all_roundable sm (s :: t :: rest) -> Forall nondeg (t :: rest) ->
    exists s', ready sm s' sl out cp' /\ roundable sm s' sl /\ sl = last rest t /\ exists more, out = acc ++ more.
  Proof.
    induction rest as [|x r IH]; intros s t cp acc sl cp' out H Rd Al Nd.
    - injection H as <- <- <-. exists s. split; [exact Rd|]. split; [apply Al|]. split; [reflexivity|]. exists []. rewrite app_nil_r. reflexivity.
    - cbn [smooth_loop] in H. destruct (smoothing_curve t (Some x) (Some cp) sm true) as [[c nx]|] eqn:S; [|discriminate]. cbn [rbind] in H.
      destruct Al as [A1 A2]. pose proof A2 as [A3 _]. pose proof (curve_ends _ _ _ _ _ _ _ S) as [Z1 Z2]. pose proof (Forall_inv Nd) as N1.
      rewrite (add_curve_nondeg t c acc N1 Z1 Z2) in H. destruct Rd as (R1 & R2 & e & R3 & R4 & R5).
      destruct (arms t x cp sm c nx S) as [Ar1 Ar2]; [apply A3|].
      destruct (IH t x nx (acc ++ [c]) sl cp' out H) as (s' & Q1 & Q2 & Q3 & more & Q4); [| exact A2|exact (Forall_inv_tail Nd)|].
      + split; [|split; [exact Ar2|]].
        * apply no_corners_app; [exact R1|]. intros d Hd. rewrite R3 in Hd. injection Hd as <-. apply (joint_ok s t (Some x) cp cp sm e nx c nx A1 R4 R5 R2 S eq_refl eq_refl).
        * exists c. split; [apply last_snoc|]. split; [exact Z2|exact Ar1].
      + exists s'. split; [exact Q1|]. split; [exact Q2|]. split.
        * rewrite Q3. destruct r as [|y r]; [reflexivity|]. change (last (x :: y :: r) t) with (last (y :: r) t). apply last_d.
        * exists (c :: more). rewrite Q4, <- app_assoc. reflexivity.
  Qed.
  Lemma loop_acc sm rest : forall (s : seg ROps) cp acc sl cp' out, smooth_loop s cp rest sm acc = Ok (sl, cp', out) ->
    exists more, out = acc ++ more /\ forall acc', smooth_loop s cp rest sm acc' = Ok (sl, cp', acc' ++ more).
  Proof.
    induction rest as [|x r IH]; intros s cp acc sl cp' out H.
    - injection H as <- <- <-. exists []. rewrite app_nil_r. split; [reflexivity|]. intros acc'. rewrite app_nil_r. reflexivity.
    - cbn [smooth_loop] in *. destruct (smoothing_curve s (Some x) (Some cp) sm true) as [[c nx]|]; [|discriminate]. cbn [rbind] in *.
      destruct (IH x nx _ sl cp' out H) as (more & -> & K). unfold add_curve in *. destruct (negb (peq (z1 c) (z2 c))).
      + exists (c :: more). split; [rewrite <- app_assoc; reflexivity|]. intros acc'. rewrite K, <- app_assoc. reflexivity.
      + exists more. auto.
  Qed.
  Lemma loop_last sm rest : forall (s : seg ROps) cp acc sl cp' out, smooth_loop s cp rest sm acc = Ok (sl, cp', out) -> sl = last rest s.
  Proof.
    induction rest as [|x r IH]; intros s cp acc sl cp' out H; [injection H as <- _ _; reflexivity|].
    cbn [smooth_loop] in *. destruct (smoothing_curve s (Some x) (Some cp) sm true) as [[c nx]|]; [|discriminate]. cbn [rbind] in *.
    rewrite (IH _ _ _ _ _ _ H). destruct r as [|y r]; [reflexivity|]. change (last (x :: y :: r) s) with (last (y :: r) s). apply last_d.
  Qed.
  (** An open path of two or more segments becomes curves that meet without corners. *)
  Theorem C72_no_corners_open (s0 s1 : seg ROps) r sm out : all_roundable sm (s0 :: s1 :: r) -> Forall nondeg (s0 :: s1 :: r) ->
    EPS <= euclid (s_p2 (last r s1)) (s_p1 s0) -> smooth_path (s0 :: s1 :: r) sm = Ok (Some out) -> no_corners out.
  Proof.
    intros Al Nd Op H. unfold smooth_path in H. cbn [smooth_loop] in H.
    destruct (smoothing_curve s0 (Some s1) (Some (s_p1 s0)) sm true) as [[c nx]|] eqn:S; [|discriminate]. cbn [rbind] in H.
    pose proof (curve_ends _ _ _ _ _ _ _ S) as [Z1 Z2]. pose proof (Forall_inv Nd) as N1. rewrite (add_curve_nondeg s0 c [] N1 Z1 Z2) in H. cbn [app] in H.
    destruct (smooth_loop s1 nx r sm [c]) as [[[sl cp] acc]|] eqn:L; [|discriminate]. cbn [rbind] in H.
    destruct (arms s0 s1 (s_p1 s0) sm c nx S) as [Ar1 Ar2]; [apply Al|].
    destruct (loop_ready sm r s0 s1 nx [c] sl cp acc L) as (s' & Q1 & Q2 & Q3 & _); [|exact Al|exact (Forall_inv_tail Nd)|].
    { split; [exact Logic.I|]. split; [exact Ar2|]. exists c. auto. }
    destruct (peq (s_p2 (last r s1)) (s_p1 s0)) eqn:P; [apply peq_true in P; auto; lra|].
    destruct (smoothing_curve sl None (Some cp) sm true) as [[d nd]|] eqn:S2; [|discriminate]. cbn [rbind] in H. injection H as <-.
    pose proof (curve_ends _ _ _ _ _ _ _ S2) as [Z3 Z4]. destruct Q1 as (R1 & R2 & e & R3 & R4 & R5).
    assert (Nl : nondeg sl). { rewrite Q3. pose proof (Forall_inv_tail Nd) as F. rewrite Forall_forall in F. apply F. destruct r as [|y r']; [left; reflexivity|]. right. apply (in_last_cons y r' s1). }
    rewrite (add_curve_nondeg sl d acc Nl Z3 Z4). apply no_corners_app; [exact R1|]. intros g Hg. rewrite R3 in Hg. injection Hg as <-.
    apply (joint_ok s' sl None cp cp sm e nd d nd Q2 R4 R5 R2 S2 eq_refl eq_refl).
  Qed.
  (** A closed path becomes a closed chain without corners, also where it closes. *)
  Theorem C72_no_corners_closed (s0 s1 : seg ROps) r sm out : all_roundable sm (s0 :: s1 :: r) -> roundable sm (last r s1) s0 -> Forall nondeg (s0 :: s1 :: r) ->
    smooth_path (s0 :: s1 :: r) sm = Ok (Some out) -> no_corners out /\ exists f l, nth_error out 0 = Some f /\ last (map Some out) None = Some l /\ smooth_joint l f.
  Proof.
    intros Al Cl Nd H. unfold smooth_path in H. cbn [smooth_loop] in H.
    destruct (smoothing_curve s0 (Some s1) (Some (s_p1 s0)) sm true) as [[c nx]|] eqn:S; [|discriminate]. cbn [rbind] in H.
    pose proof (curve_ends _ _ _ _ _ _ _ S) as [Z1 Z2]. pose proof (Forall_inv Nd) as N1. rewrite (add_curve_nondeg s0 c [] N1 Z1 Z2) in H. cbn [app] in H.
    destruct (smooth_loop s1 nx r sm [c]) as [[[sl cp] acc]|] eqn:L; [|discriminate]. cbn [rbind] in H.
    destruct (arms s0 s1 (s_p1 s0) sm c nx S) as [Ar1 Ar2]; [apply Al|].
    destruct (loop_acc sm r s1 nx [c] sl cp acc L) as (more & Q4 & LA). cbn [app] in Q4. subst acc.
    assert (Q3 : sl = last r s1) by (apply (loop_last sm r s1 nx [c] sl cp _ L)).
    rewrite <- Q3 in H, Cl.
    replace (peq (s_p2 sl) (s_p1 s0)) with true in H.
    2: { symmetry. apply peq_true; auto. destruct Cl as (-> & _). replace (euclid _ _) with 0; auto. symmetry. apply euclid_unique; [lra|]. toR. ring. }
    destruct (smoothing_curve sl (Some s0) (Some cp) sm true) as [[d nd]|] eqn:S2; [|discriminate]. cbn [rbind] in H.
    destruct (smoothing_curve s0 (Some s1) (Some nd) sm true) as [[c0 nc]|] eqn:S3; [|discriminate]. cbn [rbind] in H. injection H as <-.
    pose proof (curve_ends _ _ _ _ _ _ _ S2) as [Z3 Z4]. pose proof (curve_ends _ _ _ _ _ _ _ S3) as [Z5 Z6].
    destruct (arms sl s0 cp sm d nd S2) as [Ar3 Ar4]; [apply Cl|]. destruct (arms s0 s1 nd sm c0 nc S3) as [Ar5 _]; [apply Al|].
    destruct (loop_ready sm r s0 s1 nx [c0] sl cp (c0 :: more) (LA [c0])) as (s' & (R1 & R2 & e & R3 & R4 & R5) & Q2 & _ & _); [|exact Al|exact (Forall_inv_tail Nd)|].
    { split; [exact Logic.I|]. split; [exact Ar2|]. exists c0. auto. }
    assert (Nl : nondeg sl). { rewrite Q3. pose proof (Forall_inv_tail Nd) as F. rewrite Forall_forall in F. apply F. destruct r as [|y r']; [left; reflexivity|]. right. apply (in_last_cons y r' s1). }
    assert (JL : smooth_joint d c0) by (apply (joint_ok sl s0 (Some s1) nd nd sm d nc c0 nc Cl Z4 Ar3 Ar4 S3 eq_refl eq_refl)).
    rewrite (add_curve_nondeg sl d _ Nl Z3 Z4). split.
    - apply no_corners_app; [exact R1|]. intros g Hg. rewrite R3 in Hg. injection Hg as <-.
      apply (joint_ok s' sl (Some s0) cp cp sm e nd d nd Q2 R4 R5 R2 S2 eq_refl eq_refl).
    - exists c0, d. split; [reflexivity|]. split; [apply last_snoc|exact JL].
  Qed.
End C72S.
Example C72_no_corners_ex : let a := SLine (Ln (P 0 0) (P 4 0)) in let b := SLine (Ln (P 4 0) (P 4 4)) in
  @all_roundable eps6 (1/2) [a; b] /\ Forall (@nondeg eps6) [a; b].
Proof.
  cbv zeta.
  assert (La : seg_len (Ln (P 0 0) (P 4 0)) = 4) by (unfold seg_len; apply euclid_unique; cbn; lra).
  assert (Lb : seg_len (Ln (P 4 0) (P 4 4)) = 4) by (unfold seg_len; apply euclid_unique; cbn; lra).
  split.
  - cbn [all_roundable]. split; [|exact Logic.I]. unfold roundable, arm_in, arm_out. cbn [s_p1 s_p2 p1 p2 s_length seg_midpoint]. rewrite !seg_len_llen, La, Lb.
    assert (Ma : midpoint (N:=ROps) (Ln (P 0 0) (P 4 0)) = P 2 0) by (rewrite midpoint_spec; unfold at_param; apply pt_ext; cbn; lra).
    assert (Mb : midpoint (N:=ROps) (Ln (P 4 0) (P 4 4)) = P 4 2) by (rewrite midpoint_spec; unfold at_param; apply pt_ext; cbn; lra).
    rewrite Ma, Mb. pose proof (euclid_sqr (P 2 0) (P 4 2)) as Q. pose proof (euclid_pos (P 2 0) (P 4 2)). cbn in Q. set (d := euclid (P 2 0) (P 4 2)) in *.
    assert (1 < d) by nra. split; [reflexivity|]. unfold EPS, eps6. split; lra.
  - unfold nondeg. cbn [s_p1 s_p2 p1 p2]. unfold seg_len in *. cbn [p1 p2] in *. repeat constructor; cbn [s_p1 s_p2 p1 p2]; [rewrite La|rewrite Lb]; unfold EPS, eps6; lra.
Qed.

(** ** C110: inflections *)
(** The bending of the curve at a parameter: the cross product of the first two derivatives; its sign tells to which side the curve bends. *)
Definition bending (b : Bez) (t : R) : R := cross (derivative1 b t) (derivative2 b t).
(** It is a quadratic function of the parameter. *)
Definition bz_v1 (b : Bez) : Pt := P (px (k1 b) - px (z1 b))%R (py (k1 b) - py (z1 b))%R.
Definition bz_v2 (b : Bez) : Pt := P (px (k2 b) - px (k1 b) - px (bz_v1 b))%R (py (k2 b) - py (k1 b) - py (bz_v1 b))%R.
Definition bz_v3 (b : Bez) : Pt := P (px (z2 b) - px (k2 b) - px (bz_v1 b) - 2 * px (bz_v2 b))%R (py (z2 b) - py (k2 b) - py (bz_v1 b) - 2 * py (bz_v2 b))%R.
Definition qa b := px (bz_v2 b) * py (bz_v3 b) - py (bz_v2 b) * px (bz_v3 b).
Definition qb b := px (bz_v1 b) * py (bz_v3 b) - py (bz_v1 b) * px (bz_v3 b).
Definition qc b := px (bz_v1 b) * py (bz_v2 b) - py (bz_v1 b) * px (bz_v2 b).
Lemma bending_quadratic (b : Bez) t : bending b t = 18 * (qa b * (t * t) + qb b * t + qc b).
Proof.
  destruct b as [[a1 a2] [b1 b2] [c1 c2] [d1 d2]]. unfold bending, derivative1, derivative2, qa, qb, qc, bz_v3, bz_v2, bz_v1. gunf. cbn [px py z1 k1 k2 z2]. gunf. toR. ring.
Qed.
Lemma quadratic_roots (a b c s t : R) : a <> 0 -> 0 <= s -> s * s = b * b - 4 * a * c ->
  (a * (t * t) + b * t + c = 0 <-> t = (- b - s) / (2 * a) \/ t = (- b + s) / (2 * a)).
Proof.
  intros Ha Hs Hd. split.
  - intros H. assert (K : (2 * a * t + b - s) * (2 * a * t + b + s) = 0).
    { transitivity (4 * a * (a * (t * t) + b * t + c) + (b * b - 4 * a * c - s * s)); [ring|rewrite H, Hd; ring]. }
    apply Rmult_integral in K. destruct K as [K|K]; [right|left]; apply Rmult_eq_reg_r with (2 * a); try lra; unfold Rdiv; rewrite Rmult_assoc, Rinv_l by lra; lra.
  - intros [-> | ->]; apply Rmult_eq_reg_l with (4 * a); try lra; rewrite Rmult_0_r.
    + transitivity (s * s - (b * b - 4 * a * c)); [field; lra|lra].
    + transitivity (s * s - (b * b - 4 * a * c)); [field; lra|lra].
Qed.
Section C110.
  Context {E : Epsilon ROps}.
  Hypothesis He : 0 < EPS < 1 / 2.
  Lemma inflections_model (b : Bez) im : EPS <= euclid (bz_v1 b) (P (px (z2 b) - px (k2 b))%R (py (z2 b) - py (k2 b))%R) -> qa b <> 0 ->
    let dis := qb b * qb b - 4 * qa b * qc b in let s := R_sqrt.sqrt (Rabs dis) in
    let clean r := if Rlt_dec r EPS then 0 else if Rle_dec (1 - EPS) r then 0 else r in
    let r1 := clean ((- qb b - s) / (2 * qa b)) in let r2 := clean ((- qb b + s) / (2 * qa b)) in
    find_inflections b im = (if negb im && Rltb dis 0 && (Reqb r1 0 || Reqb r2 0) then (0, 0) else (r1, r2)).
  Proof.
    intros Hs Ha. cbv zeta. unfold find_inflections. destruct (peq _ _) eqn:Z.
    { exfalso. apply peq_true in Z; [|lra]. apply (Rlt_irrefl EPS). eapply Rle_lt_trans; [exact Hs|]. eapply Rle_lt_trans; [|exact Z]. apply Req_le.
      unfold euclid, bz_v1, psub, pneg. cbn [px py]. rnum. f_equal. unfold Rsqr. ring. }
    assert (Q1 : (px (psub (k1 b) (z1 b)) : R) = px (bz_v1 b) /\ (py (psub (k1 b) (z1 b)) : R) = py (bz_v1 b)) by (split; reflexivity).
    set (V1 := psub (k1 b) (z1 b)). set (V2 := psub (psub (k2 b) (k1 b)) V1). set (V3 := psub (psub (psub (z2 b) (k2 b)) V1) (pmul V2 _)).
    assert (E1 : V1 = bz_v1 b) by reflexivity. assert (E2 : V2 = bz_v2 b) by reflexivity.
    assert (E3 : V3 = bz_v3 b) by (unfold V3; rewrite E1, E2; unfold bz_v3, psub, pmul; cbn [px py]; rnum; apply pt_ext; cbn [px py]; toR; ring).
    rewrite E1, E2, E3. rnum. fold (qa b) (qb b) (qc b). rewrite (proj2 (Rltb_true 0 (Rabs (2 * qa b)))) by (apply Rabs_pos_lt; lra).
    set (dis := qb b * qb b - 4 * qa b * qc b). set (s := R_sqrt.sqrt (Rabs dis)).
    assert (C : forall r : R, (if Rltb r EPS || Rleb (1 - EPS) r then 0 else r) = (if Rlt_dec r EPS then 0 else if Rle_dec (1 - EPS) r then 0 else r)).
    { intros r. unfold Rltb, Rleb. destruct (Rlt_dec r EPS), (Rle_dec (1 - EPS) r); reflexivity. }
    rewrite !C. reflexivity.
  Qed.
  (** The curve is not symmetric and its bending is not a linear function. *)
  Definition generic_curve (b : Bez) : Prop :=
    EPS <= euclid (P (px (k1 b) - px (z1 b)) (py (k1 b) - py (z1 b)))%R (P (px (z2 b) - px (k2 b)) (py (z2 b) - py (k2 b)))%R /\
    bending b 0 - 2 * bending b (1 / 2) + bending b 1 <> 0.
  (** If the bending vanishes anywhere (on the curve or on its continuation), the numbers found other than 0 are the parameters
      from EPSILON to 1 - EPSILON at which it does. *)
  Theorem C110_inflections_partial (b : Bez) im : generic_curve b -> (exists u, bending b u = 0) ->
    exists r1 r2, find_inflections b im = (r1, r2) /\
      forall t, EPS <= t < 1 - EPS -> (bending b t = 0 <-> t = r1 \/ t = r2) /\ (r1 = 0 \/ EPS <= r1 < 1 - EPS) /\ (r2 = 0 \/ EPS <= r2 < 1 - EPS).
  Proof.
    intros [Hs Hl] (u & Hu). assert (Ha : qa b <> 0) by (rewrite !bending_quadratic in Hl; intros Z; apply Hl; rewrite Z; field).
    pose proof (inflections_model b im Hs Ha) as M. cbv zeta in M.
    set (dis := qb b * qb b - 4 * qa b * qc b) in *.
    assert (D : 0 <= dis).
    { rewrite bending_quadratic in Hu. assert (Z : dis = (2 * qa b * u + qb b) * (2 * qa b * u + qb b) - 4 * qa b * (qa b * (u * u) + qb b * u + qc b)) by (unfold dis; ring).
      replace (qa b * (u * u) + qb b * u + qc b) with 0 in Z by lra. rewrite Z, Rmult_0_r, Rminus_0_r. apply Rle_0_sqr. }
    rewrite (Rabs_pos_eq dis D) in M. set (s := R_sqrt.sqrt dis) in *.
    assert (S2 : s * s = dis) by (apply sqrt_sqrt, D). assert (Sp : 0 <= s) by apply sqrt_pos.
    rewrite (proj2 (Rltb_false dis 0)) in M by lra. rewrite andb_false_r, andb_false_l in M.
    eexists _, _. split; [exact M|]. intros t Ht. rewrite bending_quadratic.
    assert (Z : 18 * (qa b * (t * t) + qb b * t + qc b) = 0 <-> qa b * (t * t) + qb b * t + qc b = 0) by (split; intros; lra).
    rewrite Z, (quadratic_roots _ _ _ s t Ha Sp S2). set (x := (- qb b - s) / (2 * qa b)). set (y := (- qb b + s) / (2 * qa b)).
    split; [|split].
    - destruct (Rlt_dec x EPS), (Rlt_dec y EPS); try destruct (Rle_dec (1 - EPS) x); try destruct (Rle_dec (1 - EPS) y); split; intros [|]; lra.
    - destruct (Rlt_dec x EPS); [auto|]. destruct (Rle_dec (1 - EPS) x); [auto|]. right. lra.
    - destruct (Rlt_dec y EPS); [auto|]. destruct (Rle_dec (1 - EPS) y); [auto|]. right. lra.
  Qed.
  (** Without any such place, either nothing is found or two places (of a loop) are. *)
  Theorem C110_no_inflection (b : Bez) : generic_curve b -> (forall u, bending b u <> 0) ->
    exists r1 r2, find_inflections b false = (r1, r2) /\ (r1 = 0 /\ r2 = 0 \/ EPS <= r1 < 1 - EPS /\ EPS <= r2 < 1 - EPS).
  Proof.
    intros [Hs Hl] Hu. assert (Ha : qa b <> 0) by (rewrite !bending_quadratic in Hl; intros Z; apply Hl; rewrite Z; field).
    pose proof (inflections_model b false Hs Ha) as M. cbv zeta in M.
    set (dis := qb b * qb b - 4 * qa b * qc b) in *.
    assert (D : dis < 0).
    { destruct (Rlt_le_dec dis 0) as [H|H]; auto. exfalso. apply (Hu ((- qb b - R_sqrt.sqrt dis) / (2 * qa b))). rewrite bending_quadratic.
      replace (qa b * _ + _ + _) with 0; [ring|]. symmetry. apply (quadratic_roots _ _ _ (R_sqrt.sqrt dis)); [auto|apply sqrt_pos|apply sqrt_sqrt, H|left; reflexivity]. }
    rewrite (proj2 (Rltb_true dis 0)) in M by lra. cbn [negb andb] in M.
    set (x := (- qb b - _) / _) in M. set (y := (- qb b + _) / _) in M.
    destruct (Reqb _ 0 || Reqb _ 0) eqn:Q in M.
    - exists 0, 0. split; [exact M|]. auto.
    - apply orb_false_iff in Q. destruct Q as [Q1 Q2]. rbool. eexists _, _. split; [exact M|]. right.
      destruct (Rlt_dec x EPS), (Rlt_dec y EPS); try destruct (Rle_dec (1 - EPS) x); try destruct (Rle_dec (1 - EPS) y); lra.
  Qed.
  (** A symmetric curve has its inflection in the middle. *)
  Theorem C110_symmetric (b : Bez) im : px (k1 b) - px (z1 b) = px (z2 b) - px (k2 b) -> py (k1 b) - py (z1 b) = py (z2 b) - py (k2 b) ->
    find_inflections b im = (1 / 2, 0) /\ (bending b 0 <> 0 -> forall t, bending b t = 0 <-> t = 1 / 2).
  Proof.
    intros Hx Hy. split.
    - unfold find_inflections. replace (peq _ _) with true.
      + f_equal. rnum. cbn. lra.
      + symmetry. apply peq_true; [lra|]. replace (euclid _ _) with 0; [lra|]. symmetry. apply euclid_unique; [lra|]. unfold psub, pneg. cbn [px py]. rnum. rewrite Hx, Hy. ring.
    - intros H0 t. rewrite bending_quadratic in *.
      assert (A : qa b = 0 /\ qb b = - 2 * qc b).
      { unfold qa, qb, qc, bz_v3, bz_v2, bz_v1. cbn [px py]. rnum. split.
        - transitivity ((px (k2 b) - px (k1 b) - (px (k1 b) - px (z1 b))) * ((py (z2 b) - py (k2 b)) - (py (k1 b) - py (z1 b))) - (py (k2 b) - py (k1 b) - (py (k1 b) - py (z1 b))) * ((px (z2 b) - px (k2 b)) - (px (k1 b) - px (z1 b)))); [ring|]. rewrite Hx, Hy. ring.
        - transitivity ((px (k1 b) - px (z1 b)) * ((py (z2 b) - py (k2 b)) - (py (k1 b) - py (z1 b)) - 2 * (py (k2 b) - py (k1 b) - (py (k1 b) - py (z1 b)))) - (py (k1 b) - py (z1 b)) * ((px (z2 b) - px (k2 b)) - (px (k1 b) - px (z1 b)) - 2 * (px (k2 b) - px (k1 b) - (px (k1 b) - px (z1 b))))); [ring|]. rewrite <- Hx, <- Hy. ring. }
      destruct A as [A B]. rewrite A, B in *. assert (qc b <> 0) by (intros Z; apply H0; rewrite Z; ring). split.
      + intros Q. assert (Z : qc b * (1 - 2 * t) = 0) by lra. apply Rmult_integral in Z. lra.
      + intros ->. field.
  Qed.
  (** Otherwise, if the bending is a linear function, its zero is not found: an S-shaped curve that is not cut. *)
  Theorem C110_linear_refuted : exists b : Bez, find_inflections b false = (0, 0) /\ bending b (1 / 4) = 0 /\ 0 < bending b 0 /\ bending b 1 < 0.
  Proof.
    exists (Bz (P 0 0) (P 1 0) (P 2 1) (P 3 (-1)))%R. split; [|split; [|split]].
    - unfold find_inflections. cbn [z1 k1 k2 z2]. destruct (peq _ _) eqn:Z.
      + exfalso. apply peq_true in Z; [|lra]. unfold psub, pneg in Z. cbn [px py] in Z. rnum.
        match type of Z with ?d < _ => pose proof (euclid_sqr (P (1 - 0) (0 - 0)) (P (- (2 - 3)) (- (1 - -1)))) as Q; change d with (euclid (P (1 - 0) (0 - 0)) (P (- (2 - 3)) (- (1 - -1)))) in Z end. 
        cbn in Q. pose proof (euclid_pos (P (1 - 0) (0 - 0)) (P (- (2 - 3)) (- (1 - -1)))) as Q2. set (d := euclid _ _) in *. nra.
      + unfold psub, pmul, pneg. cbn [px py]. rnum. match goal with |- (if Rltb 0 (Rabs ?x) then _ else _) = _ => replace x with 0 by ring end.
        rewrite Rabs_R0, (proj2 (Rltb_false 0 0)) by lra. reflexivity.
    - rewrite bending_quadratic. unfold qa, qb, qc, bz_v3, bz_v2, bz_v1. cbn. lra.
    - rewrite bending_quadratic. unfold qa, qb, qc, bz_v3, bz_v2, bz_v1. cbn. lra.
    - rewrite bending_quadratic. unfold qa, qb, qc, bz_v3, bz_v2, bz_v1. cbn. lra.
  Qed.
End C110.
Example C110_example : let b := Bz (P 0 0) (P 1 3) (P 3 (-2)) (P 5 1)%R in @generic_curve eps6 b /\ exists u, bending b u = 0.
Proof.
  cbv zeta. split; [split|].
  - cbn [k1 z1 k2 z2 px py]. pose proof (euclid_sqr (P (1 - 0) (3 - 0)) (P (5 - 3) (1 - -2))) as Q. pose proof (euclid_pos (P (1 - 0) (3 - 0)) (P (5 - 3) (1 - -2))). cbn in Q. unfold EPS, eps6. nra.
  - rewrite !bending_quadratic. unfold qa, qb, qc, bz_v3, bz_v2, bz_v1. cbn. lra.
  - pose (b := Bz (P 0 0) (P 1 3) (P 3 (-2)) (P 5 1)%R : Bez). fold b.
    assert (A : qa b = 8 /\ qb b = 19 /\ qc b = -11) by (unfold b, qa, qb, qc, bz_v3, bz_v2, bz_v1; cbn; repeat split; lra). destruct A as (A & B & C).
    exists ((- qb b - R_sqrt.sqrt (qb b * qb b - 4 * qa b * qc b)) / (2 * qa b)). rewrite bending_quadratic.
    replace (qa b * _ + _ + _) with 0; [ring|]. symmetry. rewrite A, B, C. apply (quadratic_roots _ _ _ (R_sqrt.sqrt (19 * 19 - 4 * 8 * -11))); [lra|apply sqrt_pos|apply sqrt_sqrt; lra|left; reflexivity].
Qed.
