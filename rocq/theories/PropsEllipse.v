(** * PropsEllipse: ellipses and circles, continued (C44, C62, C111-C114).  Over R. *)
From Verif Require Import Num NumR Geom GeomR GeomSpec GeomSpec2 GeomProofs GeomProofs2 GeomProofs3 GeomProofs4 GeomProofs5 GeomProofs7 Ellipse PropsGeom OffsetSpec OffsetProofs.
From Coq Require Import ZArith Reals Lra Lia Bool List Psatz.
Import ListNotations.
Local Open Scope R_scope.

Ltac eqR := match goal with |- @eq _ ?a ?b => change (@eq R a b) end; toR.
Ltac rring := eqR; first [ring | symmetry; ring].
Notation Ell := (ellipse ROps).
(** The point of the ellipse of centre [c], half axes [a], [b] and tilt [f] at the eccentric anomaly [t]: the textbook parametrisation. *)
Definition ellipse_pt (c : Pt) (a b f t : R) : Pt := turned c f (P (px c + a * cos t) (py c + b * sin t)).
Lemma epoint_spec (e : Ell) t : epoint_at e t = ellipse_pt (ec e) (erx e) (ery e) (ephi e) t.
Proof. destruct e as [[cx cy] rx ry phi]. unfold epoint_at, ellipse_pt, turned, padd. cbn [ec erx ery ephi px py]. ptx; ring. Qed.

(** ** C44: the intersection of two circles is complete *)
Section C44.
  Context {E : Epsilon ROps}.
  Hypothesis He : 0 < EPS.
  Theorem C44_circles_complete (c1 c2 : Pt) (r1 r2 : R) : 0 <= r1 -> 0 <= r2 -> EPS <= euclid c1 c2 ->
    EPS <= Rabs (euclid c1 c2 - (r1 + r2)) ->
    exists qs, intersect_circle c1 r1 c2 r2 = Ok qs /\
      (forall q, (on_circle c1 r1 q /\ on_circle c2 r2 q) <-> In q qs) /\ (length qs <= 2)%nat.
  Proof.
    intros H1 H2 Hd Ht.
    assert (TRI : forall q, on_circle c1 r1 q -> on_circle c2 r2 q -> euclid c1 c2 <= r1 + r2 /\ r1 <= euclid c1 c2 + r2 /\ r2 <= euclid c1 c2 + r1).
    { intros q A B. unfold on_circle in *. rewrite <- A, <- B.
      pose proof (euclid_triangle c1 q c2). pose proof (euclid_triangle c1 c2 q). pose proof (euclid_triangle c2 c1 q).
      rewrite (euclid_sym q c2) in *. rewrite (euclid_sym c2 c1) in *. lra. }
    unfold intersect_circle. rewrite seg_len_llen. unfold seg_len. cbn [p1 p2]. rnum.
    destruct (Rltb (r1 + r2) (euclid c1 c2)) eqn:Z1; rbool.
    { exists []. split; [reflexivity|]. split; [|cbn; lia]. intros q; split; [intros [A B]; pose proof (TRI q A B); lra|intros []]. }
    destruct (Rltb (euclid c1 c2) (r1 - r2)) eqn:Z2; rbool.
    { exists []. split; [reflexivity|]. split; [|cbn; lia]. intros q; split; [intros [A B]; pose proof (TRI q A B); lra|intros []]. }
    replace (is_zero (euclid c1 c2)) with false by (symmetry; apply isz_false; rewrite Rabs_pos_eq by apply euclid_pos; exact Hd).
    replace (feq (euclid c1 c2) (r1 + r2)) with false by (symmetry; unfold feq; rnum; apply Rltb_false; exact Ht).
    set (d := euclid c1 c2) in *. assert (Dp : 0 < d) by lra.
    unfold pydiv. rnum. destruct (Reqb (2 * d) 0) eqn:Z3; [apply Reqb_true in Z3; lra|]. cbn [rbind].
    set (a := (d * d - r2 * r2 + r1 * r1) / (2 * d)). assert (A2 : 2 * a * d = d * d - r2 * r2 + r1 * r1) by (unfold a; field; lra).
    pose proof (euclid_sqr c1 c2) as DD. fold d in DD.
    set (X := px c2 - px c1) in *. set (Y := py c2 - py c1) in *. assert (D2 : d * d = X * X + Y * Y) by (rewrite DD; unfold X, Y; ring).
    (* coordinates of a common point along and across the line of centres *)
    assert (CO : forall q, on_circle c1 r1 q -> on_circle c2 r2 q ->
      let u := (X * (px q - px c1) + Y * (py q - py c1)) / d in let v := (X * (py q - py c1) - Y * (px q - px c1)) / d in
      u = a /\ u * u + v * v = r1 * r1 /\ px q = px c1 + (u * X - v * Y) / d /\ py q = py c1 + (u * Y + v * X) / d).
    { intros q A B. cbv zeta. unfold on_circle in A, B. pose proof (euclid_sqr c1 q) as QA. pose proof (euclid_sqr c2 q) as QB. rewrite A in QA. rewrite B in QB.
      set (x := px q - px c1) in *. set (y := py q - py c1) in *.
      assert (QA' : r1 * r1 = x * x + y * y) by (rewrite QA; unfold x, y; ring).
      assert (QB' : r2 * r2 = (X - x) * (X - x) + (Y - y) * (Y - y)) by (rewrite QB; unfold X, Y, x, y; ring).
      split; [|split; [|split]].
      - apply Rmult_eq_reg_r with (2 * d); [|lra]. transitivity (2 * (X * x + Y * y)); [field; lra|]. replace (a * (2 * d)) with (2 * a * d) by ring. rewrite A2, D2, QB', QA'. ring.
      - rewrite QA'. apply Rmult_eq_reg_r with (d * d); [|nra]. transitivity ((X * X + Y * Y) * (x * x + y * y)); [field; lra|rewrite D2; ring].
      - apply Rmult_eq_reg_r with (d * d); [|nra].
        transitivity (px c1 * (d * d) + x * (X * X + Y * Y)); [rewrite <- D2; unfold x; toR; ring|field; lra].
      - apply Rmult_eq_reg_r with (d * d); [|nra].
        transitivity (py c1 * (d * d) + y * (X * X + Y * Y)); [rewrite <- D2; unfold y; toR; ring|field; lra]. }
    destruct (Rltb (r1 * r1 - a * a) 0) eqn:Z4; rbool.
    { exists []. split; [reflexivity|]. split; [|cbn; lia]. intros q; split; [|intros []]. intros [A B]. destruct (CO q A B) as (U & V & _). rewrite U in V.
      match type of V with _ + ?v * ?v = _ => pose proof (Rle_0_sqr v) as S; unfold Rsqr in S; set (w := v * v) in * end. clearbody w. clear - V S Z4. clearbody a. toR. lra. }
    set (h := R_sqrt.sqrt (r1 * r1 - a * a)). assert (HH : h * h = r1 * r1 - a * a) by (apply sqrt_sqrt; lra).
    eexists. split; [reflexivity|]. split; [|cbn; lia]. intros q. cbn [In]. split.
    - intros [A B]. destruct (CO q A B) as (U & V & QX & QY). set (u := _ / d) in U, V, QX, QY. set (v := _ / d) in V, QX, QY.
      rewrite !rotate_dir by exact Dp. fold d X Y.
      assert (VV : (v - h) * (v + h) = 0) by (rewrite U in V; nra). apply Rmult_integral in VV.
      rewrite U in QX, QY. destruct VV as [VV|VV]; [left|right; left]; apply pt_ext; cbn [px py]; rnum; (rewrite QX || rewrite QY); [replace v with h by lra|replace v with h by lra|replace v with (- h) by lra|replace v with (- h) by lra]; reflexivity.
    - intros Hq. 
      assert (TW : intersect_circle c1 r1 c2 r2 = Ok [padd c1 (protate (P a h) (langle (Ln c1 c2)) (P 0 0)); padd c1 (protate (P a (- h)) (langle (Ln c1 c2)) (P 0 0))]).
      { unfold intersect_circle. rewrite seg_len_llen. unfold seg_len. cbn [p1 p2]. rnum. fold d.
        rewrite (proj2 (Rltb_false (r1 + r2) d)), (proj2 (Rltb_false d (r1 - r2))) by assumption.
        replace (is_zero d) with false by (symmetry; apply isz_false; rewrite Rabs_pos_eq; lra).
        replace (feq d (r1 + r2)) with false by (symmetry; unfold feq; rnum; apply Rltb_false; exact Ht).
        unfold pydiv. rnum. destruct (Reqb (2 * d) 0) eqn:Z6; [apply Reqb_true in Z6; exfalso; lra|]. cbn [rbind]. fold a. destruct (Rltb (r1 * r1 - a * a) 0) eqn:Z5; [exfalso; apply Rltb_true in Z5; apply (Rlt_irrefl 0); eapply Rle_lt_trans; [exact Z4|exact Z5]|reflexivity]. }
      apply (circles_two He) in TW; auto. destruct Hq as [<-|[<-|[]]]; tauto.
  Qed.
End C44.

(** ** C62: the constructor keeps the curve *)
Section C62.
  Context {E : Epsilon ROps}.
  Hypothesis He : 0 < EPS.
  (** Whatever the order and the signs of the axes, the ellipse made is the one asked for (nearly equal axes, which make it a circle, apart). *)
  Theorem C62_new_same_curve (c : Pt) (rx ry phi : R) : Rabs rx = Rabs ry \/ EPS <= Rabs (Rabs rx - Rabs ry) ->
    forall q : Pt, (exists t, q = epoint_at (new_ellipse c rx (Some ry) phi) t) <-> (exists t, q = ellipse_pt c rx ry phi t).
  Proof.
    intros H.
    assert (SG : forall a b f q, (exists t, q = ellipse_pt c a b f t) <-> (exists t, q = ellipse_pt c (Rabs a) (Rabs b) f t)).
    { assert (SX : forall a b f q, (exists t, q = ellipse_pt c a b f t) <-> (exists t, q = ellipse_pt c (Rabs a) b f t)).
      { intros a b f q. unfold Rabs. destruct (Rcase_abs a); [|tauto]. split; intros (t & ->); exists (PI - t); unfold ellipse_pt.
        - rewrite cos_minus, sin_minus, cos_PI, sin_PI. f_equal. apply pt_ext; cbn; ring.
        - rewrite cos_minus, sin_minus, cos_PI, sin_PI. f_equal. apply pt_ext; cbn; ring. }
      assert (SY : forall a b f q, (exists t, q = ellipse_pt c a b f t) <-> (exists t, q = ellipse_pt c a (Rabs b) f t)).
      { intros a b f q. unfold Rabs. destruct (Rcase_abs b); [|tauto]. split; intros (t & ->); exists (- t); unfold ellipse_pt; rewrite cos_neg, sin_neg; f_equal; apply pt_ext; cbn; ring. }
      intros. rewrite SX, SY. tauto. }
    intros q. rewrite (SG rx ry phi q). unfold new_ellipse. setoid_rewrite epoint_spec. cbn [ec erx ery ephi]. rewrite pymin_R, pymax_R. rnum.
    unfold feq. rnum. destruct H as [H|H].
    - rewrite H, Rminus_diag_eq, Rabs_R0, (proj2 (Rltb_true 0 EPS)), Rmin_left, Rmax_left by lra.
      split; intros (t & ->); [exists (t - phi)|exists (t + phi)]; unfold ellipse_pt, turned; cbn [px py]; rewrite ?cos_0, ?sin_0, ?cos_minus, ?sin_minus, ?cos_plus, ?sin_plus.
      + pose proof (sin2_cos2 phi) as Q. unfold Rsqr in Q. apply pt_ext; cbn [px py].
        * transitivity (px c + (sin phi * sin phi + cos phi * cos phi) * (Rabs ry * cos t)); [rewrite Q; ring|ring].
        * transitivity (py c + (sin phi * sin phi + cos phi * cos phi) * (Rabs ry * sin t)); [rewrite Q; ring|ring].
      + apply pt_ext; cbn [px py]; ring.
    - rewrite (proj2 (Rltb_false _ EPS)) by lra. destruct (Rltb (Rabs rx) (Rabs ry)) eqn:Z; rbool.
      + rewrite Rmax_right, Rmin_left by lra. replace (phi + PI / 2) with (PI / 2 + phi) by ring.
        split; intros (t & ->); [exists (t + PI / 2)|exists (t - PI / 2)]; unfold ellipse_pt, turned; cbn [px py]; rewrite ?cos_minus, ?sin_minus, ?cos_plus, ?sin_plus, ?cos_PI2, ?sin_PI2; apply pt_ext; cbn [px py]; ring.
      + rewrite Rmax_left, Rmin_right by lra. tauto.
  Qed.
End C62.

(** ** C111: angles on an ellipse *)
Section C111.
  Context {E : Epsilon ROps}.
  Hypothesis He : 0 < EPS.
  (** An ellipse whose axes are ordered, and equal or clearly different: what the constructor makes (C62_new_axes). *)
  Definition plain_ellipse (e : Ell) : Prop := 0 < ery e <= erx e /\ (erx e = ery e \/ EPS <= erx e - ery e).
  Lemma is_circle_spec (e : Ell) : plain_ellipse e -> is_circle e = true <-> erx e = ery e.
  Proof.
    intros ((A & B) & C). unfold is_circle, feq. rnum. rewrite Rltb_true. split.
    - intros H. destruct C as [C|C]; auto. rewrite Rabs_pos_eq in H by lra. lra.
    - intros ->. rewrite Rminus_diag_eq, Rabs_R0 by reflexivity. exact He.
  Qed.
  (** theta2t: the ray from the centre at the angle theta from the major axis meets the ellipse at the parameter returned. *)
  Theorem C111_theta2t (e : Ell) (theta : R) : plain_ellipse e ->
    exists t k, theta2t e theta = Ok t /\ 0 < k /\ epoint_at e t = P (px (ec e) + k * cos (ephi e + theta)) (py (ec e) + k * sin (ephi e + theta)).
  Proof.
    intros H. unfold theta2t. destruct (is_circle e) eqn:Z.
    - apply is_circle_spec in Z; auto. exists theta, (erx e). destruct H as ((H1 & H2) & _). split; [reflexivity|split; [lra|]].
      rewrite epoint_spec, <- Z. unfold ellipse_pt, turned. cbn [px py]. rewrite cos_plus, sin_plus. apply pt_ext; cbn [px py]; toR; ring.
    - destruct H as ((H1 & H2) & _). unfold pydiv. rnum.
      destruct (Reqb (ery e) 0) eqn:Z1; [apply Reqb_true in Z1; lra|]. destruct (Reqb (erx e) 0) eqn:Z2; [apply Reqb_true in Z2; lra|]. cbn [rbind].
      pose proof (atan2_polar (sin theta / ery e) (cos theta / erx e)) as [C S]. set (t := Ratan2 _ _) in *. set (r := Rhypot _ _) in *.
      assert (RP : 0 < r).
      { assert (RR : r * r = cos theta / erx e * (cos theta / erx e) + sin theta / ery e * (sin theta / ery e)) by apply hypot_sqr.
        destruct (Rle_lt_or_eq_dec 0 r (hypot_pos _ _)) as [L|L]; auto. exfalso. rewrite <- L in RR.
        assert (C0 : cos theta / erx e = 0) by nra. assert (S0 : sin theta / ery e = 0) by nra.
        assert (cos theta = 0) by (transitivity (cos theta / erx e * erx e); [field; lra|rewrite C0; ring]).
        assert (sin theta = 0) by (transitivity (sin theta / ery e * ery e); [field; lra|rewrite S0; ring]).
        pose proof (sin2_cos2 theta) as Q. unfold Rsqr in Q. nra. }
      exists t, (/ r). split; [reflexivity|]. split; [apply Rinv_0_lt_compat; exact RP|].
      assert (C' : erx e * cos t = cos theta / r) by (apply Rmult_eq_reg_r with r; [|lra]; transitivity (erx e * (r * cos t)); [ring|rewrite C; field; lra]).
      assert (S' : ery e * sin t = sin theta / r) by (apply Rmult_eq_reg_r with r; [|lra]; transitivity (ery e * (r * sin t)); [ring|rewrite S; field; lra]).
      rewrite epoint_spec. unfold ellipse_pt, turned. cbn [px py]. rewrite C', S', cos_plus, sin_plus.
      apply pt_ext; cbn [px py]; toR; field; lra.
  Qed.
  (** pointt finds the parameter of a point of the ellipse, up to the tolerance near parameter 0. *)
  Theorem C111_pointt (e : Ell) (t : R) : plain_ellipse e ->
    exists s, pointt e (epoint_at e t) = Ok s /\
      (EPS <= euclid (epoint_at e 0) (epoint_at e t) -> epoint_at e s = epoint_at e t) /\
      euclid (epoint_at e s) (epoint_at e t) < EPS.
  Proof.
    intros H. pose proof H as ((H1 & H2) & H3). unfold pointt. change (@of_Z ROps 0) with 0.
    destruct (Rlt_le_dec (euclid (epoint_at e 0) (epoint_at e t)) EPS) as [L|L].
    - unfold angle2. replace (peq _ _) with true.
      2:{ symmetry. apply peq_true; auto. replace (euclid _ _) with (euclid (epoint_at e 0) (epoint_at e t)); [exact L|].
          set (a := epoint_at e 0). set (b := epoint_at e t). generalize a, b. clear. intros a b. apply euclid_unique; [apply euclid_pos|]. rewrite euclid_sqr. unfold psub. cbn [px py]. rnum. ring. }
      change (@of_Z ROps 0) with 0.
      assert (T0 : theta2t e 0 = Ok 0).
      { unfold theta2t. destruct (is_circle e); [reflexivity|]. unfold pydiv. rnum.
        destruct (Reqb (ery e) 0) eqn:Z1; [apply Reqb_true in Z1; lra|]. destruct (Reqb (erx e) 0) eqn:Z2; [apply Reqb_true in Z2; lra|]. cbn [rbind].
        rewrite cos_0, sin_0. do 1 f_equal. assert (0 < / erx e) by (apply Rinv_0_lt_compat; lra).
        pose proof (atan2_of_polar (/ erx e) 0 H0 ltac:(pose proof PI_RGT_0; lra)) as Q. rewrite cos_0, sin_0 in Q. etransitivity; [|exact Q]. f_equal; field; lra. }
      exists 0. rewrite T0. split; [reflexivity|split; [intros; lra|exact L]].
    - set (th := angle2 _ _ _).
      assert (EC : forall t, euclid (ec e) (epoint_at e t) * euclid (ec e) (epoint_at e t) = erx e * cos t * (erx e * cos t) + ery e * sin t * (ery e * sin t)).
      { intros u. rewrite euclid_sqr, epoint_spec. unfold ellipse_pt, turned. cbn [px py]. pose proof (sin2_cos2 (ephi e)) as Q. unfold Rsqr in Q. rnum.
        transitivity ((sin (ephi e) * sin (ephi e) + cos (ephi e) * cos (ephi e)) * (erx e * cos u * (erx e * cos u) + ery e * sin u * (ery e * sin u))); [ring|rewrite Q; ring]. }
      assert (EP : forall t, 0 < euclid (ec e) (epoint_at e t)).
      { intros u. destruct (Rle_lt_or_eq_dec 0 _ (euclid_pos (ec e) (epoint_at e u))) as [G|G]; auto. exfalso. pose proof (EC u) as Q. rewrite <- G in Q.
        pose proof (sin2_cos2 u) as W. unfold Rsqr in W.
        assert (X0 : erx e * cos u = 0) by nra. assert (Y0 : ery e * sin u = 0) by nra.
        apply Rmult_integral in X0, Y0. assert (cos u = 0) by (destruct X0; lra). assert (sin u = 0) by (destruct Y0; lra). nra. }
      assert (NE : forall t, ec e <> epoint_at e t).
      { intros u Q. pose proof (EP u) as G. rewrite <- Q in G. rewrite (euclid_unique (ec e) (ec e) 0) in G; [lra|lra|ring]. }
      assert (TT : turned (ec e) th (epoint_at e 0) = at_param (Ln (ec e) (epoint_at e t)) (euclid (ec e) (epoint_at e 0) / euclid (ec e) (epoint_at e t))) by (apply (angle2_turns He); auto).
      assert (R0 : euclid (ec e) (epoint_at e 0) = erx e).
      { pose proof (EC 0) as Q. rewrite cos_0, sin_0 in Q. pose proof (EP 0). apply Rsqr_inj; unfold Rsqr; try lra. }
      rewrite R0 in TT. set (rho := euclid (ec e) (epoint_at e t)) in *. pose proof (EP t) as RP. fold rho in RP.
      (* the coordinates along the axes *)
      pose proof (f_equal px TT) as TX. pose proof (f_equal py TT) as TY. rewrite !epoint_spec in TX, TY. unfold ellipse_pt, turned, at_param in TX, TY.
      cbn [px py p1 p2] in TX, TY. rewrite cos_0, sin_0 in TX, TY. rnum.
      pose proof (sin2_cos2 (ephi e)) as Q. unfold Rsqr in Q. set (c := cos (ephi e)) in *. set (s := sin (ephi e)) in *.
      set (a := erx e) in *. set (b := ery e) in *. set (x := px (ec e)) in *. set (y := py (ec e)) in *.
      assert (A0 : 0 < a) by (eapply Rlt_le_trans; [exact H1|exact H2]).
      assert (EX : rho * cos th = a * cos t).
      { apply Rmult_eq_reg_r with (a / rho); [|apply Rgt_not_eq, Rdiv_lt_0_compat; auto].
        transitivity ((s * s + c * c) * (a * cos th)); [rewrite Q; field; lra|]. transitivity ((s * s + c * c) * (a / rho * (a * cos t))); [|rewrite Q; ring].
        match type of TX with ?l = ?r => assert (TX' : l - x = r - x) by (rewrite TX; reflexivity) end.
        match type of TY with ?l = ?r => assert (TY' : l - y = r - y) by (rewrite TY; reflexivity) end.
        apply (f_equal (Rmult c)) in TX'. apply (f_equal (Rmult s)) in TY'.
        match type of TX' with ?l1 = ?r1 => match type of TY' with ?l2 = ?r2 => transitivity (l1 + l2); [ring|rewrite TX', TY'; ring] end end. }
      assert (EY : rho * sin th = b * sin t).
      { apply Rmult_eq_reg_r with (a / rho); [|apply Rgt_not_eq, Rdiv_lt_0_compat; auto].
        transitivity ((s * s + c * c) * (a * sin th)); [rewrite Q; field; lra|]. transitivity ((s * s + c * c) * (a / rho * (b * sin t))); [|rewrite Q; ring].
        match type of TX with ?l = ?r => assert (TX' : l - x = r - x) by (rewrite TX; reflexivity) end.
        match type of TY with ?l = ?r => assert (TY' : l - y = r - y) by (rewrite TY; reflexivity) end.
        apply (f_equal (Rmult s)) in TX'. apply (f_equal (Rmult c)) in TY'.
        match type of TX' with ?l1 = ?r1 => match type of TY' with ?l2 = ?r2 => transitivity (l2 - l1); [ring|rewrite TX', TY'; ring] end end. }
      assert (FIN : exists u, theta2t e th = Ok u /\ cos u = cos t /\ sin u = sin t).
      { unfold theta2t. destruct (is_circle e) eqn:Z.
        - apply is_circle_spec in Z; auto. fold a b in Z. exists th. split; [reflexivity|]. clear TX TY TT.
          assert (RA : rho = a).
          { apply Rsqr_inj; [lra|lra|]. unfold Rsqr. unfold rho. rewrite EC. fold a b. rewrite <- Z. pose proof (sin2_cos2 t) as W. unfold Rsqr in W. transitivity (a * a * (sin t * sin t + cos t * cos t)); [ring|rewrite W; ring]. }
          rewrite RA in EX, EY. rewrite <- Z in EY. split; apply Rmult_eq_reg_l with a; lra.
        - unfold pydiv. rnum. fold a b. destruct (Reqb b 0) eqn:Z1; [apply Reqb_true in Z1; rewrite Z1 in H1; lra|]. destruct (Reqb a 0) eqn:Z2; [apply Reqb_true in Z2; lra|]. cbn [rbind].
          eexists. split; [reflexivity|]. assert (B0 : 0 < b) by exact H1. clear TX TY TT.
          replace (sin th / b) with (/ rho * sin t) by (apply Rmult_eq_reg_r with (rho * b); [|apply Rgt_not_eq, Rmult_lt_0_compat; auto]; transitivity (b * sin t); [field; lra|rewrite <- EY; field; lra]).
          replace (cos th / a) with (/ rho * cos t) by (apply Rmult_eq_reg_r with (rho * a); [|apply Rgt_not_eq, Rmult_lt_0_compat; auto]; transitivity (a * cos t); [field; lra|rewrite <- EX; field; lra]).
          pose proof (atan2_polar (/ rho * sin t) (/ rho * cos t)) as [C S].
          assert (HR : Rhypot (/ rho * cos t) (/ rho * sin t) = / rho).
          { apply hypot_unique; [apply Rlt_le, Rinv_0_lt_compat; exact RP|]. pose proof (sin2_cos2 t) as W. unfold Rsqr in W. transitivity (/ rho * / rho * (sin t * sin t + cos t * cos t)); [rewrite W; ring|ring]. }
          rewrite HR in C, S. assert (/ rho <> 0) by (apply Rinv_neq_0_compat; lra). split; eapply Rmult_eq_reg_l; eauto. }
      destruct FIN as (u & FU & CU & SU). exists u. split; [exact FU|].
      assert (EQ : epoint_at e u = epoint_at e t) by (rewrite !epoint_spec; unfold ellipse_pt; rewrite CU, SU; reflexivity).
      split; [intros _; exact EQ|]. rewrite EQ. rewrite (euclid_unique _ _ 0); [exact He|lra|ring].
  Qed.
  (** The documentation promises a parameter between 0 and a full turn; it is negative for points on the right of the major axis. *)
  Theorem C111_range_refuted : EPS < 1 -> exists (e : Ell) theta t, plain_ellipse e /\ 0 < theta < 2 * PI /\ theta2t e theta = Ok t /\ t < 0.
  Proof.
    intros H. pose proof PI_RGT_0. exists (mkellipse (P 0 0) 2 1 0), (3 * (PI / 2)), (- (PI / 2)).
    assert (PL : plain_ellipse (mkellipse (P 0 0) 2 1 0)) by (split; cbn; lra).
    split; [exact PL|split; [lra|split; [|lra]]]. unfold theta2t. destruct (is_circle _) eqn:Z; [apply is_circle_spec in Z; auto; cbn in Z; lra|].
    unfold pydiv. cbn [ery erx]. rnum. destruct (Reqb 1 0) eqn:Z1; [apply Reqb_true in Z1; lra|]. destruct (Reqb 2 0) eqn:Z2; [apply Reqb_true in Z2; lra|]. cbn [rbind].
    rewrite cos_3PI2, sin_3PI2. f_equal.
    pose proof (atan2_of_polar 1 (- (PI / 2)) ltac:(lra) ltac:(lra)) as Q. rewrite cos_neg, sin_neg, cos_PI2, sin_PI2 in Q. etransitivity; [|exact Q]. f_equal; field.
  Qed.
End C111.
Example C111_example : @plain_ellipse eps6 (mkellipse (P 1 2) 5 3 1) /\ @plain_ellipse eps6 (mkellipse (P 1 2) 5 5 0).
Proof. split; split; cbn; unfold EPS, eps6; lra. Qed.

(** ** C112: the inside of an ellipse *)
Section C112.
  Context {E : Epsilon ROps}.
  Hypothesis He : 0 < EPS.
  Definition inside_ellipse (e : Ell) (q : Pt) : Prop :=
    exists s t, 0 <= s < 1 /\ q = at_param (Ln (ec e) (ellipse_pt (ec e) (erx e) (ery e) (ephi e) t)) s.
  Lemma inside_spec (e : Ell) (q : Pt) : 0 < erx e -> 0 < ery e ->
    let x := ((px q - px (ec e)) * cos (ephi e) + (py q - py (ec e)) * sin (ephi e)) / erx e in
    let y := ((py q - py (ec e)) * cos (ephi e) - (px q - px (ec e)) * sin (ephi e)) / ery e in
    inside_ellipse e q <-> x * x + y * y < 1.
  Proof.
    intros Hx Hy. cbv zeta. pose proof (sin2_cos2 (ephi e)) as Q. unfold Rsqr in Q.
    set (c := cos (ephi e)) in *. set (s0 := sin (ephi e)) in *. split.
    - intros (s & t & Hs & ->). unfold at_param, ellipse_pt, turned. cbn [px py p1 p2]. fold c s0.
      match goal with |- ?a / _ * _ + ?b / _ * _ < 1 =>
        replace a with ((s0 * s0 + c * c) * (s * (erx e * cos t))) by (rring); replace b with ((s0 * s0 + c * c) * (s * (ery e * sin t))) by (rring) end.
      rewrite Q. pose proof (sin2_cos2 t) as W. unfold Rsqr in W.
      match goal with |- ?a < 1 => replace a with (s * s * (sin t * sin t + cos t * cos t)) by (field; lra) end. rewrite W. nra.
    - set (u := _ / erx e). set (v := _ / ery e). intros H. destruct (atan2_polar v u) as [C S].
      exists (Rhypot u v), (Ratan2 v u). split.
      + pose proof (hypot_pos u v). pose proof (hypot_sqr u v). split; [lra|]. destruct (Rlt_le_dec (Rhypot u v) 1); auto. nra.
      + assert (XU : erx e * (Rhypot u v * cos (Ratan2 v u)) = (px q - px (ec e)) * c + (py q - py (ec e)) * s0) by (rewrite C; unfold u; field; lra).
        assert (YV : ery e * (Rhypot u v * sin (Ratan2 v u)) = (py q - py (ec e)) * c - (px q - px (ec e)) * s0) by (rewrite S; unfold v; field; lra).
        unfold at_param, ellipse_pt, turned. fold c s0. apply pt_ext; cbn [px py p1 p2].
        * transitivity (px (ec e) + (c * (erx e * (Rhypot u v * cos (Ratan2 v u))) - s0 * (ery e * (Rhypot u v * sin (Ratan2 v u))))); [|rring].
          rewrite XU, YV. transitivity (px (ec e) + (s0 * s0 + c * c) * (px q - px (ec e))); [rewrite Q; rring|rring].
        * transitivity (py (ec e) + (s0 * (erx e * (Rhypot u v * cos (Ratan2 v u))) + c * (ery e * (Rhypot u v * sin (Ratan2 v u))))); [|rring].
          rewrite XU, YV. transitivity (py (ec e) + (s0 * s0 + c * c) * (py q - py (ec e))); [rewrite Q; rring|rring].
  Qed.
  Theorem C112_inside (e : Ell) (q : Pt) : plain_ellipse e -> ephi e = 0 \/ EPS <= Rabs (ephi e) ->
    exists b, epoint_inside e q = Ok b /\ (b = true <-> inside_ellipse e q).
  Proof.
    intros H Hp. pose proof H as ((H1 & H2) & _). pose proof (inside_spec e q ltac:(lra) H1) as IS. cbv zeta in IS. unfold epoint_inside.
    set (x := px q - px (ec e)). set (y := py q - py (ec e)). pose proof (sin2_cos2 (ephi e)) as Q. unfold Rsqr in Q.
    assert (K : exists z w, (if is_circle e || is_zero (ephi e) then psub q (ec e) else protate (psub q (ec e)) (Num.opp (ephi e)) (P (Num.of_Z (n:=ROps) 0) (Num.of_Z (n:=ROps) 0))) = P z w :> Pt /\
      z / erx e * (z / erx e) + w / ery e * (w / ery e) = (x * cos (ephi e) + y * sin (ephi e)) / erx e * ((x * cos (ephi e) + y * sin (ephi e)) / erx e) + (y * cos (ephi e) - x * sin (ephi e)) / ery e * ((y * cos (ephi e) - x * sin (ephi e)) / ery e)).
    { destruct (is_circle e) eqn:Z; [|destruct (is_zero (ephi e)) eqn:Z2]; cbn [orb].
      - apply (is_circle_spec He) in Z; auto. exists x, y. split; [reflexivity|]. rewrite <- Z.
        transitivity ((sin (ephi e) * sin (ephi e) + cos (ephi e) * cos (ephi e)) * (x / erx e * (x / erx e) + y / erx e * (y / erx e))); [rewrite Q; ring|field; lra].
      - exists x, y. split; [reflexivity|]. destruct Hp as [Hp|Hp].
        + rewrite Hp, cos_0, sin_0. field. lra.
        + apply isz_false in Hp. rewrite Hp in Z2. discriminate.
      - exists (x * cos (ephi e) + y * sin (ephi e)), (y * cos (ephi e) - x * sin (ephi e)). split; [|reflexivity].
        unfold protate. rewrite apply_rotate. unfold turned, psub. cbn [px py]. rnum. rewrite cos_neg, sin_neg. fold x y. apply pt_ext; cbn [px py]; ring. }
    destruct K as (z & w & K & KE). rewrite K. cbn [px py]. unfold pydiv. rnum.
    destruct (Reqb (erx e) 0) eqn:Z1; [apply Reqb_true in Z1; lra|]. destruct (Reqb (ery e) 0) eqn:Z2; [apply Reqb_true in Z2; lra|]. cbn [rbind].
    eexists. split; [reflexivity|]. rewrite IS, Rltb_true. fold x y. rewrite <- KE. split; intros; lra.
  Qed.
  Theorem C112_all_inside (e : Ell) (ps : list Pt) : plain_ellipse e -> ephi e = 0 \/ EPS <= Rabs (ephi e) ->
    exists b, all_points_inside e ps = Ok b /\ (b = true <-> forall q, In q ps -> inside_ellipse e q).
  Proof.
    intros H Hp. induction ps as [|q r (b & IH1 & IH2)]; cbn [all_points_inside].
    - exists true. split; [reflexivity|]. split; [intros _ q []|reflexivity].
    - destruct (C112_inside e q H Hp) as (b' & -> & HB). cbn [rbind]. destruct b'.
      + rewrite IH1. exists b. split; [reflexivity|]. rewrite IH2. split.
        * intros G p [<-|I]; [apply HB; reflexivity|auto].
        * intros G p I. apply G. right. exact I.
      + exists false. split; [reflexivity|]. split; [discriminate|]. intros G. exfalso. assert (false = true) by (apply HB, G; left; reflexivity). discriminate.
  Qed.
  (** A degenerate ellipse (a line) raises ZeroDivisionError instead of answering that nothing is inside. *)
  Theorem C112_flat_refuted (c : Pt) (rx : R) (q : Pt) : epoint_inside (new_ellipse c rx (Some 0) 0) q = Raise ZeroDivisionError.
  Proof.
    assert (Z0 : ery (new_ellipse c rx (Some 0) 0) = 0).
    { unfold new_ellipse. cbn [ery]. rewrite pymin_R. rnum. rewrite Rabs_R0. apply Rmin_right. apply Rabs_pos. }
    unfold epoint_inside, pydiv. rewrite Z0. rnum. destruct (Reqb _ 0); cbn [rbind]; [reflexivity|].
    destruct (Reqb 0 0) eqn:Z; [reflexivity|]. apply Reqb_false in Z. exfalso. apply Z. reflexivity.
  Qed.
End C112.
Example C112_example : let e := mkellipse (P 1 2) 5 3 1 : Ell in @plain_ellipse eps6 e /\ eps6 <= Rabs (ephi e) /\ inside_ellipse e (P 1 2).
Proof.
  split; [split; cbn; unfold EPS, eps6; lra|]. split; [unfold eps6; cbn; rewrite Rabs_pos_eq; lra|]. exists 0, 0. split; [lra|]. unfold at_param. apply pt_ext; cbn; ring.
Qed.

(** ** C113: area, eccentricity and curvature *)
Section C113.
  (** [A] measures the area swept by the radius from the centre along the ellipse: its rate is half the cross product of radius and velocity.
      Over a full turn it grows by area(). *)
  Theorem C113_area (e : Ell) : exists A : R -> R,
    (forall t, exists dx dy,
      derivable_pt_lim (fun t => px (ellipse_pt (ec e) (erx e) (ery e) (ephi e) t)) t dx /\ derivable_pt_lim (fun t => py (ellipse_pt (ec e) (erx e) (ery e) (ephi e) t)) t dy /\
      derivable_pt_lim A t (((px (ellipse_pt (ec e) (erx e) (ery e) (ephi e) t) - px (ec e)) * dy - (py (ellipse_pt (ec e) (erx e) (ery e) (ephi e) t) - py (ec e)) * dx) / 2)) /\
    A (2 * PI) - A 0 = earea e.
  Proof.
    exists (fun t => erx e * ery e / 2 * t). split.
    - intros t. pose proof (sin2_cos2 (ephi e)) as Q. pose proof (sin2_cos2 t) as W. unfold Rsqr in *. set (c := cos (ephi e)) in *. set (s := sin (ephi e)) in *.
      assert (K : forall a b k t, derivable_pt_lim (fun t => (k + (a * cos t + b * sin t))%R) t (- a * sin t + b * cos t)).
      { intros a b k t'. replace (- a * sin t' + b * cos t') with (0 + (a * (- sin t') + b * cos t')) by ring.
        apply derivable_pt_lim_plus with (f1 := fun _ => k); [apply derivable_pt_lim_const|].
        apply derivable_pt_lim_plus with (f1 := fun t => a * cos t) (f2 := fun t => b * sin t).
        - apply derivable_pt_lim_scal. apply derivable_pt_lim_cos.
        - apply derivable_pt_lim_scal. apply derivable_pt_lim_sin. }
      assert (X : forall f g t d, derivable_pt_lim f t d -> (forall x, f x = g x) -> derivable_pt_lim g t d).
      { intros f g t' d D Hq eps Heps. destruct (D eps Heps) as (del & Hd). exists del. intros h. rewrite <- !Hq. apply Hd. }
      exists (- (c * erx e) * sin t + - (s * ery e) * cos t), (- (s * erx e) * sin t + (c * ery e) * cos t). split; [|split].
      + eapply X; [apply (K (c * erx e) (- (s * ery e)) (px (ec e)))|]. intros x. unfold ellipse_pt, turned. cbn [px py]. fold c s. rring.
      + eapply X; [apply (K (s * erx e) (c * ery e) (py (ec e)))|]. intros x. unfold ellipse_pt, turned. cbn [px py]. fold c s. rring.
      + match goal with |- derivable_pt_lim _ _ ?d => replace d with (erx e * ery e / 2 * 1) end.
        * apply derivable_pt_lim_scal. apply derivable_pt_lim_id.
        * unfold ellipse_pt, turned. cbn [px py]. fold c s. toR.
          transitivity (erx e * ery e / 2 * (s * s + c * c) * (sin t * sin t + cos t * cos t)); [rewrite Q, W; ring|field].
    - unfold earea. rnum. field.
  Qed.
  (** The eccentricity is the distance of a focus from the centre in units of the major half axis, and less than 1. *)
  Theorem C113_eccentricity (e : Ell) : 0 < ery e <= erx e ->
    exists ecc f1 f2, eccentricity e = Ok ecc /\ focus_points e = Ok (f1, f2) /\ euclid (ec e) f1 = ecc * erx e /\ euclid (ec e) f2 = ecc * erx e /\
      0 <= ecc < 1 /\ ery e * ery e = erx e * erx e * (1 - ecc * ecc) /\ (ecc = 0 <-> erx e = ery e).
  Proof.
    intros H. unfold eccentricity, focus_points, focus, pysqrt. rnum.
    destruct (Rltb (erx e * erx e - ery e * ery e) 0) eqn:Z; [apply Rltb_true in Z; nra|]. cbn [rbind rmap].
    set (f := R_sqrt.sqrt (erx e * erx e - ery e * ery e)).
    assert (F0 : 0 <= f) by apply sqrt_pos. assert (FF : f * f = erx e * erx e - ery e * ery e) by (apply sqrt_sqrt; nra).
    assert (FL : f < erx e) by nra. clearbody f. unfold pydiv. rnum. destruct (Reqb (erx e) 0) eqn:Z1; [apply Reqb_true in Z1; lra|].
    assert (I0 : 0 < / erx e) by (apply Rinv_0_lt_compat; lra).
    exists (f / erx e). do 2 eexists. split; [reflexivity|split; [reflexivity|]]. pose proof (sin2_cos2 (ephi e)) as Q. unfold Rsqr in Q.
    assert (EF : f / erx e * erx e = f) by (field; lra). rewrite EF.
    split; [|split; [|split; [|split]]].
    - apply euclid_unique; [exact F0|]. unfold psub. cbn [px py]. rnum. transitivity (f * f * (sin (ephi e) * sin (ephi e) + cos (ephi e) * cos (ephi e))); [rewrite Q; ring|rring].
    - apply euclid_unique; [exact F0|]. unfold padd. cbn [px py]. rnum. transitivity (f * f * (sin (ephi e) * sin (ephi e) + cos (ephi e) * cos (ephi e))); [rewrite Q; ring|rring].
    - split; [apply Rmult_le_pos; lra|]. apply Rmult_lt_reg_r with (erx e); [lra|]. rewrite EF. lra.
    - transitivity (erx e * erx e - (f / erx e * erx e) * (f / erx e * erx e)); [rewrite EF; lra|ring].
    - split; intros G.
      + assert (f = 0) by (rewrite <- EF, G; ring). subst f. assert ((erx e - ery e) * (erx e + ery e) = 0) by lra. apply Rmult_integral in H0. destruct H0; lra.
      + rewrite G in FF. assert (f = 0) by nra. subst f. unfold Rdiv. ring.
  Qed.
  (** curvature (p) is the curvature of the ellipse at a point given relative to the centre and the axes:
      |x'y'' - y'x''| / (x'^2 + y'^2)^(3/2) for the parametrisation (rx cos t, ry sin t). *)
  Theorem C113_curvature_partial (e : Ell) (t : R) : 0 < erx e -> 0 < ery e ->
    let x' := - (erx e * sin t) in let y' := ery e * cos t in let x'' := - (erx e * cos t) in let y'' := - (ery e * sin t) in
    ecurvature e (P (erx e * cos t) (ery e * sin t)) = Ok (Rabs (x' * y'' - y' * x'') / (R_sqrt.sqrt (x' * x' + y' * y') * (x' * x' + y' * y'))).
  Proof.
    intros Hx Hy. cbv zeta. unfold ecurvature, pydiv. cbn [px py]. rnum. set (a := erx e) in *. set (b := ery e) in *.
    assert (AA : 0 < a * a) by nra. assert (BB : 0 < b * b) by nra. assert (AB : 0 < a * b) by nra.
    destruct (Reqb (a * a * (b * b)) 0) eqn:Z1; [apply Reqb_true in Z1; nra|]. cbn [rbind].
    destruct (Reqb (a * a * (a * a)) 0) eqn:Z2; [apply Reqb_true in Z2; nra|]. cbn [rbind].
    destruct (Reqb (b * b * (b * b)) 0) eqn:Z3; [apply Reqb_true in Z3; nra|]. cbn [rbind].
    pose proof (sin2_cos2 t) as W. unfold Rsqr in W. set (c := cos t) in *. set (s := sin t) in *.
    set (q := - (a * s) * - (a * s) + b * c * (b * c)).
    assert (QP : 0 < q).
    { unfold q. assert (- (a * s) * - (a * s) + b * c * (b * c) = a * a * (s * s) + b * b * (c * c)) as -> by ring.
      assert (0 <= s * s) by nra. assert (0 <= c * c) by nra. destruct (Req_dec (s * s) 0) as [S0|S0]; [assert (c * c = 1) by lra; nra|]. assert (0 < s * s) by lra. nra. }
    match goal with |- context [R_sqrt.sqrt ?w] => match w with q => fail 1 | _ => assert (WE : w = q / (a * b * (a * b))); [unfold q; field; lra|] end end. rewrite !WE.
    assert (SQ : R_sqrt.sqrt (q / (a * b * (a * b))) = R_sqrt.sqrt q / (a * b)).
    { rewrite sqrt_div_alt by (apply Rmult_lt_0_compat; auto). rewrite sqrt_square by lra. reflexivity. }
    rewrite SQ. assert (SP : 0 < R_sqrt.sqrt q) by (apply sqrt_lt_R0; exact QP).
    match goal with |- context [if Reqb ?w 0 then _ else _] => destruct (Reqb w 0) eqn:Z4 end.
    { apply Reqb_true in Z4. exfalso. assert (0 < q / (a * b * (a * b))) by (apply Rdiv_lt_0_compat; [auto|apply Rmult_lt_0_compat; auto]). assert (0 < R_sqrt.sqrt q / (a * b)) by (apply Rdiv_lt_0_compat; auto). nra. }
    cbn [rbind]. rewrite Rabs_pos_eq.
    - apply (f_equal Ok). replace (- (a * s) * - (b * s) - b * c * - (a * c)) with (a * b * (s * s + c * c)) by ring. rewrite W. field. repeat split; lra.
    - replace (- (a * s) * - (b * s) - b * c * - (a * c)) with (a * b * (s * s + c * c)) by ring. rewrite W. lra.
  Qed.
  (** Points of the plane are not what it takes: away from the origin the answer is wrong even for a circle. *)
  Theorem C113_curvature_refuted : exists (e : Ell) t k, erx e = 1 /\ ery e = 1 /\ ecurvature e (epoint_at e t) = Ok k /\ k <> 1.
  Proof.
    exists (mkellipse (P 1 0) 1 1 0), 0, (1 / 8). split; [reflexivity|split; [reflexivity|split; [|lra]]].
    assert (EP : epoint_at (mkellipse (P 1 0) 1 1 0 : Ell) 0 = P 2 0).
    { rewrite epoint_spec. unfold ellipse_pt, turned. cbn [ec erx ery ephi px py]. rewrite cos_0, sin_0. apply pt_ext; cbn; ring. }
    rewrite EP. unfold ecurvature, pydiv. cbn [px py erx ery]. rnum.
    destruct (Reqb (1 * 1 * (1 * 1)) 0) eqn:Z1; [apply Reqb_true in Z1; lra|]. cbn [rbind].
    replace (2 * 2 / (1 * 1 * (1 * 1)) + 0 * 0 / (1 * 1 * (1 * 1))) with (2 * 2) by field. rewrite sqrt_square by lra.
    destruct (Reqb (2 * 2 * 2) 0) eqn:Z4; [apply Reqb_true in Z4; lra|]. cbn [rbind]. f_equal. field.
  Qed.
End C113.
Example C113_example : 0 < ery (mkellipse (P 1 2) 5 3 1 : Ell) <= erx (mkellipse (P 1 2) 5 3 1 : Ell).
Proof. cbn. lra. Qed.

(** ** C114: elliptical arcs from the centre *)
Section C114.
  Theorem C114_from_center_partial (c : Pt) (rx ry start sw : R) :
    let a := earc_from_center c rx ry start sw 0 in
    ea_c a = c /\ ea_p1 a = ellipse_pt c rx ry 0 start /\ ea_p2 a = ellipse_pt c rx ry 0 (start + sw) /\
    ea_rx a = Rabs rx /\ ea_ry a = Rabs ry /\ ea_start a = start /\ ea_sweep a = sw /\ ea_phi a = 0 /\
    (ea_large a = true <-> PI < Rabs sw) /\ (ea_flag a = true <-> 0 < sw).
  Proof.
    cbv zeta. unfold earc_from_center. cbn [ea_c ea_p1 ea_p2 ea_rx ea_ry ea_start ea_sweep ea_phi ea_large ea_flag]. rnum.
    unfold ellipse_pt, turned, padd. cbn [px py]. rewrite cos_0, sin_0, !Rltb_true. repeat split; auto; apply pt_ext; cbn [px py]; rnum; ring.
  Qed.
  (** A tilt is recorded but not applied: the end points lie off the arc's own ellipse. *)
  Theorem C114_tilt_refuted : exists (c : Pt) (rx ry start sw phi : R),
    ~ on_ellipse (mkellipse c (ea_rx (earc_from_center c rx ry start sw phi)) (ea_ry (earc_from_center c rx ry start sw phi)) (ea_phi (earc_from_center c rx ry start sw phi)))
        (ea_p1 (earc_from_center c rx ry start sw phi)).
  Proof.
    exists (P 0 0), 2, 1, 0, 1, (PI / 2). unfold earc_from_center, on_ellipse. cbn [ea_rx ea_ry ea_phi ea_p1 ec erx ery ephi padd px py]. rnum.
    rewrite cos_PI2, sin_PI2, cos_0, sin_0, !Rabs_pos_eq by lra. intros H. lra.
  Qed.
End C114.

(** ** C115: the ellipse inscribed in a rhombus *)
Section C115.
  Context {E : Epsilon ROps}.
  Hypothesis He : 0 < EPS.
  Definition parallelogram (v0 v1 v2 v3 : Pt) : Prop :=
    px v0 + px v2 = px v1 + px v3 /\ py v0 + py v2 = py v1 + py v3 /\ side (Ln v0 v1) v3 <> 0.
  Definition rhombus (v0 v1 v2 v3 : Pt) : Prop := parallelogram v0 v1 v2 v3 /\ euclid v0 v1 = euclid v1 v2.
  (** The points of the parallelogram with the corner [v0] and the neighbouring corners [v1] and [v3]. *)
  Definition in_parallelogram (v0 v1 v3 q : Pt) : Prop :=
    exists s t, 0 <= s <= 1 /\ 0 <= t <= 1 /\
      q = P (px v0 + s * (px v1 - px v0) + t * (px v3 - px v0))%R (py v0 + s * (py v1 - py v0) + t * (py v3 - py v0))%R.
  (** All of the ellipse is inside, and it touches the four sides in their midpoints. *)
  Definition inscribed (e : Ell) (v0 v1 v2 v3 : Pt) : Prop :=
    (forall t, in_parallelogram v0 v1 v3 (epoint_at e t)) /\
    (forall l, In l [Ln v0 v1; Ln v1 v2; Ln v2 v3; Ln v3 v0] -> exists t, epoint_at e t = at_param l (1 / 2)).

  Lemma horwitz_axes (s S c : R) : 0 < s -> 0 < S -> 0 <= c < 1 -> S * S + c * c = 1 ->
    let k := S * s in let d := c * s in let h := s in let v := k / 2 in
    let A := k * k * k in let B := k * ((d + h) * (d + h)) - 4 * d * h * v in
    let C := - k * (k * d - 2 * h * v + k * h) in let D := - (2) * k * k * h * v in let E' := 2 * k * h * v * (d - h) in let F := k * h * h * v * v in
    let T1 := A * E' * E' + B * D * D + 4 * F * C * C - 2 * C * D * E' - 4 * A * B * F in
    let T2 := 2 * (A * B - C * C) in
    (B - A) * (B - A) + 4 * C * C = (2 * (s * s * s) * S * c) * (2 * (s * s * s) * S * c) /\
    T2 * (A + B - 2 * (s * s * s) * S * c) <> 0 /\ T2 * (A + B + 2 * (s * s * s) * S * c) <> 0 /\
    T1 / (T2 * (A + B - 2 * (s * s * s) * S * c)) = s * s * (1 + c) / 4 /\
    T1 / (T2 * (A + B + 2 * (s * s * s) * S * c)) = s * s * (1 - c) / 4.
  Proof.
    intros Hs HS Hc Q. cbv zeta. set (k := S * s). set (d := c * s).
    set (s3 := s * s * s). assert (S3 : 0 < s3) by (unfold s3; apply Rmult_lt_0_compat; [apply Rmult_lt_0_compat|]; auto).
    assert (EA : k * k * k = s3 * S * (S * S)) by (unfold k, s3; ring).
    assert (EB : k * ((d + s) * (d + s)) - 4 * d * s * (k / 2) = s3 * S * (1 + c * c)) by (unfold k, d, s3; field).
    assert (EC : - k * (k * d - 2 * s * (k / 2) + k * s) = - (s3 * (S * S) * c)) by (unfold k, d, s3; field).
    assert (ED : - (2) * k * k * s * (k / 2) = - (s3 * s * S * (S * S))) by (unfold k, s3; field).
    assert (EE : 2 * k * s * (k / 2) * (d - s) = s3 * s * (S * S) * (c - 1)) by (unfold k, d, s3; field).
    assert (EF : k * s * s * (k / 2) * (k / 2) = s3 * s * s * S * (S * S) / 4) by (unfold k, s3; field).
    rewrite EA, EB, EC, ED, EE, EF. clear EA EB EC ED EE EF. assert (Q2 : S * S = 1 - c * c) by lra.
    assert (SS : 0 < S * S) by nra.
    assert (T2E : 2 * (s3 * S * (S * S) * (s3 * S * (1 + c * c)) - - (s3 * (S * S) * c) * - (s3 * (S * S) * c)) = 2 * (s3 * s3) * (S * S) * (S * S)).
    { transitivity (2 * (s3 * s3) * (S * S) * (S * S) * (1 + c * c - c * c)); ring. }
    assert (AB1 : s3 * S * (S * S) + s3 * S * (1 + c * c) - 2 * s3 * S * c = 2 * s3 * S * (1 - c)) by (rewrite Q2; ring).
    assert (AB2 : s3 * S * (S * S) + s3 * S * (1 + c * c) + 2 * s3 * S * c = 2 * s3 * S * (1 + c)) by (rewrite Q2; ring).
    set (W := s3 * s3 * s3 * (S * S) * (S * S) * (S * S) * S * (s * s)).
    match goal with |- context [?t1 / _ = s * s * (1 + c) / 4] => assert (T1E : t1 = W) end.
    { unfold W. transitivity (s3 * s3 * s3 * (S * S) * (S * S) * (S * S) * S * (s * s) * ((c - 1) * (c - 1) + (1 + c * c) + c * c - 2 * c * (c - 1) - (1 + c * c))); [field|ring]. }
    rewrite T1E, T2E, AB1, AB2. clear T1E T2E AB1 AB2.
    assert (P1 : 0 < 1 - c) by lra. assert (P2 : 0 < 1 + c) by lra.
    assert (N1 : 0 < 2 * (s3 * s3) * (S * S) * (S * S) * (2 * s3 * S * (1 - c))) by (repeat apply Rmult_lt_0_compat; lra).
    assert (N2 : 0 < 2 * (s3 * s3) * (S * S) * (S * S) * (2 * s3 * S * (1 + c))) by (repeat apply Rmult_lt_0_compat; lra).
    split; [|split; [|split; [|split]]]; try lra.
    - transitivity (s3 * s3 * (S * S) * ((1 + c * c - S * S) * (1 + c * c - S * S) + 4 * (S * S) * c * c)); [ring|].
      assert (IN : (1 + c * c - S * S) * (1 + c * c - S * S) + 4 * (S * S) * c * c = 4 * c * c) by (rewrite Q2; ring). rewrite IN. ring.
    - unfold W. apply Rmult_eq_reg_r with (2 * (s3 * s3) * (S * S) * (S * S) * (2 * s3 * S * (1 - c))); [|lra].
      match goal with |- ?x / ?y * ?y = _ => transitivity x; [field; repeat split; try lra|] end.
      transitivity (s3 * s3 * s3 * (S * S) * (S * S) * S * (s * s) * ((1 - c) * (1 + c))); [replace ((1 - c) * (1 + c)) with (S * S) by lra; ring|field].
    - unfold W. apply Rmult_eq_reg_r with (2 * (s3 * s3) * (S * S) * (S * S) * (2 * s3 * S * (1 + c))); [|lra].
      match goal with |- ?x / ?y * ?y = _ => transitivity x; [field; repeat split; try lra|] end.
      transitivity (s3 * s3 * s3 * (S * S) * (S * S) * S * (s * s) * ((1 - c) * (1 + c))); [replace ((1 - c) * (1 + c)) with (S * S) by lra; ring|field].
  Qed.

  Lemma diamond (x y : R) : x * x + y * y = 1 / 2 -> -1 <= x + y <= 1 /\ -1 <= x - y <= 1.
  Proof.
    intros Q. assert (A : (x + y) * (x + y) <= 1) by (pose proof (Rle_0_sqr (x - y)) as K; unfold Rsqr in K; lra).
    assert (B : (x - y) * (x - y) <= 1) by (pose proof (Rle_0_sqr (x + y)) as K; unfold Rsqr in K; lra). split; split; nra.
  Qed.
  Lemma curve_uw (m : Pt) (a b f ux uy wx wy e1 e2 r : R) : e1 * e1 = 1 -> e2 * e2 = 1 -> r * r = 1 / 2 ->
    a * cos f = e1 * ux * r -> a * sin f = e1 * uy * r -> - (b * sin f) = e2 * wx * r -> b * cos f = e2 * wy * r ->
    forall q, (exists t, q = ellipse_pt m a b f t) <-> exists x y, x * x + y * y = 1 / 2 /\ q = P (px m + x * ux + y * wx)%R (py m + x * uy + y * wy)%R.
  Proof.
    intros H1 H2 Hr A1 A2 B1 B2 q. split.
    - intros (t & ->). exists (e1 * r * cos t), (e2 * r * sin t). pose proof (sin2_cos2 t) as W. unfold Rsqr in W. split.
      + transitivity ((e1 * e1) * (r * r) * (cos t * cos t) + (e2 * e2) * (r * r) * (sin t * sin t)); [ring|]. rewrite H1, H2, Hr. lra.
      + unfold ellipse_pt, turned. cbn [px py]. apply pt_ext; cbn [px py].
        * transitivity (px m + ((a * cos f) * cos t + (- (b * sin f)) * sin t)); [ring|]. rewrite A1, B1. ring.
        * transitivity (py m + ((a * sin f) * cos t + (b * cos f) * sin t)); [ring|]. rewrite A2, B2. ring.
    - intros (x & y & Q & ->). destruct (atan2_polar (2 * e2 * r * y) (2 * e1 * r * x)) as [C S].
      assert (H1' : Rhypot (2 * e1 * r * x) (2 * e2 * r * y) = 1).
      { apply hypot_unique; [lra|]. transitivity (4 * ((e1 * e1) * (r * r) * (x * x) + (e2 * e2) * (r * r) * (y * y))); [rewrite H1, H2, Hr; lra|ring]. }
      rewrite H1' in C, S. set (t := Ratan2 _ _) in *. exists t. unfold ellipse_pt, turned. cbn [px py]. apply pt_ext; cbn [px py].
      + transitivity (px m + ((a * cos f) * (1 * cos t) + (- (b * sin f)) * (1 * sin t))); [|ring]. rewrite A1, B1, C, S.
        transitivity (px m + (2 * (e1 * e1) * (r * r) * x * ux + 2 * (e2 * e2) * (r * r) * y * wx)); [rewrite H1, H2, Hr; eqR; field|ring].
      + transitivity (py m + ((a * sin f) * (1 * cos t) + (b * cos f) * (1 * sin t))); [|ring]. rewrite A2, B2, C, S.
        transitivity (py m + (2 * (e1 * e1) * (r * r) * x * uy + 2 * (e2 * e2) * (r * r) * y * wy)); [rewrite H1, H2, Hr; eqR; field|ring].
  Qed.
  Lemma rhombus_ellipse (mx my ux uy wx wy U W : R) : 0 < U -> 0 < W -> U * U = ux * ux + uy * uy -> W * W = wx * wx + wy * wy -> ux * wx + uy * wy = 0 ->
    EPS <= 2 * W -> U = W \/ R_sqrt.sqrt 2 * EPS <= Rabs (U - W) ->
    exists e, ellipse_in_parallelogram (P (mx + ux) (my + uy)) (P (mx + wx) (my + wy)) (P (mx - ux) (my - uy)) (P (mx - wx) (my - wy)) 1 = Ok e /\
      forall q : Pt, (exists t, q = epoint_at e t) <-> exists x y, x * x + y * y = 1 / 2 /\ q = P (mx + x * ux + y * wx)%R (my + x * uy + y * wy)%R.
  Proof.
    intros HU HW QU QW Hd HE Hne. set (v0 := P (mx + ux) (my + uy) : Pt). set (v1 := P (mx + wx) (my + wy) : Pt).
    set (v2 := P (mx - ux) (my - uy) : Pt). set (v3 := P (mx - wx) (my - wy) : Pt).
    set (s := R_sqrt.sqrt (U * U + W * W)). assert (SS : s * s = U * U + W * W) by (apply sqrt_sqrt; clear - HU HW; nra).
    assert (S0 : 0 < s) by (apply sqrt_lt_R0; clear - HU HW; nra). clearbody s.
    assert (D01 : euclid v0 v1 = s) by (apply euclid_unique; [lra|]; unfold v0, v1; cbn [px py]; rewrite SS, QU, QW; transitivity (ux * ux + uy * uy + (wx * wx + wy * wy) - 2 * (ux * wx + uy * wy)); [rewrite Hd; ring|ring]).
    assert (D12 : euclid v1 v2 = s) by (apply euclid_unique; [lra|]; unfold v1, v2; cbn [px py]; rewrite SS, QU, QW; transitivity (ux * ux + uy * uy + (wx * wx + wy * wy) + 2 * (ux * wx + uy * wy)); [rewrite Hd; ring|ring]).
    assert (D23 : euclid v2 v3 = s) by (apply euclid_unique; [lra|]; unfold v2, v3; cbn [px py]; rewrite SS, QU, QW; transitivity (ux * ux + uy * uy + (wx * wx + wy * wy) - 2 * (ux * wx + uy * wy)); [rewrite Hd; ring|ring]).
    assert (D13 : euclid v1 v3 = 2 * W) by (apply euclid_unique; [lra|]; unfold v1, v3; cbn [px py]; transitivity (4 * (W * W)); [ring|rewrite QW; ring]).
    assert (D02 : seg_len (Ln v0 v2) = 2 * U) by (apply euclid_unique; [lra|]; unfold v0, v2; cbn [p1 p2 px py]; transitivity (4 * (U * U)); [ring|rewrite QU; ring]).
    assert (D03 : euclid v0 v3 = s) by (apply euclid_unique; [lra|]; unfold v0, v3; cbn [px py]; rewrite SS, QU, QW; transitivity (ux * ux + uy * uy + (wx * wx + wy * wy) + 2 * (ux * wx + uy * wy)); [rewrite Hd; ring|ring]).
    set (X := ux * wy - uy * wx). assert (XX : X * X = (U * U) * (W * W)).
    { rewrite QU, QW. unfold X. transitivity ((ux * ux + uy * uy) * (wx * wx + wy * wy) - (ux * wx + uy * wy) * (ux * wx + uy * wy)); [ring|]. rewrite Hd. ring. }
    (* the corner angle *)
    assert (ANG : exists g, angle2 v0 v1 v3 = g /\ - PI < g <= PI /\ s * s * cos g = U * U - W * W /\ s * s * sin g = 2 * X).
    { eexists. split; [reflexivity|]. split; [apply angle2_range|]. unfold angle2.
      replace (peq (psub v1 v0) (psub v3 v0)) with false.
      2:{ symmetry. apply peq_false; auto. replace (euclid (psub v1 v0) (psub v3 v0)) with (euclid v1 v3); [rewrite D13; exact HE|].
          symmetry. apply euclid_unique; [apply euclid_pos|]. rewrite euclid_sqr. unfold psub. cbn [px py]. rnum. ring. }
      destruct (atan2_polar (cross (psub v1 v0) (psub v3 v0)) (dot (psub v1 v0) (psub v3 v0))) as [C S]. rewrite hypot_dc in C, S.
      assert (P1 : plen (psub v1 v0) = s).
      { rewrite <- D01, euclid_sym, euclid_hypot. reflexivity. }
      assert (P3 : plen (psub v3 v0) = s).
      { rewrite <- D03, euclid_sym, euclid_hypot. reflexivity. }
      rewrite P1, P3 in C, S. rnum. split; [etransitivity; [exact C|]|etransitivity; [exact S|]]; unfold dot, cross, psub, v0, v1, v3, X; cbn [px py]; rnum; [rewrite QU, QW; ring_simplify; lra|ring]. }
    destruct ANG as (g & AG & RG & CG & SG).
    assert (C0 : cos (Rabs g) = cos g) by (unfold Rabs; destruct (Rcase_abs g); [apply cos_neg|reflexivity]).
    assert (GA : 0 <= Rabs g <= PI) by (split; [apply Rabs_pos|]; unfold Rabs; destruct (Rcase_abs g); lra).
    assert (X0 : X <> 0). { intros Z. rewrite Z in XX. assert (0 < (U * U) * (W * W)) by (repeat apply Rmult_lt_0_compat; auto). lra. }
    assert (SP : 0 < sin (Rabs g)).
    { apply sin_gt_0.
      - destruct (proj1 GA) as [L|L]; auto. exfalso. apply X0. assert (Z : g = 0) by (unfold Rabs in L; destruct (Rcase_abs g); lra). rewrite Z, sin_0 in SG. lra.
      - destruct (proj2 GA) as [L|L]; auto. exfalso. apply X0. assert (Z : g = PI) by (unfold Rabs in L; destruct (Rcase_abs g); lra). rewrite Z, sin_PI in SG. lra. }
    pose proof (sin2_cos2 (Rabs g)) as SC. unfold Rsqr in SC.
    set (r := / R_sqrt.sqrt 2). assert (S2 : R_sqrt.sqrt 2 * R_sqrt.sqrt 2 = 2) by (apply sqrt_sqrt; lra). assert (S2P : 0 < R_sqrt.sqrt 2) by (apply sqrt_lt_R0; lra).
    assert (RR : r * r = 1 / 2) by (unfold r; rewrite <- Rinv_mult, S2; lra). assert (R0 : 0 < r) by (apply Rinv_0_lt_compat; exact S2P).
    (* the direction of the axis *)
    pose proof (line_angle (Ln v0 v2)) as LA. rewrite D02 in LA. destruct (LA ltac:(lra)) as [MC MS]. clear LA. cbn [p1 p2] in MC, MS. set (mj := langle (Ln v0 v2)) in *.
    assert (MC' : U * cos mj = - ux) by (unfold v0, v2 in MC; cbn [px py] in MC; lra).
    assert (MS' : U * sin mj = - uy) by (unfold v0, v2 in MS; cbn [px py] in MS; lra).
    (* w in terms of u *)
    set (sg := X / (U * W)). assert (SGN : sg * sg = 1) by (unfold sg; transitivity (X * X / ((U * U) * (W * W))); [field; lra|rewrite XX; field; lra]).
    assert (UX : X = sg * (U * W)) by (unfold sg; field; lra).
    assert (WX : wx * U = - (sg * W * uy)).
    { apply Rmult_eq_reg_r with U; [|lra]. transitivity (- (X * uy)); [|rewrite UX; ring]. unfold X. rewrite Rmult_assoc, QU. transitivity (wx * (uy * uy) + (ux * wx) * ux); [ring|]. replace (ux * wx) with (- (uy * wy)) by lra. ring. }
    assert (WY : wy * U = sg * W * ux).
    { apply Rmult_eq_reg_r with U; [|lra]. transitivity (X * ux); [|rewrite UX; ring]. unfold X. rewrite Rmult_assoc, QU. transitivity (wy * (ux * ux) + (uy * wy) * uy); [ring|]. replace (uy * wy) with (- (ux * wx)) by lra. ring. }
    assert (MID : midpoint (Ln v0 v2) = P mx my) by (rewrite midpoint_spec; unfold at_param, v0, v2; cbn [p1 p2 px py]; apply pt_ext; cbn [px py]; field).
    (* the computation, for the angle th of the acute corner *)
    assert (RUN : forall th (a b c : Pt) (mj' A B : R), 0 < sin th -> 0 <= cos th -> sin th * sin th + cos th * cos th = 1 -> euclid a b = s -> euclid b c = s -> 0 < A -> 0 < B ->
      A * A = s * s * (1 + cos th) / 4 -> B * B = s * s * (1 - cos th) / 4 ->
      (let h2 := pdist a b in let h := pdist b c in let k := sin th * h2 in let d := cos th * h2 in let dh := d + h in
       rbind (if (Rleb 1 1 || Rltb 1 0)%bool then Ok (k / 2) else rbind (pydiv (N:=ROps) (k / 2 * (dh * dh + k * k)) (k * k + d * d + h * h)) (fun v => Ok (v * (1 - 1)))) (fun v =>
       let A := k * k * k in let B := k * (dh * dh) - 4 * d * h * v in let C := - k * (k * d - 2 * h * v + k * h) in
       let D := - (2) * k * k * h * v in let E' := 2 * k * h * v * (d - h) in let F := k * h * h * v * v in
       let T1 := A * E' * E' + B * D * D + 4 * F * C * C - 2 * C * D * E' - 4 * A * B * F in let T2 := 2 * (A * B - C * C) in
       rbind (pysqrt (N:=ROps) ((B - A) * (B - A) + 4 * C * C)) (fun T3 => rbind (pydiv (N:=ROps) T1 (T2 * (A + B - T3))) (fun qa => rbind (pysqrt (N:=ROps) qa) (fun a =>
       rbind (pydiv (N:=ROps) T1 (T2 * (A + B + T3))) (fun qb => rbind (pysqrt (N:=ROps) qb) (fun b => Ok (new_ellipse (P mx my : Pt) a (Some b) mj')))))))) =
       Ok (new_ellipse (P mx my) A (Some B) mj')).
    { intros th a b c mj' A B H1 H2 H3 H4 H5 H6 H7 H8 H9. cbv zeta. change (pdist a b) with (euclid a b). change (pdist b c) with (euclid b c). rewrite H4, H5.
      assert (Z1 : Rleb 1 1 = true) by (apply Rleb_true; lra). rewrite Z1. cbn [orb rbind].
      assert (CL : cos th < 1) by (clear - H1 H2 H3; nra).
      destruct (horwitz_axes s (sin th) (cos th) S0 H1 (conj H2 CL) H3) as (E1 & E2 & E3 & E4 & E5).
      unfold pysqrt at 1. rnum. rewrite E1. 
      assert (NN : 0 <= 2 * (s * s * s) * sin th * cos th) by (repeat apply Rmult_le_pos; lra).
      match goal with |- context [Rltb ?x 0] => destruct (Rltb x 0) eqn:Z2 end; [apply Rltb_true in Z2; exfalso; clear - Z2; set (z := 2 * (s * s * s) * sin th * cos th) in *; clearbody z; nra|].
      cbn [rbind]. rewrite sqrt_square by exact NN. unfold pydiv. rnum.
      match goal with |- context [if Reqb ?x 0 then _ else _] => destruct (Reqb x 0) eqn:Z3 end; [apply Reqb_true in Z3; contradiction|]. cbn [rbind]. rewrite E4, <- H8.
      unfold pysqrt. rnum. destruct (Rltb (A * A) 0) eqn:Z4; [apply Rltb_true in Z4; clear - Z4; nra|]. cbn [rbind].
      match goal with |- context [if Reqb ?x 0 then _ else _] => destruct (Reqb x 0) eqn:Z5 end; [apply Reqb_true in Z5; contradiction|]. cbn [rbind]. rewrite E5, <- H9.
      destruct (Rltb (B * B) 0) eqn:Z6; [apply Rltb_true in Z6; clear - Z6; nra|]. cbn [rbind]. rewrite !sqrt_square by lra. reflexivity. }
    unfold ellipse_in_parallelogram. rewrite AG, MID. fold mj. rnum.
    assert (NA : forall A B, A = r * U /\ B = r * W \/ A = r * W /\ B = r * U -> Rabs A = Rabs B \/ EPS <= Rabs (Rabs A - Rabs B)).
    { assert (K : Rabs (r * U) = r * U /\ Rabs (r * W) = r * W) by (split; apply Rabs_pos_eq; apply Rmult_le_pos; lra). destruct K as [K1 K2].
      assert (K3 : U <> W -> EPS <= Rabs (r * U - r * W)).
      { intros Z. destruct Hne as [Z'|Hne]; [contradiction|]. replace (r * U - r * W) with (r * (U - W)) by ring. rewrite Rabs_mult, (Rabs_pos_eq r) by lra.
        apply Rmult_le_reg_l with (R_sqrt.sqrt 2); [exact S2P|]. rewrite <- Rmult_assoc. unfold r. rewrite Rinv_r by lra. lra. }
      intros A B [[-> ->]|[-> ->]]; rewrite K1, K2; destruct (Req_dec U W) as [->|Z]; auto. right. rewrite Rabs_minus_sym. auto. }
    destruct (Rltb (PI / 2) (Rabs g)) eqn:Z; rbool.
    - (* obtuse *)
      assert (CN : cos g < 0) by (rewrite <- C0; apply cos_lt_0; lra).
      exists (new_ellipse (P mx my) (r * W) (Some (r * U)) (mj + PI / 2)). split.
      + apply (RUN (PI - Rabs g) v1 v2 v3); auto; rewrite ?sin_minus, ?cos_minus, ?cos_PI, ?sin_PI, ?C0; [clear - SP; lra|clear - CN; lra|rewrite C0 in SC; clear - SC; rewrite <- SC; ring|apply Rmult_lt_0_compat; assumption|apply Rmult_lt_0_compat; assumption| |].
        * transitivity (r * r * (W * W)); [ring|]. rewrite RR. replace (s * s * (1 + (-1 * cos g + 0 * sin (Rabs g))) / 4) with ((s * s - s * s * cos g) / 4) by field. rewrite CG, SS. field.
        * transitivity (r * r * (U * U)); [ring|]. rewrite RR. replace (s * s * (1 - (-1 * cos g + 0 * sin (Rabs g))) / 4) with ((s * s + s * s * cos g) / 4) by field. rewrite CG, SS. field.
      + intros q. rewrite C62_new_same_curve by (auto || (apply NA; auto)).
        rewrite (curve_uw (P mx my) (r * W) (r * U) (mj + PI / 2) wx wy ux uy (- sg) 1 r); try lra; rewrite ?cos_plus, ?sin_plus, ?cos_PI2, ?sin_PI2.
        * cbn [px py]. split; intros (x & y & Q & ->); exists y, x; (split; [lra|apply pt_ext; cbn [px py]; ring]).
        * apply Rmult_eq_reg_r with U; [|lra]. transitivity (- (r * W * (U * sin mj))); [ring|]. rewrite MS'. transitivity (- (sg * r * (wx * U))); [rewrite WX; transitivity ((sg * sg) * (r * W * uy)); [rewrite SGN; ring|ring]|ring].
        * apply Rmult_eq_reg_r with U; [|lra]. transitivity (r * W * (U * cos mj)); [ring|]. rewrite MC'. transitivity (- (sg * r * (wy * U))); [rewrite WY; transitivity (- ((sg * sg) * (r * W * ux))); [rewrite SGN; ring|ring]|ring].
        * transitivity (- (r * (U * cos mj))); [ring|rewrite MC'; ring].
        * transitivity (- (r * (U * sin mj))); [ring|rewrite MS'; ring].
    - (* acute *)
      assert (CN : 0 <= cos g) by (rewrite <- C0; apply cos_ge_0; lra).
      exists (new_ellipse (P mx my) (r * U) (Some (r * W)) mj). split.
      + apply (RUN (Rabs g) v0 v1 v2); auto; rewrite ?C0; [exact CN|apply Rmult_lt_0_compat; assumption|apply Rmult_lt_0_compat; assumption| |].
        * transitivity (r * r * (U * U)); [ring|]. rewrite RR. replace (s * s * (1 + cos g) / 4) with ((s * s + s * s * cos g) / 4) by field. rewrite CG, SS. field.
        * transitivity (r * r * (W * W)); [ring|]. rewrite RR. replace (s * s * (1 - cos g) / 4) with ((s * s - s * s * cos g) / 4) by field. rewrite CG, SS. field.
      + intros q. rewrite C62_new_same_curve by (auto || (apply NA; auto)).
        rewrite (curve_uw (P mx my) (r * U) (r * W) mj ux uy wx wy (- (1)) (- sg) r); try lra.
        * cbn [px py]. reflexivity.
        * transitivity (r * (U * cos mj)); [ring|rewrite MC'; ring].
        * transitivity (r * (U * sin mj)); [ring|rewrite MS'; ring].
        * apply Rmult_eq_reg_r with U; [|lra]. transitivity (- (r * W * (U * sin mj))); [ring|]. rewrite MS'. transitivity (- (sg * r * (wx * U))); [rewrite WX; transitivity ((sg * sg) * (r * W * uy)); [rewrite SGN; ring|ring]|ring].
        * apply Rmult_eq_reg_r with U; [|lra]. transitivity (r * W * (U * cos mj)); [ring|]. rewrite MC'. transitivity (- (sg * r * (wy * U))); [rewrite WY; transitivity (- ((sg * sg) * (r * W * ux))); [rewrite SGN; ring|ring]|ring].
  Qed.

  (** Every rhombus (of the two diagonals the second must not be tiny, and they must be equal or clearly different) gets its inscribed ellipse. *)
  Theorem C115_rhombus_partial (v0 v1 v2 v3 : Pt) : rhombus v0 v1 v2 v3 -> EPS <= euclid v1 v3 ->
    euclid v0 v2 = euclid v1 v3 \/ 2 * R_sqrt.sqrt 2 * EPS <= Rabs (euclid v0 v2 - euclid v1 v3) ->
    exists e, ellipse_in_parallelogram v0 v1 v2 v3 1 = Ok e /\ inscribed e v0 v1 v2 v3.
  Proof.
    destruct v0 as [x0 y0], v1 as [x1 y1], v2 as [x2 y2], v3 as [x3 y3].
    intros ((PX & PY & NF) & EQ) HE Hne. cbn [px py] in PX, PY. unfold side in NF. cbn [px py p1 p2] in NF. change (T ROps) with R in *.
    set (mx := (x0 + x2) / 2). set (my := (y0 + y2) / 2). set (ux := x0 - mx). set (uy := y0 - my). set (wx := x1 - mx). set (wy := y1 - my).
    assert (E0 : P x0 y0 = P (mx + ux) (my + uy) :> Pt) by (apply pt_ext; cbn; unfold ux, uy; ring).
    assert (E1 : P x1 y1 = P (mx + wx) (my + wy) :> Pt) by (apply pt_ext; cbn; unfold wx, wy; ring).
    assert (E2 : P x2 y2 = P (mx - ux) (my - uy) :> Pt) by (apply pt_ext; cbn; unfold ux, uy, mx, my; field).
    assert (E3 : P x3 y3 = P (mx - wx) (my - wy) :> Pt) by (apply pt_ext; cbn; unfold wx, wy, mx, my; lra).
    assert (Hd : ux * wx + uy * wy = 0).
    { pose proof (euclid_sqr (P x0 y0) (P x1 y1)) as A. pose proof (euclid_sqr (P x1 y1) (P x2 y2)) as B. rewrite EQ in A. rewrite A in B. rewrite E0, E1, E2 in B. cbn [px py] in B. clear - B. clearbody ux uy wx wy mx my. nra. }
    assert (HX : ux * wy - uy * wx <> 0).
    { intros Z. apply NF. assert (F0 := f_equal px E0). assert (F0' := f_equal py E0). assert (F1 := f_equal px E1). assert (F1' := f_equal py E1). assert (F3 := f_equal px E3). assert (F3' := f_equal py E3).
      cbn [px py] in *. change (T ROps) with R in *. rewrite F0, F0', F1, F1', F3, F3'. transitivity (2 * (ux * wy - uy * wx)); [ring|rewrite Z; ring]. }
    rewrite E0, E1, E2, E3 in *. clearbody ux uy wx wy mx my. clear E0 E1 E2 E3 NF EQ PX PY.
    set (U := R_sqrt.sqrt (ux * ux + uy * uy)). set (W := R_sqrt.sqrt (wx * wx + wy * wy)).
    assert (QU : U * U = ux * ux + uy * uy) by (apply sqrt_sqrt; nra). assert (QW : W * W = wx * wx + wy * wy) by (apply sqrt_sqrt; nra).
    assert (U0 : 0 < U). { destruct (sqrt_pos (ux * ux + uy * uy)) as [L|L]; auto. exfalso. apply HX. fold U in L. rewrite <- L in QU. assert (ux = 0) by nra. assert (uy = 0) by nra. subst. ring. }
    assert (W0 : 0 < W). { destruct (sqrt_pos (wx * wx + wy * wy)) as [L|L]; auto. exfalso. apply HX. fold W in L. rewrite <- L in QW. assert (wx = 0) by nra. assert (wy = 0) by nra. subst. ring. }
    clearbody U W.
    assert (D02 : euclid (P (mx + ux) (my + uy)) (P (mx - ux) (my - uy)) = 2 * U) by (apply euclid_unique; [lra|]; cbn [px py]; transitivity (4 * (U * U)); [ring|rewrite QU; ring]).
    assert (D13 : euclid (P (mx + wx) (my + wy)) (P (mx - wx) (my - wy)) = 2 * W) by (apply euclid_unique; [lra|]; cbn [px py]; transitivity (4 * (W * W)); [ring|rewrite QW; ring]).
    rewrite D02, D13 in *.
    assert (Hne' : U = W \/ R_sqrt.sqrt 2 * EPS <= Rabs (U - W)).
    { destruct Hne as [Hne|Hne]; [left; lra|right]. replace (2 * U - 2 * W) with (2 * (U - W)) in Hne by ring. rewrite Rabs_mult, (Rabs_pos_eq 2) in Hne by lra. clear - Hne. toR. set (z := R_sqrt.sqrt 2 * EPS) in *. replace (2 * R_sqrt.sqrt 2 * EPS) with (2 * z) in Hne by (unfold z; ring). lra. }
    destruct (rhombus_ellipse mx my ux uy wx wy U W U0 W0 QU QW Hd HE Hne') as (e & EE & CV). exists e. split; [exact EE|]. split.
    - intros t. destruct (proj1 (CV (epoint_at e t)) (ex_intro _ t eq_refl)) as (x & y & Q & ->). exists ((1 - x + y) / 2), ((1 - x - y) / 2).
      assert (B : -1 <= x + y <= 1 /\ -1 <= x - y <= 1) by (apply diamond; exact Q).
      split; [lra|split; [lra|]]. apply pt_ext; cbn [px py]; field.
    - assert (K : forall x y, x * x + y * y = 1 / 2 -> exists t, epoint_at e t = P (mx + x * ux + y * wx) (my + x * uy + y * wy)).
      { intros x y Q. destruct (proj2 (CV (P (mx + x * ux + y * wx) (my + x * uy + y * wy)))) as (t & T1); [exists x, y; auto|]. exists t. auto. }
      cbn [In]. intros l Hl.
      assert (G : forall x y, x * x + y * y = 1 / 2 -> at_param l (1 / 2) = P (mx + x * ux + y * wx) (my + x * uy + y * wy) -> exists t, epoint_at e t = at_param l (1 / 2)) by (intros x y Q ->; apply K; exact Q).
      destruct Hl as [<-|[<-|[<-|[<-|[]]]]]; [apply (G (1/2) (1/2))|apply (G (-1/2) (1/2))|apply (G (-1/2) (-1/2))|apply (G (1/2) (-1/2))]; try lra; unfold at_param; cbn [p1 p2 px py]; apply pt_ext; cbn [px py]; field.
  Qed.

  (** Other parallelograms do not: the ellipse is turned into the diagonal and sticks out of the rectangle. *)
  Theorem C115_rectangle_refuted : EPS <= 1 / 2 -> exists (v0 v1 v2 v3 : Pt) e t, parallelogram v0 v1 v2 v3 /\
    ellipse_in_parallelogram v0 v1 v2 v3 1 = Ok e /\ ~ in_parallelogram v0 v1 v3 (epoint_at e t).
  Proof.
    intros He2. exists (P 0 0), (P 2 0), (P 2 1), (P 0 1). pose proof PI_RGT_0 as PP.
    assert (AG : angle2 (P 0 0) (P 2 0) (P 0 1) = PI / 2).
    { unfold angle2. replace (peq _ _) with false.
      2:{ symmetry. apply peq_false; auto. apply Rsqr_incr_0; [|lra|apply euclid_pos]. unfold Rsqr. rewrite euclid_sqr. unfold psub. cbn [px py]. rnum. nra. }
      unfold cross, dot, psub. cbn [px py]. rnum. pose proof (atan2_of_polar 2 (PI / 2) ltac:(lra) ltac:(lra)) as Q. rewrite sin_PI2, cos_PI2 in Q. etransitivity; [|exact Q]. f_equal; ring. }
    set (mj := langle (Ln (P 0 0) (P 2 1 : Pt))).
    assert (L5 : seg_len (Ln (P 0 0) (P 2 1)) = R_sqrt.sqrt 5) by (unfold seg_len; cbn [p1 p2]; unfold euclid, Rsqr; cbn [px py]; f_equal; ring).
    assert (S5 : R_sqrt.sqrt 5 * R_sqrt.sqrt 5 = 5) by (apply sqrt_sqrt; lra). assert (S5P : 0 < R_sqrt.sqrt 5) by (apply sqrt_lt_R0; lra).
    pose proof (line_angle (Ln (P 0 0) (P 2 1))) as LA. rewrite L5 in LA. destruct (LA S5P) as [MC MS]. fold mj in MC, MS. cbn [p1 p2 px py] in MC, MS.
    exists (new_ellipse (P 1 (1 / 2)) 1 (Some (1 / 2)) mj), (PI / 4). split; [|split].
    - split; [cbn; lra|split; [cbn; lra|]]. unfold side. cbn [px py p1 p2]. lra.
    - unfold ellipse_in_parallelogram. rewrite AG. fold mj. rnum. rewrite (Rabs_pos_eq (PI / 2)) by lra.
      destruct (Rltb (PI / 2) (PI / 2)) eqn:Z; [apply Rltb_true in Z; lra|]. rewrite sin_PI2, cos_PI2.
      change (pdist (P 0 0) (P 2 0 : Pt)) with (euclid (P 0 0) (P 2 0)). change (pdist (P 2 0) (P 2 1 : Pt)) with (euclid (P 2 0) (P 2 1)).
      rewrite (euclid_unique (P 0 0) (P 2 0) 2), (euclid_unique (P 2 0) (P 2 1) 1) by (cbn; lra).
      assert (Z1 : Rleb 1 1 = true) by (apply Rleb_true; lra). rewrite Z1. cbn [orb rbind].
      unfold pysqrt at 1. rnum. match goal with |- context [Rltb ?x 0] => replace x with (6 * 6) by field end.
      destruct (Rltb (6 * 6) 0) eqn:Z2; [apply Rltb_true in Z2; lra|]. cbn [rbind]. rewrite sqrt_square by lra. unfold pydiv. rnum.
      match goal with |- context [if Reqb ?x 0 then _ else _] => replace x with 128 by field end. destruct (Reqb 128 0) eqn:Z3; [apply Reqb_true in Z3; lra|]. cbn [rbind].
      match goal with |- context [?x / 128] => replace (x / 128) with (1 * 1) by field end. unfold pysqrt. rnum.
      destruct (Rltb (1 * 1) 0) eqn:Z4; [apply Rltb_true in Z4; lra|]. cbn [rbind].
      match goal with |- context [if Reqb ?x 0 then _ else _] => replace x with 512 by field end. destruct (Reqb 512 0) eqn:Z5; [apply Reqb_true in Z5; lra|]. cbn [rbind].
      match goal with |- context [?x / 512] => replace (x / 512) with (1 / 2 * (1 / 2)) by field end.
      destruct (Rltb (1 / 2 * (1 / 2)) 0) eqn:Z6; [apply Rltb_true in Z6; lra|]. cbn [rbind]. rewrite !sqrt_square by lra.
      do 2 f_equal. rewrite midpoint_spec. unfold at_param. cbn [p1 p2 px py]. apply pt_ext; cbn [px py]; lra.
    - rewrite epoint_spec. unfold new_ellipse. cbn [ec erx ery ephi]. rewrite pymin_R, pymax_R. unfold feq. rnum. rewrite (Rabs_pos_eq 1), (Rabs_pos_eq (1 / 2)) by lra.
      rewrite (Rabs_pos_eq (1 - 1 / 2)), (proj2 (Rltb_false (1 - 1 / 2) EPS)), (proj2 (Rltb_false 1 (1 / 2))), Rmax_left, Rmin_right by lra.
      intros (a & b & Ha & Hb & Q). apply (f_equal py) in Q. unfold ellipse_pt, turned in Q. cbn [px py] in Q. rewrite cos_PI4, sin_PI4 in Q.
      assert (S2 : R_sqrt.sqrt 2 * R_sqrt.sqrt 2 = 2) by (apply sqrt_sqrt; lra). assert (S2P : 0 < R_sqrt.sqrt 2) by (apply sqrt_lt_R0; lra).
      set (r2 := R_sqrt.sqrt 2) in *. set (r5 := R_sqrt.sqrt 5) in *. 
      assert (I : 1 / r2 = r2 / 2) by (apply Rmult_eq_reg_r with (2 * r2); [|lra]; transitivity 2; [field; lra|rewrite <- S2 at 1; field]).
      assert (SM : sin mj = r5 / 5) by (apply Rmult_eq_reg_l with r5; [|lra]; rewrite MS; transitivity (r5 * r5 / 5); [rewrite S5; lra|field]).
      assert (CM : cos mj = 2 * r5 / 5) by (apply Rmult_eq_reg_l with r5; [|lra]; rewrite MC; transitivity (2 * (r5 * r5) / 5); [rewrite S5; lra|field]).
      rewrite I, SM, CM in Q. clearbody r2 r5 mj. assert (Q' : b = 1 / 2 + r5 * r2 / 5) by (clear - Q; toR; lra).
      assert (B : (b - 1 / 2) * (b - 1 / 2) = 2 / 5) by (rewrite Q'; transitivity ((r5 * r5) * (r2 * r2) / 25); [field|rewrite S5, S2; field]).
      assert (0 < r5 * r2) by (apply Rmult_lt_0_compat; auto). clear - B Hb Q' H. nra.
  Qed.
End C115.
Example C115_example : rhombus (P 0 0) (P 2 1) (P 4 0) (P 2 (-1)) /\ 1 / 1000000 <= euclid (P 2 1) (P 2 (-1)).
Proof.
  assert (D : euclid (P 2 1) (P 2 (-1)) = 2) by (apply euclid_unique; cbn; lra). rewrite D. split; [|lra].
  split; [split; [cbn; lra|split; [cbn; lra|]]; unfold side; cbn; lra|]. unfold euclid, Rsqr. cbn. f_equal. lra.
Qed.
