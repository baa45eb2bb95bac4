(** * GeomProofs7: circle-circle intersection, arc centres, tangents, ellipses over R *)
From Verif Require Import Num NumR Geom GeomR GeomSpec GeomProofs GeomProofs2 GeomProofs3 GeomProofs4 GeomProofs5 Ellipse.
From Coq Require Import ZArith Reals Lra List Bool Psatz.
Import ListNotations.
Local Open Scope R_scope.

Section A.
  Context {E : Epsilon ROps}.
  Hypothesis He : 0 < EPS.

  Lemma rotate_dir (c1 c2 : Pt) (x y : R) : 0 < euclid c1 c2 ->
    padd c1 (protate (P x y) (langle (Ln c1 c2)) (P 0 0)) =
    P (px c1 + (x * (px c2 - px c1) - y * (py c2 - py c1)) / euclid c1 c2)
      (py c1 + (x * (py c2 - py c1) + y * (px c2 - px c1)) / euclid c1 c2) :> Pt.
  Proof.
    intros H. unfold protate. rewrite apply_rotate. unfold langle, pangle, vec. cbn [p1 p2]. rnum.
    pose proof (atan2_polar (py (psub c2 c1)) (px (psub c2 c1))) as [C S].
    assert (K : Rhypot (px (psub c2 c1)) (py (psub c2 c1)) = euclid c1 c2).
    { rewrite euclid_hypot. unfold psub. cbn [px py]. rnum. rewrite <- hypot_sym. f_equal; ring. }
    rewrite K in C, S. set (t := Ratan2 _ _) in *. set (d := euclid c1 c2) in *.
    unfold psub in C, S. cbn [px py] in C, S. rnum.
    assert (C' : cos t = (px c2 - px c1) / d) by (rewrite <- C; field; lra).
    assert (S' : sin t = (py c2 - py c1) / d) by (rewrite <- S; field; lra).
    unfold turned, padd. cbn [px py]. rewrite C', S'. ptx; field; lra.
  Qed.

  Lemma circles_two (c1 c2 : Pt) (r1 r2 : R) p q : 0 <= r1 -> 0 <= r2 ->
    intersect_circle c1 r1 c2 r2 = Ok [p; q] ->
    (on_circle c1 r1 p /\ on_circle c2 r2 p) /\ (on_circle c1 r1 q /\ on_circle c2 r2 q).
  Proof.
    intros H1 H2. unfold intersect_circle. rewrite seg_len_llen. unfold seg_len. cbn [p1 p2]. rnum.
    set (d := euclid c1 c2). destruct (Rltb _ d); [discriminate|]. destruct (Rltb d _); [discriminate|].
    destruct (is_zero d) eqn:Z; [discriminate|]. apply isz_false in Z; auto.
    destruct (feq _ _); [discriminate|].
    assert (Dp : 0 < d). { unfold d in *. rewrite Rabs_pos_eq in Z by apply euclid_pos. lra. }
    unfold pydiv. rnum. destruct (Reqb (2 * d) 0) eqn:Z2; [apply Reqb_true in Z2; lra|]. cbn [rbind].
    set (a := (d * d - r2 * r2 + r1 * r1) / (2 * d)).
    destruct (Rltb (r1 * r1 - a * a) 0) eqn:Z3; [discriminate|]. apply Rltb_false in Z3.
    set (h := R_sqrt.sqrt (r1 * r1 - a * a)). assert (HH : h * h = r1 * r1 - a * a) by (apply sqrt_sqrt; lra).
    rewrite !rotate_dir by exact Dp. intros Q. injection Q as <- <-.
    pose proof (euclid_sqr c1 c2) as DD. fold d in DD.
    assert (A2 : 2 * a * d = d * d - r2 * r2 + r1 * r1) by (unfold a; field; lra).
    assert (G : forall k : R, k * k = h * h ->
      let q : Pt := P (px c1 + (a * (px c2 - px c1) - k * (py c2 - py c1)) / d)
          (py c1 + (a * (py c2 - py c1) + k * (px c2 - px c1)) / d) in
      on_circle c1 r1 q /\ on_circle c2 r2 q).
    { intros k Hk. cbv zeta. set (X := px c2 - px c1) in *. set (Y := py c2 - py c1) in *.
      assert (D2 : d * d = X * X + Y * Y) by (rewrite DD; unfold X, Y; ring).
      split; apply euclid_unique; auto; cbn [px py].
      - apply Rmult_eq_reg_r with (d * d); [|nra].
        transitivity ((a * a + k * k) * (X * X + Y * Y)); [rewrite <- D2, Hk, HH; ring|field; lra].
      - replace (px c2) with (px c1 + X) by (unfold X; ring). replace (py c2) with (py c1 + Y) by (unfold Y; ring).
        apply Rmult_eq_reg_r with (d * d); [|nra].
        replace (r2 * r2 * (d * d)) with (((d - a) * (d - a) + k * k) * (d * d)) by (rewrite Hk, HH; nra).
        rewrite D2 at 1. field. lra. }
    split; apply G; ring.
  Qed.
  Lemma circles_tangent (c1 c2 : Pt) (r : R) p : 
    intersect_circle c1 r c2 r = Ok [p] -> Rabs (euclid c1 c2 - (r + r)) < EPS /\
      euclid c1 p = euclid c1 c2 / 2 /\ euclid c2 p = euclid c1 c2 / 2.
  Proof.
    unfold intersect_circle. rewrite seg_len_llen. unfold seg_len. cbn [p1 p2]. rnum.
    set (d := euclid c1 c2). destruct (Rltb _ d); [discriminate|]. destruct (Rltb d _); [discriminate|].
    destruct (is_zero d) eqn:Z; [discriminate|].
    destruct (feq d (r + r)) eqn:F.
    - intros Q. injection Q as <-. unfold feq in F. rnum. apply Rltb_true in F. split; [exact F|].
      rewrite midpoint_spec.
      rewrite <- (at_param_0 (Ln c1 c2)) at 1. rewrite euclid_at.
      rewrite <- (at_param_1 (Ln c1 c2)) at 2. rewrite euclid_at.
      unfold seg_len. cbn [p1 p2]. fold d. split.
      + rewrite Rabs_left by lra. lra.
      + rewrite Rabs_pos_eq by lra. lra.
    - unfold pydiv. rnum. destruct (Reqb _ _); [discriminate|]. cbn [rbind]. destruct (Rltb _ _); discriminate.
  Qed.

  (** ** arcs: the centre computed from end points, radius and sweep *)
  Lemma half_angle t : cos t = cos (t / 2) * cos (t / 2) - sin (t / 2) * sin (t / 2) /\ sin t = 2 * sin (t / 2) * cos (t / 2).
  Proof. split; [rewrite <- cos_2a|rewrite <- sin_2a]; f_equal; lra. Qed.

  Lemma calc_center_wf (a b : Pt) (r t : R) : 0 < r -> t <> 0 -> - PI <= t <= PI ->
    EPS <= euclid a b -> euclid a b = 2 * r * Rabs (sin (t / 2)) ->
    exists c, calc_center a b r t = Ok c /\ wf_arc (mkarc a b r t c).
  Proof.
    intros Hr Ht Rt Hd Hc. pose proof PI_RGT_0. unfold calc_center.
    apply peq_false in Hd as Hp; auto. rewrite Hp. rewrite seg_len_llen. unfold seg_len. cbn [p1 p2]. rnum.
    set (d := euclid a b) in *.
    set (S := sin (t / 2)) in *. set (C := cos (t / 2)).
    assert (SC : S * S + C * C = 1) by (pose proof (sin2_cos2 (t / 2)) as Q; unfold Rsqr in Q; exact Q).
    assert (Cp : 0 <= C) by (apply cos_ge_0; lra).
    assert (Sn : S <> 0). { intro Z. rewrite Z, Rabs_R0 in Hc. lra. }
    assert (AA : Rabs S * Rabs S = S * S) by (rewrite <- Rabs_mult; apply Rabs_pos_eq; nra).
    assert (RAD : r * r - d * d / 4 = (r * C) * (r * C)).
    { rewrite Hc. replace (2 * r * Rabs S * (2 * r * Rabs S) / 4) with (r * r * (Rabs S * Rabs S)) by field.
      rewrite AA. replace (S * S) with (1 - C * C) by lra. ring. }
    unfold pysqrt, pydiv. rnum. rewrite RAD.
    destruct (Rltb _ 0) eqn:Z1; [apply Rltb_true in Z1; nra|]. cbn [rbind].
    destruct (Reqb d 0) eqn:Z2; [apply Reqb_true in Z2; lra|]. cbn [rbind].
    rewrite sqrt_square by nra.
    eexists. split; [reflexivity|].
    set (sg := if Rltb 0 t then 1 else - (1)).
    assert (SG : sg * Rabs S = S).
    { unfold sg. destruct (Rltb 0 t) eqn:Q; rbool.
      - rewrite Rabs_pos_eq; [ring|]. apply sin_ge_0; lra.
      - rewrite Rabs_left1; [ring|]. unfold S. replace (t / 2) with (- (- t / 2)) by lra. rewrite sin_neg.
        pose proof (sin_ge_0 (- t / 2)). lra. }
    assert (SG2 : sg * sg = 1) by (unfold sg; destruct (Rltb 0 t); ring).
    (* sg * r * C / d = C / (2 S) *)
    assert (KK : sg * (r * C) / d = C / (2 * S)).
    { apply Rmult_eq_reg_r with (d * (2 * S)); [|apply Rmult_integral_contrapositive; split; lra].
      transitivity (sg * (r * C) * (2 * S)); [field; lra|]. transitivity (C * d); [|field; lra].
      transitivity (sg * (r * C) * (2 * (sg * Rabs S))); [rewrite SG; ring|]. rewrite Hc.
      transitivity ((sg * sg) * (r * C * 2 * Rabs S)); [ring|]. rewrite SG2. ring. }
    rewrite midpoint_spec. unfold wf_arc. cbn [radius ap1 ap2 center sweep].
    assert (CE : P (px (at_param (Ln a b) (1 / 2)) - sg * (r * C) * ((py b - py a) / d))%R
                   (py (at_param (Ln a b) (1 / 2)) + sg * (r * C) * ((px b - px a) / d))%R =
       P ((px a + px b) / 2 - C / (2 * S) * (py b - py a))%R ((py a + py b) / 2 + C / (2 * S) * (px b - px a))%R :> Pt).
    { rewrite <- KK. unfold at_param. cbn [p1 p2 px py]. ptx; field; lra. }
    rewrite CE. clear CE.
    pose proof (euclid_sqr a b) as DD. fold d in DD.
    split; [exact Hr|split].
    - apply euclid_unique; [lra|]. cbn [px py].
      set (X := px b - px a) in *. set (Y := py b - py a) in *.
      replace (px a - ((px a + px b) / 2 - C / (2 * S) * Y)) with (- X / 2 + C / (2 * S) * Y) by (unfold X; field; lra).
      replace (py a - ((py a + py b) / 2 + C / (2 * S) * X)) with (- Y / 2 - C / (2 * S) * X) by (unfold Y; field; lra).
      assert (D2 : d * d = X * X + Y * Y) by (rewrite DD; unfold X, Y; ring).
      assert (D3 : d * d = 4 * (r * r) * (S * S)).
      { rewrite Hc. replace (2 * r * Rabs S * (2 * r * Rabs S)) with (4 * (r * r) * (Rabs S * Rabs S)) by ring. rewrite AA. ring. }
      apply Rmult_eq_reg_r with (4 * (S * S)); [|nra].
      transitivity ((S * S + C * C) * (X * X + Y * Y)); [rewrite SC, <- D2, D3; ring|field; lra].
    - unfold turned. cbn [px py]. destruct (half_angle t) as [-> ->]. fold S C.
      set (k := C / (2 * S)) in *. assert (CK : C = 2 * S * k) by (unfold k; field; lra).
      assert (SK : S * S + 4 * (S * S) * (k * k) = 1) by (rewrite <- SC, CK; ring).
      apply pt_ext; cbn [px py]; toR; rewrite CK.
      + apply Rplus_eq_reg_l with (- ((px a + px b) / 2 - k * (py b - py a))).
        transitivity ((S * S + 4 * (S * S) * (k * k)) * ((px b - px a) / 2 + k * (py b - py a)));
          [rewrite SK; field|field].
      + apply Rplus_eq_reg_l with (- ((py a + py b) / 2 + k * (px b - px a))).
        transitivity ((S * S + 4 * (S * S) * (k * k)) * ((py b - py a) / 2 - k * (px b - px a)));
          [rewrite SK; field|field].
  Qed.

  (** tangent directions *)
  Lemma tangent_dir (c p : Pt) (cw : bool) : 0 < euclid p c ->
    let v := if cw then psub c p else psub p c in
    let t := @normalize_angle ROps (pangle v + pi / of_Z 2)%num (of_Z 0) in
    let k := if cw then - (1) else 1 in
    - PI <= t < PI /\ euclid p c * cos t = - k * (py p - py c) /\ euclid p c * sin t = k * (px p - px c).
  Proof.
    intros H. cbv zeta. split.
    - match goal with |- context [normalize_angle ?x _] => pose proof (normalize_range x 0) as N end. rnum. lra.
    - assert (K : Rhypot (px (if cw then psub c p else psub p c)) (py (if cw then psub c p else psub p c)) = euclid p c).
      { rewrite euclid_hypot. destruct cw; unfold psub; cbn [px py]; rnum; [rewrite <- hypot_sym; f_equal; ring|reflexivity]. }
      destruct (polar_of_normalized (if cw then psub c p else psub p c)) as [C S]; [rewrite K; exact H|].
      cbv zeta in C, S. rewrite K in C, S. destruct cw.
      + split; [etransitivity; [exact C|]|etransitivity; [exact S|]]; unfold psub; cbn [px py]; rnum; ring.
      + split; [etransitivity; [exact C|]|etransitivity; [exact S|]]; unfold psub; cbn [px py]; rnum; ring.
  Qed.
End A.

(** ** ellipses *)
Definition on_ellipse (e : ellipse ROps) (q : Pt) : Prop :=
  let x := (px q - px (ec e)) * cos (ephi e) + (py q - py (ec e)) * sin (ephi e) in
  let y := (py q - py (ec e)) * cos (ephi e) - (px q - px (ec e)) * sin (ephi e) in
  (x / erx e) * (x / erx e) + (y / ery e) * (y / ery e) = 1.
Lemma ellipse_point (e : ellipse ROps) t : erx e <> 0 -> ery e <> 0 -> on_ellipse e (epoint_at e t).
Proof.
  intros Hx Hy. unfold on_ellipse, epoint_at, padd. cbn [px py]. rnum.
  pose proof (sin2_cos2 (ephi e)) as Q1. pose proof (sin2_cos2 t) as Q2. unfold Rsqr in *.
  set (c := cos (ephi e)) in *. set (s := sin (ephi e)) in *. set (ct := cos t) in *. set (st := sin t) in *.
  match goal with |- ?x / _ * _ + ?y / _ * _ = 1 =>
    replace x with ((s * s + c * c) * (erx e * ct)) by ring; replace y with ((s * s + c * c) * (ery e * st)) by ring end.
  rewrite Q1. transitivity (st * st + ct * ct); [field; auto|exact Q2].
Qed.
