(** * GeomSvgProofs: end-point arcs in detail, and the path loop.  Over R. *)
From Verif Require Import Num NumR Geom GeomR GeomSpec GeomSpec2 GeomProofs GeomProofs2 GeomProofs3 GeomProofs4 GeomProofs5 GeomProofs7 GeomProofs8 GeomProofs9
  OffsetSpec OffsetProofs Ellipse Bezier BezierSpec BezierProofs BezierProofs2 Str Svg SvgSpec SvgProofs2 SvgDoc GeomSvg GeomSvgSpec.
From Coq Require Import ZArith Reals Lra Lia Bool List Psatz Ascii.
Import ListNotations.
Local Open Scope R_scope.

Ltac eqR := match goal with |- @eq _ ?a ?b => change (@eq R a b) end; toR.
Lemma atan2_pos y x : 0 < y -> 0 < Ratan2 y x < PI.
Proof.
  intros Hy. destruct (atan2_polar y x) as [_ S]. pose proof (atan2_range y x) as [A B]. pose proof PI_RGT_0.
  set (t := Ratan2 y x) in *. assert (Hh : 0 <= Rhypot x y) by apply hypot_pos.
  assert (0 < sin t). { destruct (Rle_lt_dec (sin t) 0); [|auto]. exfalso. nra. }
  destruct (Rle_lt_dec t 0) as [L|L].
  - exfalso. destruct L as [L|L]; [|rewrite L, sin_0 in *; lra]. assert (sin (- t) > 0) by (apply sin_gt_0; lra). rewrite sin_neg in *. lra.
  - split; [auto|]. destruct B as [B|B]; [auto|]. rewrite B, sin_PI in *. lra.
Qed.
Lemma atan2_neg y x : y < 0 -> - PI < Ratan2 y x < 0.
Proof.
  intros Hy. destruct (atan2_polar y x) as [_ S]. pose proof (atan2_range y x) as [A B]. pose proof PI_RGT_0.
  set (t := Ratan2 y x) in *. assert (Hh : 0 <= Rhypot x y) by apply hypot_pos.
  assert (sin t < 0). { destruct (Rle_lt_dec 0 (sin t)); [|auto]. exfalso. nra. }
  split; [auto|]. destruct (Rle_lt_dec 0 t) as [L|L]; [|auto]. exfalso.
  assert (0 <= sin t) by (apply sin_ge_0; lra). lra.
Qed.
(** The sign of angle2 about the origin. *)
Section A.
  Context {E : Epsilon ROps}.
  Hypothesis He : 0 < EPS.
  Lemma angle2_sign (a b : Pt) : EPS <= euclid a b ->
    angle2 (P 0 0) a b = Ratan2 (px a * py b - px b * py a) (px a * px b + py a * py b).
  Proof.
    intros D. unfold angle2. rewrite (proj2 (peq_false He _ _)).
    - unfold cross, dot, psub. cbn [px py]. rnum. f_equal; ring.
    - replace (euclid _ _) with (euclid a b); auto. destruct a, b. unfold euclid, Rsqr. gunf. f_equal. ring.
  Qed.

  (** The quantities of from_endpoints. *)
  Lemma endpoints_shape (a b : Pt) (rx ry : R) large flag phi :
    a <> b -> EPS <= Rabs rx -> EPS <= Rabs ry ->
    let xp := (cos phi * (px a - px b) - sin phi * (py a - py b)) / 2 in
    let yp := (sin phi * (px a - px b) + cos phi * (py a - py b)) / 2 in
    let zz := xp * xp / (Rabs rx * Rabs rx) + yp * yp / (Rabs ry * Rabs ry) in
    let sg := if Bool.eqb large flag then -1 else 1 in
    exists arc k t, earc_from_endpoints a b rx ry large flag phi = Ok (Some arc) /\
      (zz <= 1 -> k = 1) /\ (1 < zz -> k * k = zz) /\ 1 <= k /\
      let u := k * Rabs rx in let v := k * Rabs ry in
      0 <= t /\ t * t * (u * u * (yp * yp) + v * v * (xp * xp)) = u * u * (v * v) - (u * u * (yp * yp) + v * v * (xp * xp)) /\
      let cx := sg * t * (u * yp / v) in let cy := - (sg * t * (v * xp / u)) in
      ea_rx arc = u /\ ea_ry arc = v /\ ea_phi arc = phi /\ ea_p1 arc = a /\ ea_p2 arc = b /\
      ea_c arc = P ((px a + px b) / 2 + (cos phi * cx + sin phi * cy)) ((py a + py b) / 2 + (cos phi * cy - sin phi * cx)) /\
      ea_start arc = angle2 (P 0 0) (P 1 0) (P ((xp - cx) / u) ((yp - cy) / u)) /\
      ea_sweep arc = angle2 (P 0 0) (P ((xp - cx) / u) ((yp - cy) / u)) (P ((- xp - cx) / u) ((- yp - cy) / u)).
  Proof.
    intros Hab Hx Hy xp0 yp0 zz0 sg0. unfold earc_from_endpoints.
    rewrite (proj2 (isz_false rx) Hx), (proj2 (isz_false ry) Hy). cbn [orb]. unfold protate. rewrite !apply_rotate. rnum.
    set (X := Rabs rx) in *. set (Y := Rabs ry) in *. change (T ROps) with R in *.
    set (pr := turned (P 0 0) phi (P ((px (psub a b) : R) / 2) (py (psub a b) / 2))).
    set (xp := px pr). set (yp := py pr).
    assert (XX : 0 < X) by lra. assert (YY : 0 < Y) by lra. assert (XX' : 0 <= X) by lra. assert (YY' : 0 <= Y) by lra.
    pose proof (sin2_cos2 phi) as Q. unfold Rsqr in Q.
    assert (XP : xp = xp0).
    { unfold xp0, xp, pr, turned, psub. cbn [px py]. rnum. field. }
    assert (YP : yp = yp0).
    { unfold yp0, yp, pr, turned, psub. cbn [px py]. rnum. field. }
    rewrite XP, YP in *. clearbody xp yp. subst xp yp. clear pr. 
    assert (PP : 0 < xp0 * xp0 + yp0 * yp0).
    { replace (xp0 * xp0 + yp0 * yp0) with ((sin phi * sin phi + cos phi * cos phi) * ((px a - px b) * (px a - px b) + (py a - py b) * (py a - py b)) / 4)
        by (unfold xp0, yp0; field).
      rewrite Q. pose proof (euclid_sqr a b) as D. rewrite <- D.
      assert (0 < euclid a b). { destruct (euclid_pos a b); auto. exfalso. apply Hab, euclid_zero. auto. }
      nra. }
    clearbody xp0 yp0. rename xp0 into xp, yp0 into yp. unfold pydiv. rnum.
    destruct (Reqb (X * X) 0) eqn:Z1; [apply Reqb_true in Z1; nra|]. cbn [rbind].
    destruct (Reqb (Y * Y) 0) eqn:Z2; [apply Reqb_true in Z2; nra|]. cbn [rbind].
    fold zz0. rename zz0 into zz.
    assert (ZP : 0 < zz).
    { unfold zz. replace (xp * xp / (X * X) + yp * yp / (Y * Y)) with
        ((xp * xp * (Y * Y) + yp * yp * (X * X)) / (X * X * (Y * Y))) by (field; lra).
      assert (0 < X * X) by nra. assert (0 < Y * Y) by nra.
      apply Rdiv_lt_0_compat; [|nra]. 
      destruct (Req_dec xp 0) as [X0|X0]; [assert (0 < yp * yp) by (rewrite X0 in PP; lra); nra|].
      assert (0 < xp * xp) by nra. assert (0 <= yp * yp) by nra. nra. }
    set (k := if Rltb 1 zz then R_sqrt.sqrt zz else 1).
    assert (KP : (if Rltb 1 zz then (R_sqrt.sqrt zz * X, R_sqrt.sqrt zz * Y) else (X, Y)) = (k * X, k * Y)).
    { unfold k. destruct (Rltb 1 zz); [reflexivity|]. rewrite !Rmult_1_l. reflexivity. }
    assert (K1 : 1 <= k /\ zz <= k * k /\ (zz <= 1 -> k = 1) /\ (1 < zz -> k * k = zz)).
    { unfold k. destruct (Rltb 1 zz) eqn:Z; rbool; [|lra]. assert (S : R_sqrt.sqrt zz * R_sqrt.sqrt zz = zz) by (apply sqrt_sqrt; lra).
      pose proof (sqrt_pos zz). repeat split; try nra. }
    rewrite KP. clear KP. clearbody k. assert (KK : 0 < k) by lra. assert (KK' : 0 <= k) by lra.
    set (u := k * X). set (v := k * Y).
    assert (U : 0 < u) by (unfold u; nra). assert (V : 0 < v) by (unfold v; nra).
    set (t2 := u * u * (yp * yp) + v * v * (xp * xp)).
    assert (T2 : t2 = zz * (k * k) * (X * X) * (Y * Y)) by (unfold t2, zz, u, v; field; lra).
    assert (T2P : 0 < t2). { rewrite T2. assert (0 < X * X) by nra. assert (0 < Y * Y) by nra. assert (0 < k * k) by nra.
      repeat apply Rmult_lt_0_compat; auto. }
    destruct (Reqb t2 0) eqn:Z3; [apply Reqb_true in Z3; lra|]. cbn [rbind].
    set (t3 := (u * u * (v * v) - u * u * (yp * yp) - v * v * (xp * xp)) / t2).
    assert (T3 : t3 * t2 = u * u * (v * v) - t2) by (unfold t3; unfold t2 at 3; field; lra).
    assert (T3P : 0 <= t3).
    { assert (0 <= t3 * t2); [|nra]. rewrite T3, T2. unfold u, v.
      replace (k * X * (k * X) * (k * Y * (k * Y)) - zz * (k * k) * (X * X) * (Y * Y)) with
        ((k * k - zz) * ((k * X) * (k * X)) * (Y * Y)) by ring.
      assert (0 <= k * k - zz) by lra. assert (0 <= (k * X) * (k * X)) by nra. assert (0 <= Y * Y) by nra.
      repeat apply Rmult_le_pos; auto. }
    unfold pysqrt. rnum. destruct (Rltb t3 0) eqn:Z4; [apply Rltb_true in Z4; lra|]. cbn [rbind].
    set (t4 := R_sqrt.sqrt t3). assert (T4 : t4 * t4 = t3) by (apply sqrt_sqrt; auto). assert (T4P : 0 <= t4) by apply sqrt_pos.
    clearbody t4.
    destruct (Reqb v 0) eqn:Z5; [apply Reqb_true in Z5; lra|]. cbn [rbind].
    destruct (Reqb u 0) eqn:Z6; [apply Reqb_true in Z6; lra|]. cbn [rbind].
    assert (SGE : (if Bool.eqb large flag then (- (t4 * (u * yp / v)), - (t4 * - (v * xp / u))) else
      (t4 * (u * yp / v), t4 * - (v * xp / u))) = (sg0 * t4 * (u * yp / v), - (sg0 * t4 * (v * xp / u)))).
    { unfold sg0. destruct (Bool.eqb large flag); f_equal; ring. }
    rewrite SGE. clear SGE. clearbody sg0.
    set (cx := sg0 * t4 * (u * yp / v)). set (cy := - (sg0 * t4 * (v * xp / u))).
    eexists _, k, t4. split; [reflexivity|]. split; [apply K1|]. split; [apply K1|]. split; [apply K1|].
    split; [exact T4P|]. split; [rewrite T4; exact T3|]. cbn [ea_p1 ea_p2 ea_rx ea_ry ea_c ea_phi ea_start ea_sweep].
    repeat (split; [reflexivity|]). split; [|split; reflexivity].
    rewrite apply_rotate. unfold turned, Geom.padd. cbn [px py]. rnum. rewrite cos_neg, sin_neg. apply pt_ext; cbn [px py]; eqR; fold u v cx cy; first [field | symmetry; field].
  Qed.

  (** Which way a non-degenerate end-point arc turns. *)
  Lemma endpoints_turn (a b : Pt) (rx ry : R) large flag phi arc :
    a <> b -> EPS <= Rabs rx -> EPS <= Rabs ry ->
    let xp := (cos phi * (px a - px b) - sin phi * (py a - py b)) / 2 in
    let yp := (sin phi * (px a - px b) + cos phi * (py a - py b)) / 2 in
    xp * xp / (Rabs rx * Rabs rx) + yp * yp / (Rabs ry * Rabs ry) < 1 ->
    EPS * Rabs rx <= euclid a b ->
    earc_from_endpoints a b rx ry large flag phi = Ok (Some arc) ->
    if Bool.eqb large flag then - PI < ea_sweep arc < 0 else 0 < ea_sweep arc < PI.
  Proof.
    intros Hab Hx Hy xp yp Hz Hc Q.
    destruct (endpoints_shape a b rx ry large flag phi Hab Hx Hy) as (arc' & k & t & Q' & K1 & _ & _ & T0 & TT & _ & _ & _ & _ & _ & _ & _ & S).
    fold xp yp in K1, TT, S. rewrite Q in Q'. assert (arc' = arc) by (injection Q'; auto). subst arc'. clear Q'.
    specialize (K1 (Rlt_le _ _ Hz)). subst k. rewrite !Rmult_1_l in *.
    set (X := Rabs rx) in *. set (Y := Rabs ry) in *. assert (XX : 0 < X) by lra. assert (YY : 0 < Y) by lra.
    pose proof (sin2_cos2 phi) as Q2. unfold Rsqr in Q2.
    assert (DD : 4 * (xp * xp + yp * yp) = euclid a b * euclid a b).
    { rewrite (euclid_sqr a b). transitivity ((sin phi * sin phi + cos phi * cos phi) * ((px a - px b) * (px a - px b) + (py a - py b) * (py a - py b)));
        [unfold xp, yp; field|rewrite Q2; ring]. }
    assert (EP : 0 < euclid a b) by nra.
    assert (PP : 0 < xp * xp + yp * yp) by nra.
    clearbody xp yp. change (T ROps) with R in *.
    set (t2 := X * X * (yp * yp) + Y * Y * (xp * xp)) in *.
    assert (T2 : 0 < t2).
    { unfold t2. destruct (Req_dec xp 0) as [X0|X0]; [rewrite X0 in *; assert (0 < yp * yp) by lra; assert (0 < X * X) by nra; nra|].
      assert (0 < xp * xp) by nra. assert (0 <= yp * yp) by nra. assert (0 < X * X) by nra. assert (0 < Y * Y) by nra. nra. }
    assert (T2' : t2 < X * X * (Y * Y)).
    { replace t2 with ((xp * xp / (X * X) + yp * yp / (Y * Y)) * (X * X * (Y * Y))) by (unfold t2; field; lra).
      assert (0 < X * X * (Y * Y)) by (repeat apply Rmult_lt_0_compat; auto). nra. }
    assert (TP : 0 < t). { destruct T0 as [T0|T0]; [auto|]. subst t. rewrite !Rmult_0_l in TT. lra. }
    rewrite angle2_sign in S.
    2:{ match goal with |- _ <= ?d => assert (D2 : d = euclid a b / X) end.
        { apply euclid_unique; [apply Rlt_le, Rdiv_lt_0_compat; auto|]. cbn [px py].
          transitivity ((euclid a b * euclid a b) / (X * X)); [field; lra|]. rewrite <- DD. field. lra. }
        rewrite D2. apply Rmult_le_reg_r with X; auto. replace (euclid a b / X * X) with (euclid a b) by (field; lra). auto. }
    cbn [px py] in S. rewrite S.
    set (sg := if Bool.eqb large flag then -1 else 1) in *.
    match goal with |- context [Ratan2 ?y ?x] => assert (YE : y = sg * (2 * t * t2 / (X * X * (X * Y)))) by (unfold t2; field; lra); rewrite YE end.
    assert (PV : 0 < 2 * t * t2 / (X * X * (X * Y))). { apply Rdiv_lt_0_compat; repeat apply Rmult_lt_0_compat; auto; lra. }
    destruct (Bool.eqb large flag); unfold sg.
    - apply atan2_neg. lra.
    - apply atan2_pos. lra.
  Qed.

  (** The circular arc made from end points: the arc of the right circle, but always the shorter way round. *)
  Lemma circle_arc (a b : Pt) (r : R) large flag phi tb :
    EPS <= r -> EPS * r <= euclid a b < 2 * r ->
    exists c, arc_segments a b r r phi large flag tb = Ok [GArc c] /\ wf_arc c /\ ap1 c = a /\ ap2 c = b /\ radius c = r /\
      if Bool.eqb large flag then - PI < sweep c < 0 else 0 < sweep c < PI.
  Proof.
    intros Hr [Hd Hd2]. assert (R0 : 0 < r) by lra. assert (AR : Rabs r = r) by (apply Rabs_pos_eq; lra).
    assert (EP : 0 < euclid a b) by nra.
    assert (Hab : a <> b). { intros ->. rewrite (proj2 (euclid_zero b b) eq_refl) in EP. lra. }
    assert (HR : EPS <= Rabs r) by lra.
    pose proof (endpoints_turn a b r r large flag phi) as TU.
    destruct (endpoints_shape a b r r large flag phi Hab HR HR) as (arc & k & t & Q & K1 & _ & _ & T0 & TT & Q1 & Q2 & Q3 & Q4 & Q5 & C & _ & S).
    specialize (TU arc Hab HR HR). cbv zeta in TU, K1. rewrite AR in *.
    set (xp := (cos phi * (px a - px b) - sin phi * (py a - py b)) / 2) in *.
    set (yp := (sin phi * (px a - px b) + cos phi * (py a - py b)) / 2) in *.
    pose proof (sin2_cos2 phi) as SC. unfold Rsqr in SC.
    assert (DD : 4 * (xp * xp + yp * yp) = euclid a b * euclid a b).
    { rewrite (euclid_sqr a b). transitivity ((sin phi * sin phi + cos phi * cos phi) * ((px a - px b) * (px a - px b) + (py a - py b) * (py a - py b)));
        [unfold xp, yp; field|rewrite SC; ring]. }
    assert (ZZ : xp * xp / (r * r) + yp * yp / (r * r) < 1).
    { replace (xp * xp / (r * r) + yp * yp / (r * r)) with ((xp * xp + yp * yp) / (r * r)) by (field; lra).
      apply Rmult_lt_reg_r with (r * r); [nra|]. replace ((xp * xp + yp * yp) / (r * r) * (r * r)) with (xp * xp + yp * yp) by (field; lra). nra. }
    specialize (TU ZZ ltac:(lra) Q). specialize (K1 (Rlt_le _ _ ZZ)). subst k. rewrite !Rmult_1_l in *.
    set (sg := if Bool.eqb large flag then -1 else 1) in *.
    assert (SG : sg * sg = 1) by (unfold sg; destruct (Bool.eqb large flag); ring).
    unfold arc_segments. rewrite Q. cbn [rbind].
    assert (F : feq r r = true). { unfold feq. rnum. apply Rltb_true. replace (r - r) with 0 by ring. rewrite Rabs_R0. exact He. }
    rewrite F. eexists. split; [reflexivity|]. cbn [ap1 ap2 radius sweep].
    assert (X1 : cos phi * xp + sin phi * yp = (px a - px b) / 2).
    { transitivity ((sin phi * sin phi + cos phi * cos phi) * (px a - px b) / 2); [unfold xp, yp; field|rewrite SC; field]. }
    assert (Y1 : cos phi * yp - sin phi * xp = (py a - py b) / 2).
    { transitivity ((sin phi * sin phi + cos phi * cos phi) * (py a - py b) / 2); [unfold xp, yp; field|rewrite SC; field]. }
    clearbody xp yp sg. change (T ROps) with R in *.
    set (cx := sg * t * (r * yp / r)) in *. set (cy := - (sg * t * (r * xp / r))) in *.
    assert (CX : cx = sg * t * yp) by (unfold cx; field; lra). assert (CY : cy = - (sg * t * xp)) by (unfold cy; field; lra).
    clearbody cx cy.
    assert (NN : (1 + t * t) * (xp * xp + yp * yp) = r * r).
    { assert (Z : r * r * ((1 + t * t) * (xp * xp + yp * yp)) = r * r * (r * r)) by (clear - TT; nra).
      apply Rmult_eq_reg_l with (r * r); [exact Z|nra]. }
    set (v1 := P ((xp - cx) / r) ((yp - cy) / r) : Pt) in *. set (v2 := P ((- xp - cx) / r) ((- yp - cy) / r) : Pt) in *.
    assert (N1 : euclid v1 (P 0 0) = 1).
    { apply euclid_unique; [lra|]. unfold v1. cbn [px py]. rewrite CX, CY.
      transitivity ((r * r) / (r * r)); [field; lra|]. rewrite <- NN at 1.
      transitivity ((1 + (sg * sg) * (t * t)) * (xp * xp + yp * yp) / (r * r)); [rewrite SG; field; lra|field; lra]. }
    assert (N2 : euclid v2 (P 0 0) = 1).
    { apply euclid_unique; [lra|]. unfold v2. cbn [px py]. rewrite CX, CY.
      transitivity ((r * r) / (r * r)); [field; lra|]. rewrite <- NN at 1.
      transitivity ((1 + (sg * sg) * (t * t)) * (xp * xp + yp * yp) / (r * r)); [rewrite SG; field; lra|field; lra]. }
    assert (D12 : euclid v1 v2 = euclid a b / r).
    { apply euclid_unique; [apply Rlt_le, Rdiv_lt_0_compat; auto|]. unfold v1, v2. cbn [px py].
      transitivity ((euclid a b * euclid a b) / (r * r)); [field; lra|]. rewrite <- DD. field. lra. }
    assert (TN : turned (P 0 0) (ea_sweep arc) v1 = v2).
    { rewrite S. apply (angle2_turned He (P 0 0) v1 v2 1); auto; [lra|]. rewrite D12.
      apply Rmult_le_reg_r with r; auto. replace (euclid a b / r * r) with (euclid a b) by (field; lra). auto. }
    pose proof (f_equal (fun q : Pt => r * px q) TN) as TX. pose proof (f_equal (fun q : Pt => r * py q) TN) as TY.
    unfold turned, v1, v2 in TX, TY. cbn [px py] in TX, TY.
    set (w := ea_sweep arc) in *. clearbody w.
    assert (TX' : cos w * (xp - cx) - sin w * (yp - cy) = - xp - cx).
    { transitivity (r * ((- xp - cx) / r)); [rewrite <- TX; field; lra|field; lra]. }
    assert (TY' : sin w * (xp - cx) + cos w * (yp - cy) = - yp - cy).
    { transitivity (r * ((- yp - cy) / r)); [rewrite <- TY; field; lra|field; lra]. }
    split; [|split; [reflexivity|split; [reflexivity|split; [reflexivity|exact TU]]]].
    split; [exact R0|]. cbn [ap1 ap2 radius sweep center]. rewrite C.
    assert (EX : px a - ((px a + px b) / 2 + (cos phi * cx + sin phi * cy)) = cos phi * (xp - cx) + sin phi * (yp - cy)) by (clear - X1; toR; lra).
    assert (EY : py a - ((py a + py b) / 2 + (cos phi * cy - sin phi * cx)) = cos phi * (yp - cy) - sin phi * (xp - cx)) by (clear - Y1; toR; lra).
    split.
    - apply euclid_unique; [lra|]. cbn [px py]. rewrite EX, EY.
      transitivity ((sin phi * sin phi + cos phi * cos phi) * ((xp - cx) * (xp - cx) + (yp - cy) * (yp - cy))); [|ring].
      rewrite SC, CX, CY. transitivity ((1 + (sg * sg) * (t * t)) * (xp * xp + yp * yp)); [rewrite SG, Rmult_1_l; auto|ring].
    - unfold turned. cbn [px py]. rewrite EX, EY. apply pt_ext; cbn [px py].
      + transitivity ((px a + px b) / 2 + (cos phi * cx + sin phi * cy) + (cos phi * (cos w * (xp - cx) - sin w * (yp - cy)) + sin phi * (sin w * (xp - cx) + cos w * (yp - cy)))); [|eqR; ring].
        rewrite TX', TY'. eqR. lra.
      + transitivity ((py a + py b) / 2 + (cos phi * cy - sin phi * cx) + (cos phi * (sin w * (xp - cx) + cos w * (yp - cy)) - sin phi * (cos w * (xp - cx) - sin w * (yp - cy)))); [|eqR; ring].
        rewrite TX', TY'. eqR. lra.
  Qed.
  (** When the radius does not exceed half the chord. *)
  Lemma circle_half (a b : Pt) (r : R) large flag phi tb :
    EPS <= r -> EPS < 1 -> 2 * r <= euclid a b ->
    arc_segments a b r r phi large flag tb = Ok [GArc (mkarc a b r PI (P ((px a + px b) / 2) ((py a + py b) / 2)))].
  Proof.
    intros Hr He1 Hd. assert (R0 : 0 < r) by lra. assert (AR : Rabs r = r) by (apply Rabs_pos_eq; lra).
    assert (EP : 0 < euclid a b) by nra.
    assert (Hab : a <> b). { intros ->. rewrite (proj2 (euclid_zero b b) eq_refl) in EP. lra. }
    assert (HR : EPS <= Rabs r) by lra.
    destruct (endpoints_shape a b r r large flag phi Hab HR HR) as (arc & k & t & Q & K1 & K2 & K3 & T0 & TT & Q1 & Q2 & Q3 & Q4 & Q5 & C & _ & S).
    cbv zeta in K1, K2. rewrite AR in *.
    set (xp := (cos phi * (px a - px b) - sin phi * (py a - py b)) / 2) in *.
    set (yp := (sin phi * (px a - px b) + cos phi * (py a - py b)) / 2) in *.
    pose proof (sin2_cos2 phi) as SC. unfold Rsqr in SC.
    assert (DD : 4 * (xp * xp + yp * yp) = euclid a b * euclid a b).
    { rewrite (euclid_sqr a b). transitivity ((sin phi * sin phi + cos phi * cos phi) * ((px a - px b) * (px a - px b) + (py a - py b) * (py a - py b)));
        [unfold xp, yp; field|rewrite SC; ring]. }
    clearbody xp yp. set (sg := if Bool.eqb large flag then -1 else 1) in *. clearbody sg. change (T ROps) with R in *.
    assert (ZE : xp * xp / (r * r) + yp * yp / (r * r) = (xp * xp + yp * yp) / (r * r)) by (field; lra). rewrite ZE in *. clear ZE.
    assert (UU : k * r * (k * r) = xp * xp + yp * yp).
    { replace (k * r * (k * r)) with (k * k * (r * r)) by ring.
      destruct (Rle_lt_dec ((xp * xp + yp * yp) / (r * r)) 1) as [L|L].
      - rewrite (K1 L). assert (xp * xp + yp * yp <= r * r).
        { replace (xp * xp + yp * yp) with ((xp * xp + yp * yp) / (r * r) * (r * r)) by (field; lra). nra. }
        assert (r * r <= xp * xp + yp * yp) by nra. lra.
      - rewrite (K2 L). field. lra. }
    set (u := k * r) in *. assert (UP : 0 < u) by (unfold u; nra). clearbody u.
    assert (TZ : t = 0).
    { assert (W : t * t * (u * u * (u * u)) = 0).
      { replace (u * u * (u * u)) with (u * u * (yp * yp) + u * u * (xp * xp)) by (rewrite UU at 4; ring). rewrite TT. rewrite UU at 2. ring. }
      assert (WW : 0 < u * u * (u * u)) by (repeat apply Rmult_lt_0_compat; auto).
      apply Rmult_integral in W as [W|W]; [|lra]. apply Rmult_integral in W as [W|W]; exact W. }
    subst t. rewrite !Rmult_0_r, !Rmult_0_l, !Ropp_0, !Rminus_0_r in S.
    rewrite !Rmult_0_r, !Rmult_0_l, !Ropp_0, !Rmult_0_r, !Rplus_0_r, !Rminus_0_r, !Rplus_0_r in C.
    assert (EU : euclid (P (xp / u) (yp / u)) (P (- xp / u) (- yp / u)) = 2).
    { apply euclid_unique; [lra|]. cbn [px py]. transitivity (4 * (xp * xp + yp * yp) / (u * u)); [rewrite <- UU; field; lra|field; lra]. }
    rewrite angle2_sign in S by lra. cbn [px py] in S.
    assert (SW : ea_sweep arc = PI).
    { rewrite S. replace (xp / u * (- yp / u) - - xp / u * (yp / u)) with 0 by (field; lra).
      replace (xp / u * (- xp / u) + yp / u * (- yp / u)) with (-1)
        by (transitivity (- (xp * xp + yp * yp) / (u * u)); [rewrite <- UU; field; lra|field; lra]).
      unfold Ratan2. destruct (Rlt_dec 0 (-1)); [lra|]. destruct (Rlt_dec (-1) 0); [|lra]. destruct (Rle_dec 0 0); [|lra].
      replace (0 / -1) with 0 by lra. rewrite atan_0. eqR. ring. }
    unfold arc_segments. rewrite Q. cbn [rbind].
    assert (F : feq r r = true). { unfold feq. rnum. apply Rltb_true. replace (r - r) with 0 by ring. rewrite Rabs_R0. exact He. }
    rewrite F, SW, C. reflexivity.
  Qed.
  Lemma endpoints_phi (a b : Pt) (rx ry : R) large flag phi e : earc_from_endpoints a b rx ry large flag phi = Ok (Some e) -> ea_phi e = phi.
  Proof.
    unfold earc_from_endpoints. destruct (_ || _); [discriminate|].
    destruct (pydiv _ _); cbn [rbind]; [|discriminate]. destruct (pydiv _ _); cbn [rbind]; [|discriminate].
    destruct (if Num.ltb _ _ then _ else _). destruct (pydiv _ _); cbn [rbind]; [|discriminate].
    destruct (pysqrt _); cbn [rbind]; [|discriminate]. destruct (pydiv _ _); cbn [rbind]; [|discriminate].
    destruct (pydiv _ _); cbn [rbind]; [|discriminate]. destruct (if Bool.eqb large flag then _ else _). intros Q.
    assert (Q' := f_equal (fun r => match r with Ok (Some x) => ea_phi x | _ => phi end) Q). symmetry. exact Q'.
  Qed.
End A.
