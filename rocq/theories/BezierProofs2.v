(** * BezierProofs2: extrema, circle/arc/ellipse/sine approximations, smoothing. *)
From Verif Require Import Num NumR Geom GeomR GeomSpec GeomProofs GeomProofs2 GeomProofs3 GeomProofs4 GeomProofs5 Ellipse Bezier BezierSpec BezierProofs.
From Coq Require Import ZArith Reals Lra Lia Bool List Psatz.
Import ListNotations.
Local Open Scope R_scope.

(** ** find_extrema *)
(** derivative of a Bernstein coordinate as a quadratic A t^2 + B t + C *)
Definition qa (a b c d : R) := 3 * (- a + 3 * b - 3 * c + d).
Definition qb (a b c d : R) := 6 * (a - 2 * b + c).
Definition qc (a b c d : R) := 3 * (b - a).
Lemma d_quad a b c d t : derivable_pt_lim (bern3 a b c d) t (qa a b c d * t * t + qb a b c d * t + qc a b c d).
Proof. eapply d_ext; [apply d_bern3|reflexivity|unfold qa, qb, qc; ring]. Qed.
Lemma d_zero_iff a b c d t : derivable_pt_lim (bern3 a b c d) t 0 <-> qa a b c d * t * t + qb a b c d * t + qc a b c d = 0.
Proof.
  split; intros H.
  - eapply uniqueness_limite; [apply d_quad|exact H].
  - rewrite <- H. apply d_quad.
Qed.
Definition roots (a bb c : R) : res (list ROps) :=
  if Rleb 0 (bb * bb - 4 * a * c) then
    if Reqb (2 * a) 0 then Raise ZeroDivisionError
    else Ok [(- bb + R_sqrt.sqrt (bb * bb - 4 * a * c)) / (2 * a); (- bb - R_sqrt.sqrt (bb * bb - 4 * a * c)) / (2 * a)]
  else Ok [].
Lemma find_extrema_roots (b : Bez) : find_extrema b =
  rbind (roots (qa (px (z1 b)) (px (k1 b)) (px (k2 b)) (px (z2 b))) (qb (px (z1 b)) (px (k1 b)) (px (k2 b)) (px (z2 b)))
               (qc (px (z1 b)) (px (k1 b)) (px (k2 b)) (px (z2 b)))) (fun lx =>
  rbind (roots (qa (py (z1 b)) (py (k1 b)) (py (k2 b)) (py (z2 b))) (qb (py (z1 b)) (py (k1 b)) (py (k2 b)) (py (z2 b)))
               (qc (py (z1 b)) (py (k1 b)) (py (k2 b)) (py (z2 b)))) (fun ly =>
    Ok (filter (fun t => Rltb 0 t && Rltb t 1) (lx ++ ly)))).
Proof.
  destruct b as [[a1 a2] [b1 b2] [c1 c2] [d1 d2]]. unfold find_extrema.
  cbv beta iota zeta delta [padd psub pmul pneg px py z1 z2 k1 k2]. rnum.
  assert (Q : forall a bb c a' bb' c', a = a' -> bb = bb' -> c = c' ->
    (if Rleb 0 (bb * bb - 4 * a * c) then
       rbind (@pydiv ROps (- bb + R_sqrt.sqrt (bb * bb - 4 * a * c)) (2 * a)) (fun r1 =>
       rbind (@pydiv ROps (- bb - R_sqrt.sqrt (bb * bb - 4 * a * c)) (2 * a)) (fun r2 => Ok [r1; r2]))
     else Ok []) = roots a' bb' c').
  { intros a bb c ? ? ? <- <- <-. unfold roots, pydiv. rnum. destruct (Rleb _ _); auto. destruct (Reqb _ _); auto. }
  rewrite (Q _ _ _ (qa a1 b1 c1 d1) (qb a1 b1 c1 d1) (qc a1 b1 c1 d1)) by (unfold qa, qb, qc; ring).
  rewrite (Q _ _ _ (qa a2 b2 c2 d2) (qb a2 b2 c2 d2) (qc a2 b2 c2 d2)) by (unfold qa, qb, qc; ring).
  reflexivity.
Qed.
Lemma roots_spec a b c l : roots a b c = Ok l -> forall t, In t l <-> a * t * t + b * t + c = 0 /\ a <> 0.
Proof.
  unfold roots. destruct (Rleb 0 (b * b - 4 * a * c)) eqn:D; rbool.
  - destruct (Reqb (2 * a) 0) eqn:A; rbool; [discriminate|]. intros H. injection H as <-. intros t.
    assert (a <> 0) by lra. set (s := R_sqrt.sqrt (b * b - 4 * a * c)).
    assert (S : s * s = b * b - 4 * a * c) by (apply sqrt_sqrt; lra). split.
    + intros [<-|[<-|[]]]; split; auto.
      * replace (a * ((- b + s) / (2 * a)) * ((- b + s) / (2 * a)) + b * ((- b + s) / (2 * a)) + c)
          with ((s * s - b * b + 4 * a * c) / (4 * a)) by (field; auto). rewrite S. field; auto.
      * replace (a * ((- b - s) / (2 * a)) * ((- b - s) / (2 * a)) + b * ((- b - s) / (2 * a)) + c)
          with ((s * s - b * b + 4 * a * c) / (4 * a)) by (field; auto). rewrite S. field; auto.
    + intros [Hz _].
      assert (Q : (2 * a * t + b - s) * (2 * a * t + b + s) = 0).
      { replace ((2 * a * t + b - s) * (2 * a * t + b + s)) with (4 * a * (a * t * t + b * t + c) + (b * b - 4 * a * c - s * s)) by ring.
        rewrite Hz, S. ring. }
      apply Rmult_integral in Q. destruct Q as [Q|Q].
      * left. apply (Rmult_eq_reg_l (2 * a)); [|lra]. toR. field_simplify; try lra.
      * right. left. apply (Rmult_eq_reg_l (2 * a)); [|lra]. toR. field_simplify; try lra.
  - intros H. injection H as <-. intros t. cbn. split; [tauto|]. intros [Hz Ha].
    assert (0 <= (2 * a * t + b) * (2 * a * t + b)) by apply Rle_0_sqr.
    assert ((2 * a * t + b) * (2 * a * t + b) = b * b - 4 * a * c).
    { replace ((2 * a * t + b) * (2 * a * t + b)) with (4 * a * (a * t * t + b * t + c) + (b * b - 4 * a * c)) by ring.
      rewrite Hz. ring. }
    lra.
Qed.
Lemma roots_zero a b c : roots a b c <> Raise ZeroDivisionError <-> a <> 0.
Proof.
  unfold roots. destruct (Rleb 0 (b * b - 4 * a * c)) eqn:D; rbool.
  - destruct (Reqb (2 * a) 0) eqn:A; rbool; split; intros H; try lra; try (intro; lra); try discriminate. congruence.
  - split; [|discriminate]. intros _ ->. assert (0 <= b * b) by apply Rle_0_sqr. lra.
Qed.
Lemma roots_total a b c : a <> 0 -> exists l, roots a b c = Ok l.
Proof.
  intros H. unfold roots. destruct (Rleb _ _); eauto. destruct (Reqb (2 * a) 0) eqn:A; rbool; [lra|eauto].
Qed.
Lemma roots_ok a b c l : roots a b c = Ok l -> a <> 0.
Proof. intros H. apply (roots_zero a b c). rewrite H. discriminate. Qed.

(** ** bounding by extrema *)
Lemma interior_max_critical f a b x : (forall t, derivable_pt f t) -> a < x < b ->
  (forall t, a <= t <= b -> f t <= f x) -> derivable_pt_lim f x 0.
Proof.
  intros D Hx M. destruct (D x) as (l & Hl).
  assert (l = 0); [|subst; exact Hl].
  pose proof (deriv_maximum f a b x (exist _ l Hl) (proj1 Hx) (proj2 Hx)) as Q. cbn in Q.
  apply Q. intros t H1 H2. apply M; lra.
Qed.
Lemma bern3_derivable a b c d t : derivable_pt (bern3 a b c d) t.
Proof. eexists. apply d_quad. Qed.
Lemma bern3_max a b c d (ts : list R) m : (forall t, 0 < t < 1 -> derivable_pt_lim (bern3 a b c d) t 0 -> In t ts) ->
  a <= m -> d <= m -> (forall t, In t ts -> bern3 a b c d t <= m) -> forall t, 0 <= t <= 1 -> bern3 a b c d t <= m.
Proof.
  intros C Ha Hd Hm t Ht.
  destruct (continuity_ab_maj (bern3 a b c d) 0 1) as (x & Hx & Rx); [lra| |].
  { intros u _. apply derivable_continuous_pt. apply bern3_derivable. }
  eapply Rle_trans; [apply Hx; exact Ht|].
  destruct (Req_dec x 0) as [->|N0]; [unfold bern3; lra|].
  destruct (Req_dec x 1) as [->|N1]; [unfold bern3; lra|].
  apply Hm, C; [lra|]. apply (interior_max_critical _ 0 1); auto; [apply bern3_derivable|lra].
Qed.
Lemma bern3_neg a b c d t : bern3 (- a) (- b) (- c) (- d) t = - bern3 a b c d t.
Proof. unfold bern3. ring. Qed.
Lemma bern3_min a b c d (ts : list R) m : (forall t, 0 < t < 1 -> derivable_pt_lim (bern3 a b c d) t 0 -> In t ts) ->
  m <= a -> m <= d -> (forall t, In t ts -> m <= bern3 a b c d t) -> forall t, 0 <= t <= 1 -> m <= bern3 a b c d t.
Proof.
  intros C Ha Hd Hm t Ht.
  assert (Q : bern3 (- a) (- b) (- c) (- d) t <= - m).
  { apply (bern3_max _ _ _ _ ts); try lra; auto.
    - intros u Hu D. apply C; auto. apply d_zero_iff. apply d_zero_iff in D. unfold qa, qb, qc in *. lra.
    - intros u Hu. rewrite bern3_neg. apply Hm in Hu. lra. }
  rewrite bern3_neg in Q. lra.
Qed.

(** ** circles *)
Lemma circle_norm c s : 0 <= s <= 1/4 -> 0 <= 9 * c * c + 6 * c - 6 - (3 * c - 2) * (3 * c - 2) / 2 ->
  0 <= s * s * ((9 * c * c + 6 * c - 6) - 2 * s * ((3 * c - 2) * (3 * c - 2))).
Proof.
  intros Hs Hc. apply Rmult_le_pos; [apply Rle_0_sqr|].
  assert (0 <= (3 * c - 2) * (3 * c - 2)) by apply Rle_0_sqr. nra.
Qed.
Lemma quadrant_norm (c r t : R) : 
  let x := bern3 r r (c * r) 0 t in let y := bern3 0 (c * r) r r t in
  x * x + y * y = r * r * (1 + (t * (1 - t)) * (t * (1 - t)) * ((9 * c * c + 6 * c - 6) - 2 * (t * (1 - t)) * ((3 * c - 2) * (3 * c - 2)))).
Proof. unfold bern3. cbv zeta. ring. Qed.
Definition Kc : R := 5522847498308 / 10000000000000.
Lemma kc_bounds s : 0 <= s <= 1/4 -> 0 <= s * s * ((9 * Kc * Kc + 6 * Kc - 6) - 2 * s * ((3 * Kc - 2) * (3 * Kc - 2))) <= 55 / 100000.
Proof.
  intros Hs. split.
  - apply circle_norm; auto. unfold Kc. lra.
  - unfold Kc. set (A := 9 * _ * _ + _ - 6). set (B := (3 * _ - 2) * _).
    assert (HA : A <= 5887452 / 100000000) by (unfold A; lra).
    assert (HB : 11774 / 100000 <= B) by (unfold B; lra).
    assert (0 <= s * s) by apply Rle_0_sqr.
    apply Rle_trans with (s * s * (5887452 / 100000000 - 2 * s * (11774 / 100000))).
    { apply Rmult_le_compat_l; auto. assert (s * (11774 / 100000) <= s * B) by (apply Rmult_le_compat_l; lra). lra. }
    assert (0 <= (s - 1/6) * (s - 1/6)) by apply Rle_0_sqr.
    assert (0 <= (s - 1/6) * (s - 1/6) * (s + 1/12)) by (apply Rmult_le_pos; lra).
    nra.
Qed.
Lemma lit_Kc : @lit ROps 5522847498308 (-13) = Kc.
Proof. cbn. unfold Rlit, Kc. cbn. reflexivity. Qed.
Lemma param_quarter t : 0 <= t <= 1 -> 0 <= t * (1 - t) <= 1 / 4.
Proof. intros H. split; [apply Rmult_le_pos; lra|]. assert (0 <= (t - 1/2) * (t - 1/2)) by apply Rle_0_sqr. lra. Qed.
Lemma circle_quadrant (r t : R) : 0 <= t <= 1 ->
  let x := bern3 r r (Kc * r) 0 t in let y := bern3 0 (Kc * r) r r t in
  r * r <= x * x + y * y <= r * r * (100055 / 100000).
Proof.
  intros Ht x y. unfold x, y. rewrite quadrant_norm.
  pose proof (kc_bounds (t * (1 - t)) (param_quarter t Ht)) as [A B].
  set (w := t * (1 - t) * (t * (1 - t)) * _) in *. assert (0 <= r * r) by apply Rle_0_sqr. split; nra.
Qed.
Lemma circle_points (c : Pt) (r : R) b t : In b (bezier_circle c r) -> 0 <= t <= 1 ->
  r * r <= euclid (on_bez b t) c * euclid (on_bez b t) c <= r * r * (100055 / 100000).
Proof.
  intros H Ht. rewrite euclid_sqr. unfold bezier_circle in H. rewrite lit_Kc in H.
  destruct c as [cx cy]. pose proof (circle_quadrant r t Ht) as Q. pose proof (circle_quadrant r (1 - t) ltac:(lra)) as Q'.
  cbv zeta in Q, Q'.
  destruct H as [<-|[<-|[<-|[<-|[]]]]]; unfold on_bez, padd; cbn [px py z1 z2 k1 k2]; rnum; unfold bern3 in *.
  - match goal with |- _ <= ?e <= _ => replace e with
      (bern3 r r (Kc * r) 0 t * bern3 r r (Kc * r) 0 t + bern3 0 (Kc * r) r r t * bern3 0 (Kc * r) r r t) by (unfold bern3; ring) end. exact Q.
  - match goal with |- _ <= ?e <= _ => replace e with
      (bern3 r r (Kc * r) 0 t * bern3 r r (Kc * r) 0 t + bern3 0 (Kc * r) r r t * bern3 0 (Kc * r) r r t) by (unfold bern3; ring) end. exact Q.
  - match goal with |- _ <= ?e <= _ => replace e with
      (bern3 r r (Kc * r) 0 t * bern3 r r (Kc * r) 0 t + bern3 0 (Kc * r) r r t * bern3 0 (Kc * r) r r t) by (unfold bern3; ring) end. exact Q.
  - match goal with |- _ <= ?e <= _ => replace e with
      (bern3 r r (Kc * r) 0 t * bern3 r r (Kc * r) 0 t + bern3 0 (Kc * r) r r t * bern3 0 (Kc * r) r r t) by (unfold bern3; ring) end. exact Q.
Qed.

(** ** circular arcs *)
Lemma half_tan x : cos (x / 2) <> 0 -> cos x + tan (x / 2) * sin x = 1.
Proof.
  intros H. unfold tan.
  replace (cos x) with (cos (2 * (x / 2))) by (f_equal; field). replace (sin x) with (sin (2 * (x / 2))) by (f_equal; field).
  rewrite cos_2a, sin_2a. pose proof (sin2_cos2 (x / 2)) as Q. unfold Rsqr in Q. 
  replace (cos (x / 2) * cos (x / 2) - sin (x / 2) * sin (x / 2) + sin (x / 2) / cos (x / 2) * (2 * sin (x / 2) * cos (x / 2)))
    with (sin (x / 2) * sin (x / 2) + cos (x / 2) * cos (x / 2)) by (field; auto). exact Q.
Qed.
Lemma circular_arc_mid (a : Arc_) : wf_arc a -> cos (sweep a / 4) <> 0 ->
  on_bez (bezier_circular_arc a) (1/2) = turned (center a) (sweep a / 2) (ap1 a).
Proof.
  intros (Hr & _ & H2) Hc. destruct a as [[x1 y1] [x2 y2] r th [cx cy]]. cbn [center sweep ap1 ap2 radius] in *.
  unfold turned in H2. cbn [px py] in H2. injection H2 as -> ->.
  pose proof (half_tan (th / 2)) as HT. replace (th / 2 / 2) with (th / 4) in HT by field. specialize (HT Hc).
  set (T := tan (th / 4)) in *.
  assert (C : cos th = 2 * cos (th / 2) * cos (th / 2) - 1).
  { replace th with (2 * (th / 2)) at 1 by field. rewrite cos_2a_cos. ring. }
  assert (S : sin th = 2 * sin (th / 2) * cos (th / 2)).
  { replace th with (2 * (th / 2)) at 1 by field. apply sin_2a. }
  pose proof (sin2_cos2 (th / 2)) as Q. unfold Rsqr in Q.
  unfold bezier_circular_arc, on_bez, turned, padd, psub, pmul. cbn [px py z1 z2 k1 k2 ap1 ap2 center sweep]. rnum.
  fold T. set (c := cos (th / 2)) in *. set (s := sin (th / 2)) in *. rewrite C, S.
  set (u := x1 - cx). set (v := y1 - cy).
  apply pt_ext; cbn [px py]; toR; unfold bern3.
  - replace x1 with (cx + u) by (unfold u; ring). replace y1 with (cy + v) by (unfold v; ring).
    transitivity (cx + (c + T * s) * (c * u - s * v) + T * v * (s * s + c * c - 1)); [field|rewrite HT, Q; ring].
  - replace x1 with (cx + u) by (unfold u; ring). replace y1 with (cy + v) by (unfold v; ring).
    transitivity (cy + (c + T * s) * (s * u + c * v) - T * u * (s * s + c * c - 1)); [field|rewrite HT, Q; ring].
Qed.
(** the control points are on the end tangents *)
Lemma circular_arc_tangents (a : Arc_) : let b := bezier_circular_arc a in
  dot (psub (k1 b) (z1 b)) (psub (ap1 a) (center a)) = 0 /\ dot (psub (k2 b) (z2 b)) (psub (ap2 a) (center a)) = 0.
Proof.
  destruct a as [[x1 y1] [x2 y2] r th [cx cy]]. unfold bezier_circular_arc, dot, padd, psub, pmul.
  cbn [px py z1 z2 k1 k2 ap1 ap2 center sweep]. rnum. split; toR; ring.
Qed.

(** ** ellipse *)
Lemma ellipse_loop_chain (e : ellipse ROps) fuel : forall t1 t2 t_end l, t1 <= t_end -> t1 < t2 ->
  ellipse_loop fuel e t1 t2 t_end = Ok l -> bez_chain l (epoint_at e t1) (epoint_at e t_end).
Proof.
  induction fuel as [|f IH]; intros t1 t2 te l H1 H2; cbn [ellipse_loop]; rnum; destruct (Rleb t2 te) eqn:L; rbool.
  - discriminate.
  - intros H. injection H as <-. assert (G : Rltb te t2 = true) by (rbool; lra). rewrite G.
    destruct (Rltb t1 te) eqn:T; rbool; cbn; auto. assert (t1 = te) by lra. subst. auto.
  - destruct (ellipse_loop f e t2 (t2 + PI / 2) te) as [l'|] eqn:R; [|discriminate]. intros H. injection H as <-.
    cbn [bez_chain]. split; [reflexivity|]. apply (IH t2 (t2 + PI / 2)); auto. pose proof PI_RGT_0. lra.
  - intros H. injection H as <-. assert (G : Rltb te t2 = true) by (rbool; lra). rewrite G.
    destruct (Rltb t1 te) eqn:T; rbool; cbn; auto. assert (t1 = te) by lra. subst. auto.
Qed.
Lemma ellipse_loop_fuel (e : ellipse ROps) fuel : forall t1 t2 t_end, t_end < t2 + INR fuel * (PI / 2) ->
  exists l, ellipse_loop fuel e t1 t2 t_end = Ok l /\ (length l <= S fuel)%nat.
Proof.
  induction fuel as [|f IH]; intros t1 t2 te H; cbn [ellipse_loop]; rnum; destruct (Rleb t2 te) eqn:L; rbool.
  - cbn in H. lra.
  - eexists. split; [reflexivity|]. destruct (_ && _); cbn; lia.
  - rewrite S_INR in H. destruct (IH t2 (t2 + PI / 2) te) as (l & -> & Hl); [lra|]. cbn. eexists. split; [reflexivity|]. cbn. lia.
  - eexists. split; [reflexivity|]. destruct (_ && _); cbn; lia.
Qed.
(** each curve spans at most a quarter turn of the parameter *)
Lemma ellipse_loop_quarters (e : ellipse ROps) fuel : forall t1 t2 t_end l b, t2 = t1 + PI / 2 ->
  ellipse_loop fuel e t1 t2 t_end = Ok l -> In b l ->
  exists u v, t1 <= u < v /\ v <= t_end /\ v - u <= PI / 2 /\ b = bezier_elliptical_arc e u v.
Proof.
  pose proof PI_RGT_0.
  induction fuel as [|f IH]; intros t1 t2 te l b Ht; cbn [ellipse_loop]; rnum; destruct (Rleb t2 te) eqn:L; rbool.
  - discriminate.
  - intros Hl Hb. injection Hl as <-. destruct (Rltb t1 te) eqn:T; destruct (Rltb te t2) eqn:G; rbool; cbn in Hb; try tauto.
    destruct Hb as [<-|[]]. exists t1, te. repeat split; auto; lra.
  - destruct (ellipse_loop f e t2 (t2 + PI / 2) te) as [l'|] eqn:R; [|discriminate]. intros Hl Hb. injection Hl as <-.
    destruct Hb as [<-|Hb].
    + exists t1, t2. repeat split; auto; lra.
    + destruct (IH _ _ _ _ b eq_refl R Hb) as (u & v & A & B & C & D). exists u, v. repeat split; auto; lra.
  - intros Hl Hb. injection Hl as <-. destruct (Rltb t1 te) eqn:T; destruct (Rltb te t2) eqn:G; rbool; cbn in Hb; try tauto.
    destruct Hb as [<-|[]]. exists t1, te. repeat split; auto; lra.
Qed.

(** ** sine wave *)
Lemma sine_cycle_chain (amp wl : R) : bez_chain (sine_cycle amp wl) (P 0 0) (P wl 0).
Proof.
  unfold sine_cycle, sine_quadrant, ztransform, apply, mscale. cbn [bez_chain z1 z2 k1 k2 px py m00 m01 m02 m10 m11 m12]. rnum.
  pose proof PI_RGT_0. repeat split.
  - apply pt_ext; cbn [px py]; toR; field; lra.
  - apply pt_ext; cbn [px py]; toR; field; lra.
Qed.
Lemma chain_app l1 : forall l2 s m e, bez_chain l1 s m -> bez_chain l2 m e -> bez_chain (l1 ++ l2) s e.
Proof. induction l1 as [|b r IH]; cbn; intros l2 s m e H1 H2; [subst; auto|]. destruct H1. split; eauto. Qed.
Lemma chain_transform (m : mat ROps) l : forall s e, bez_chain l s e -> bez_chain (map (fun q => ztransform q m) l) (apply m s) (apply m e).
Proof. induction l as [|b r IH]; cbn; intros s e H; [now subst|]. destruct H as [<- H]. split; [reflexivity|]. apply (IH _ _ H). Qed.
Lemma sine_wave_chain (amp wl : R) (o : Pt) n : forall i,
  bez_chain (flat_map (fun i => map (fun q => ztransform q (@translate ROps (wl * IZR (Z.of_nat i) + px o)%R (py o))) (sine_cycle amp wl)) (seq i n))
    (P (px o + INR i * wl)%R (py o)) (P (px o + INR (i + n) * wl)%R (py o)).
Proof.
  induction n as [|n IH]; intros i.
  - cbn. rewrite Nat.add_0_r. reflexivity.
  - cbn [seq flat_map]. eapply chain_app; [|replace (i + S n)%nat with (S i + n)%nat by lia; apply IH].
    pose proof (chain_transform (@translate ROps (wl * IZR (Z.of_nat i) + px o)%R (py o)) _ _ _ (sine_cycle_chain amp wl)) as Q.
    match type of Q with bez_chain ?l ?s ?e =>
      assert (S1 : s = P (px o + INR i * wl)%R (py o)); [|assert (S2 : e = P (px o + INR (S i) * wl)%R (py o))] end.
    + unfold apply, translate. apply pt_ext; cbn [px py m00 m01 m02 m10 m11 m12]; rnum; toR; rewrite ?INR_IZR_INZ; ring.
    + unfold apply, translate. apply pt_ext; cbn [px py m00 m01 m02 m10 m11 m12]; rnum; toR; rewrite ?S_INR, ?INR_IZR_INZ; ring.
    + rewrite S1, S2 in Q. exact Q.
Qed.
