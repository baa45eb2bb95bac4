(** * BezierLen: the recursive arc length of CubicBezier.length. *)
From Verif Require Import Num NumR Geom GeomR GeomSpec GeomProofs GeomProofs2 GeomProofs4 GeomProofs5 Ellipse Bezier BezierSpec BezierProofs.
From Coq Require Import ZArith Reals Lra Lia Bool List Psatz.
Import ListNotations.
Local Open Scope R_scope.

Notation cpl := control_polygon_len.
Definition chord (b : Bez) : R := euclid (z1 b) (z2 b).
Lemma chord_le_cpl (b : Bez) : chord b <= cpl b.
Proof.
  unfold chord, control_polygon_len.
  pose proof (euclid_triangle (z1 b) (k1 b) (z2 b)). pose proof (euclid_triangle (k1 b) (k2 b) (z2 b)). lra.
Qed.

(** de Casteljau halves at [t], as plain data *)
Definition mixp (t : R) (a b : Pt) : Pt := P ((1 - t) * px a + t * px b)%R ((1 - t) * py a + t * py b)%R.
Definition left_of (t : R) (b : Bez) : Bez :=
  Bz (z1 b) (mixp t (z1 b) (k1 b)) (mixp t (mixp t (z1 b) (k1 b)) (mixp t (k1 b) (k2 b))) (on_bez b t).
Definition right_of (t : R) (b : Bez) : Bez :=
  Bz (on_bez b t) (mixp t (mixp t (k1 b) (k2 b)) (mixp t (k2 b) (z2 b))) (mixp t (k2 b) (z2 b)) (z2 b).
Lemma subdivide_halves (b : Bez) t : 0 < t < 1 -> zsubdivide b t = (left_of t b, Some (right_of t b)).
Proof.
  intros H. unfold zsubdivide. rnum.
  assert (A : Rleb t 0 = false) by (rbool; lra). assert (B : Rleb 1 t = false) by (rbool; lra).
  rewrite A, B. cbn [orb]. cbv [controlpoints_at]. unfold left_of, right_of.
  destruct b as [[a1 a2] [b1 b2] [c1 c2] [d1 d2]]. f_equal; [f_equal|f_equal; f_equal];
    apply pt_ext; cbv [mixp padd pmul px py on_bez bern3 z1 z2 k1 k2]; rnum;
    match goal with |- @eq _ ?a ?b => change (@eq R a b) end; ring.
Qed.
Lemma left_param b t s : on_bez (left_of t b) s = on_bez b (t * s).
Proof.
  destruct b as [[a1 a2] [b1 b2] [c1 c2] [d1 d2]]. unfold left_of. apply pt_ext; cbv [mixp px py on_bez bern3 z1 z2 k1 k2];
    match goal with |- @eq _ ?a ?b => change (@eq R a b) end; ring.
Qed.
Lemma right_param b t s : on_bez (right_of t b) s = on_bez b (t + (1 - t) * s).
Proof.
  destruct b as [[a1 a2] [b1 b2] [c1 c2] [d1 d2]]. unfold right_of. apply pt_ext; cbv [mixp px py on_bez bern3 z1 z2 k1 k2];
    match goal with |- @eq _ ?a ?b => change (@eq R a b) end; ring.
Qed.
Lemma euclid_mix t (a b c : Pt) : 0 <= t <= 1 -> True -> euclid a (mixp t a b) = t * euclid a b /\ euclid (mixp t a b) b = (1 - t) * euclid a b.
Proof.
  intros H _. destruct a as [a1 a2], b as [b1 b2]. rewrite !euclid_hypot. cbv [mixp px py].
  split.
  - replace (a1 - ((1 - t) * a1 + t * b1)) with (t * (a1 - b1)) by ring.
    replace (a2 - ((1 - t) * a2 + t * b2)) with (t * (a2 - b2)) by ring.
    rewrite hypot_scale, Rabs_pos_eq by lra. reflexivity.
  - replace ((1 - t) * a1 + t * b1 - b1) with ((1 - t) * (a1 - b1)) by ring.
    replace ((1 - t) * a2 + t * b2 - b2) with ((1 - t) * (a2 - b2)) by ring.
    rewrite hypot_scale, Rabs_pos_eq by lra. reflexivity.
Qed.
Lemma on_bez_mix t (b : Bez) : on_bez b t =
  mixp t (mixp t (mixp t (z1 b) (k1 b)) (mixp t (k1 b) (k2 b))) (mixp t (mixp t (k1 b) (k2 b)) (mixp t (k2 b) (z2 b))).
Proof.
  destruct b as [[a1 a2] [b1 b2] [c1 c2] [d1 d2]]. apply pt_ext; cbv [mixp px py on_bez bern3 z1 z2 k1 k2];
    match goal with |- @eq _ ?a ?b => change (@eq R a b) end; ring.
Qed.
(** corner cutting does not lengthen the control polygon *)
Lemma cpl_split b t : 0 <= t <= 1 -> cpl (left_of t b) + cpl (right_of t b) <= cpl b.
Proof.
  intros H. unfold control_polygon_len, left_of, right_of. cbn [z1 z2 k1 k2]. rewrite on_bez_mix.
  set (a := z1 b). set (c1 := k1 b). set (c2 := k2 b). set (d := z2 b).
  set (m1 := mixp t a c1). set (m2 := mixp t c1 c2). set (m3 := mixp t c2 d).
  set (n1 := mixp t m1 m2). set (n2 := mixp t m2 m3).
  destruct (euclid_mix t a c1 a H I) as [A1 A2]. destruct (euclid_mix t c1 c2 a H I) as [B1 B2].
  destruct (euclid_mix t c2 d a H I) as [C1 C2]. destruct (euclid_mix t m1 m2 a H I) as [D1 D2].
  destruct (euclid_mix t m2 m3 a H I) as [E1 E2]. destruct (euclid_mix t n1 n2 a H I) as [F1 F2].
  fold m1 in A1, A2. fold m2 in B1, B2. fold m3 in C1, C2. fold n1 in D1, D2. fold n2 in E1, E2.
  pose proof (euclid_triangle m1 c1 m2). pose proof (euclid_triangle m2 c2 m3). pose proof (euclid_triangle n1 m2 n2).
  rewrite A1, D1, F1, F2, E2, C2. nra.
Qed.
Lemma chord_split b t : chord b <= chord (left_of t b) + chord (right_of t b).
Proof. unfold chord, left_of, right_of. cbn [z1 z2]. apply euclid_triangle. Qed.

(** ** Inscribed polylines *)
Lemma increasing_weaken l : forall x y, x <= y -> increasing_from y l -> increasing_from x l.
Proof. destruct l; cbn; intros; [lra|]. split; [lra|tauto]. Qed.
Lemma increasing_le1 l : forall x, increasing_from x l -> x <= 1.
Proof. induction l as [|t r IH]; cbn; intros x H; auto. destruct H as [H1 H2]. apply IH in H2. lra. Qed.
Lemma increasing_in l : forall x t, increasing_from x l -> In t l -> x <= t <= 1.
Proof.
  induction l as [|u r IH]; cbn; intros x t H I; [tauto|]. destruct H as [H1 H2]. destruct I as [<-|I].
  - split; auto. eapply increasing_le1; eauto.
  - apply (IH u) in I; auto. lra.
Qed.
Lemma polyline_nonneg l : 0 <= polyline_len l.
Proof. induction l as [|a [|b r] IH]; cbn; try lra. cbn in IH. pose proof (euclid_pos a b). lra. Qed.
Lemma polyline_cons a b r : polyline_len (a :: b :: r) = euclid a b + polyline_len (b :: r).
Proof. reflexivity. Qed.
Lemma polyline_tail a l : polyline_len l <= polyline_len (a :: l).
Proof. destruct l as [|b r]; cbn [polyline_len]; [lra|]. pose proof (euclid_pos a b). lra. Qed.
Lemma polyline_const (p : Pt) l : (forall q, In q l -> q = p) -> polyline_len l = 0.
Proof.
  induction l as [|a [|b r] IH]; intros H; auto. rewrite polyline_cons.
  assert (a = p) by (apply H; cbn; auto). assert (b = p) by (apply H; cbn; auto). subst.
  rewrite IH by (intros; apply H; cbn in *; tauto). assert (euclid p p = 0) by (apply euclid_zero; auto). lra.
Qed.
Lemma rescale_increasing t r : t < 1 -> forall x, increasing_from x r -> t <= x ->
  increasing_from ((x - t) / (1 - t)) (map (fun s => (s - t) / (1 - t)) r).
Proof.
  intros Ht. induction r as [|u r IH]; cbn; intros x H Hx.
  - apply (Rmult_le_reg_r (1 - t)); [lra|]. unfold Rdiv. rewrite Rmult_assoc, Rinv_l by lra. lra.
  - destruct H as [H1 H2]. split; [|apply IH; auto; lra].
    apply Rmult_le_compat_r; [left; apply Rinv_0_lt_compat; lra|lra].
Qed.
Lemma map_right b t r : t < 1 -> map (on_bez (right_of t b)) (map (fun s => (s - t) / (1 - t)) r) = map (on_bez b) r.
Proof.
  intros H. rewrite map_map. apply map_ext. intros s. rewrite right_param. f_equal. field. lra.
Qed.
Lemma inscribed_le_cpl_0 n : forall r (b : Bez), length r = n -> increasing_from 0 r ->
  polyline_len (map (on_bez b) (0 :: r)) <= cpl b.
Proof.
  induction n as [|n IH]; intros r b L H.
  - destruct r; [|discriminate]. cbn. pose proof (chord_le_cpl b). pose proof (euclid_pos (z1 b) (z2 b)). unfold chord in *. lra.
  - destruct r as [|t r]; [discriminate|]. injection L as L. destruct H as [H1 H2].
    pose proof (increasing_le1 _ _ H2) as H3. cbn [map]. rewrite polyline_cons.
    change (on_bez b t :: map (on_bez b) r) with (map (on_bez b) (t :: r)).
    destruct (Req_dec t 0) as [->|N0].
    + assert (Z : euclid (on_bez b 0) (on_bez b 0) = 0) by (apply euclid_zero; auto). rewrite Z, Rplus_0_l. apply IH; auto.
    + destruct (Req_dec t 1) as [->|N1].
      * rewrite (polyline_const (on_bez b 1)).
        -- rewrite on_bez_0, on_bez_1, Rplus_0_r. apply chord_le_cpl.
        -- intros q Hq. apply in_map_iff in Hq. destruct Hq as (s & <- & Hs). f_equal.
           destruct Hs as [<-|Hs]; auto. apply (increasing_in r 1 s) in H2; auto. lra.
      * assert (Ht : 0 < t < 1) by lra.
        apply Rle_trans with (cpl (left_of t b) + cpl (right_of t b)); [|apply cpl_split; lra].
        apply Rplus_le_compat.
        -- rewrite on_bez_0. pose proof (chord_le_cpl (left_of t b)) as Q. exact Q.
        -- specialize (IH (map (fun s => (s - t) / (1 - t)) r) (right_of t b)).
           rewrite map_length in IH. specialize (IH L).
           assert (Q : increasing_from 0 (map (fun s => (s - t) / (1 - t)) r)).
           { replace 0 with ((t - t) / (1 - t)) by (field; lra). apply rescale_increasing; auto; lra. }
           specialize (IH Q). cbn [map] in IH |- *. rewrite map_right in IH by lra.
           rewrite on_bez_0 in IH. exact IH.
Qed.
Lemma inscribed_le_cpl b x : inscribed b x -> x <= cpl b.
Proof.
  intros (ts & H & ->). eapply Rle_trans; [apply (polyline_tail (on_bez b 0))|].
  change (on_bez b 0 :: map (on_bez b) ts) with (map (on_bez b) (0 :: ts)). eapply inscribed_le_cpl_0; eauto.
Qed.
Lemma inscribed_chord b : inscribed b (chord b).
Proof.
  exists [0; 1]. cbn. split; [lra|]. rewrite on_bez_0, on_bez_1. unfold chord. lra.
Qed.
Lemma increasing_app l1 : forall x l2 t, increasing_from x l1 -> (forall s, In s l1 -> s <= t) -> x <= t -> increasing_from t l2 ->
  increasing_from x (l1 ++ l2).
Proof.
  induction l1 as [|u r IH]; cbn; intros x l2 t H B Hx H2.
  - eapply increasing_weaken; eauto.
  - split; [tauto|]. apply (IH u l2 t); auto. tauto.
Qed.
Lemma polyline_app l1 l2 : polyline_len l1 + polyline_len l2 <= polyline_len (l1 ++ l2).
Proof.
  induction l1 as [|a [|b r] IH].
  - cbn. lra.
  - cbn [app]. pose proof (polyline_tail a l2). change (polyline_len [a]) with 0. lra.
  - change ((a :: b :: r) ++ l2) with (a :: b :: (r ++ l2)). rewrite !polyline_cons.
    change (b :: r ++ l2) with ((b :: r) ++ l2). lra.
Qed.
Lemma scale_increasing k l : 0 <= k -> forall x, increasing_from x l -> k <= 1 -> increasing_from (k * x) (map (Rmult k) l).
Proof.
  intros Hk. induction l as [|u r IH]; cbn; intros x H K1.
  - apply Rle_trans with (k * 1); [apply Rmult_le_compat_l; auto|lra].
  - destruct H. split; [apply Rmult_le_compat_l; auto|]. apply IH; auto.
Qed.
Lemma unscale_increasing t l : 0 <= t <= 1 -> forall x, increasing_from x l -> increasing_from (t + (1 - t) * x) (map (fun s => t + (1 - t) * s) l).
Proof.
  intros Ht. induction l as [|u r IH]; cbn; intros x H.
  - apply Rle_trans with (t + (1 - t) * 1); [|lra]. apply Rplus_le_compat_l, Rmult_le_compat_l; lra.
  - destruct H. split; [apply Rplus_le_compat_l, Rmult_le_compat_l; lra|]. apply IH; auto.
Qed.
(** polylines of the two halves join to one of the curve *)
Lemma inscribed_join b t x y : 0 <= t <= 1 -> inscribed (left_of t b) x -> inscribed (right_of t b) y ->
  exists w, inscribed b w /\ x + y <= w.
Proof.
  intros Ht (ts & H1 & ->) (us & H2 & ->).
  exists (polyline_len (map (on_bez b) (map (Rmult t) ts ++ map (fun s => t + (1 - t) * s) us))). split.
  - eexists. split; [|reflexivity]. apply increasing_app with (t := t).
    + replace 0 with (t * 0) by ring. apply scale_increasing; lra || auto.
    + intros s Hs. apply in_map_iff in Hs. destruct Hs as (v & <- & Hv). apply (increasing_in ts 0 v) in H1; auto.
      rewrite <- (Rmult_1_r t) at 2. apply Rmult_le_compat_l; lra.
    + lra.
    + replace t with (t + (1 - t) * 0) at 1 by ring. apply unscale_increasing; auto.
  - rewrite map_app, !map_map.
    rewrite (map_ext (on_bez (left_of t b)) (fun x => on_bez b (t * x))) by (intros; apply left_param).
    rewrite (map_ext (on_bez (right_of t b)) (fun x => on_bez b (t + (1 - t) * x))) by (intros; apply right_param).
    apply polyline_app.
Qed.
(** and a polyline of the curve splits *)
Lemma split_list t r : 0 <= t <= 1 -> forall x, increasing_from x r -> x <= t ->
  exists r1 r2, r = r1 ++ r2 /\ (forall s, In s r1 -> s <= t) /\ increasing_from t r2 /\ increasing_from x r1.
Proof.
  intros Ht. induction r as [|u r IH]; cbn; intros x H Hx.
  - exists [], []. cbn. repeat split; try tauto; lra.
  - destruct H as [H1 H2]. destruct (Rle_lt_dec u t) as [L|L].
    + destruct (IH u H2 L) as (r1 & r2 & -> & A & B & C). exists (u :: r1), r2. split; [reflexivity|]. split; [|split; auto].
      * cbn. intros s [<-|Hs]; auto.
      * cbn. auto.
    + exists [], (u :: r). split; [reflexivity|]. split; [cbn; tauto|]. split; [cbn; split; auto; lra|cbn; lra].
Qed.
Lemma polyline_insert l1 p l2 : polyline_len (l1 ++ l2) <= polyline_len (l1 ++ [p]) + polyline_len (p :: l2).
Proof.
  induction l1 as [|a [|b r] IH].
  - cbn [app]. pose proof (polyline_tail p l2). pose proof (polyline_nonneg [p]). lra.
  - cbn [app]. destruct l2 as [|c l2].
    + cbn. pose proof (euclid_pos a p). lra.
    + rewrite !polyline_cons. pose proof (euclid_triangle a p c). change (polyline_len [p]) with 0. lra.
  - change ((a :: b :: r) ++ l2) with (a :: b :: (r ++ l2)). change ((a :: b :: r) ++ [p]) with (a :: b :: (r ++ [p])).
    rewrite (polyline_cons a b (r ++ l2)), (polyline_cons a b (r ++ [p])).
    change (b :: r ++ l2) with ((b :: r) ++ l2). change (b :: r ++ [p]) with ((b :: r) ++ [p]). lra.
Qed.
Lemma inscribed_split b t w : 0 < t < 1 -> inscribed b w ->
  exists x y, inscribed (left_of t b) x /\ inscribed (right_of t b) y /\ w <= x + y.
Proof.
  intros Ht (ts & H & ->).
  destruct (split_list t ts ltac:(lra) 0 H ltac:(lra)) as (r1 & r2 & -> & A & B & C).
  exists (polyline_len (map (on_bez b) (r1 ++ [t]))), (polyline_len (map (on_bez b) (t :: r2))).
  split; [|split].
  - exists (map (fun s => s / t) (r1 ++ [t])). split.
    + assert (Hx : forall x r, increasing_from x r -> (forall s, In s r -> s <= t) -> x <= t ->
               increasing_from (x / t) (map (fun s => s / t) (r ++ [t]))).
      { intros x r. revert x. induction r as [|u r IH]; cbn; intros x I J K.
        - split; [|apply Req_le; field; lra]. apply Rmult_le_compat_r; [left; apply Rinv_0_lt_compat; lra|auto].
        - destruct I. split; [apply Rmult_le_compat_r; [left; apply Rinv_0_lt_compat; lra|auto]|]. apply IH; auto. }
      replace 0 with (0 / t) by (field; lra). apply Hx; auto. lra.
    + rewrite map_map. f_equal. apply map_ext. intros s. rewrite left_param. f_equal. field. lra.
  - exists (map (fun s => (s - t) / (1 - t)) (t :: r2)). split.
    + cbn. split; [apply Req_le; field; lra|]. apply rescale_increasing; try lra. auto.
    + rewrite map_right by lra. reflexivity.
  - rewrite !map_app. cbn [map]. apply polyline_insert.
Qed.

(** ** The recursion *)
Lemma hypot_tri x1 y1 x2 y2 : Rhypot (x1 + x2) (y1 + y2) <= Rhypot x1 y1 + Rhypot x2 y2.
Proof. apply hypot_triangle. Qed.
Definition bend_le (b : Bez) (M : R) : Prop :=
  Rhypot (px (z1 b) - 2 * px (k1 b) + px (k2 b)) (py (z1 b) - 2 * py (k1 b) + py (k2 b)) <= M /\
  Rhypot (px (k1 b) - 2 * px (k2 b) + px (z2 b)) (py (k1 b) - 2 * py (k2 b) + py (z2 b)) <= M.
Lemma bend_bend b : bend_le b (bend b).
Proof.
  unfold bend_le, bend. rewrite !euclid_hypot. cbn [px py]. split.
  - eapply Rle_trans; [|apply Rmax_l]. right. f_equal; ring.
  - eapply Rle_trans; [|apply Rmax_r]. right. f_equal; ring.
Qed.
Lemma third (x y : R) : Rhypot (x / 3) (y / 3) = Rhypot x y / 3.
Proof.
  replace (x / 3) with (/ 3 * x) by field. replace (y / 3) with (/ 3 * y) by field. rewrite hypot_scale, Rabs_pos_eq by lra. field.
Qed.
Lemma gap_bend b M : bend_le b M -> cpl b - chord b <= 8 / 3 * M.
Proof.
  destruct b as [[a1 a2] [b1 b2] [c1 c2] [d1 d2]]. unfold bend_le, control_polygon_len, chord.
  cbn [px py z1 z2 k1 k2]. intros [B1 B2]. rewrite !euclid_hypot. cbn [px py].
  set (D1 := Rhypot (a1 - 2 * b1 + c1) (a2 - 2 * b2 + c2)) in *.
  set (D2 := Rhypot (b1 - 2 * c1 + d1) (b2 - 2 * c2 + d2)) in *.
  set (C := Rhypot (a1 - d1) (a2 - d2)).
  assert (K : forall x y u v, Rhypot x y <= C / 3 + (u * D1 + v * D2) / 3 -> Rhypot x y <= C / 3 + (u * D1 + v * D2) / 3) by auto.
  assert (S : forall u v, 0 <= u -> 0 <= v -> forall x y, 
     Rhypot x y <= (u * D1 + v * D2) -> Rhypot ((a1 - d1) / 3 + x / 3) ((a2 - d2) / 3 + y / 3) <= C / 3 + (u * D1 + v * D2) / 3).
  { intros u v Hu Hv x y H. eapply Rle_trans; [apply hypot_tri|]. rewrite !third. unfold C. lra. }
  assert (T : forall (u v s1 s2 : R), s1 * s1 = u * u -> s2 * s2 = v * v -> 0 <= u -> 0 <= v ->
     Rhypot (s1 * (a1 - 2 * b1 + c1) + s2 * (b1 - 2 * c1 + d1)) (s1 * (a2 - 2 * b2 + c2) + s2 * (b2 - 2 * c2 + d2)) <= u * D1 + v * D2).
  { intros u v s1 s2 Q1 Q2 Hu Hv. eapply Rle_trans; [apply hypot_tri|]. rewrite !hypot_scale.
    assert (Rabs s1 = u) by (apply Rsqr_eq_abs_0 in Q1; rewrite Q1; apply Rabs_pos_eq; auto).
    assert (Rabs s2 = v) by (apply Rsqr_eq_abs_0 in Q2; rewrite Q2; apply Rabs_pos_eq; auto).
    rewrite H, H0. apply Rle_refl. }
  assert (L1 : Rhypot (a1 - b1) (a2 - b2) <= C / 3 + (2 * D1 + 1 * D2) / 3).
  { replace (a1 - b1) with ((a1 - d1) / 3 + (2 * (a1 - 2 * b1 + c1) + 1 * (b1 - 2 * c1 + d1)) / 3) by field.
    replace (a2 - b2) with ((a2 - d2) / 3 + (2 * (a2 - 2 * b2 + c2) + 1 * (b2 - 2 * c2 + d2)) / 3) by field.
    apply S; try lra. apply T; lra. }
  assert (L2 : Rhypot (b1 - c1) (b2 - c2) <= C / 3 + (1 * D1 + 1 * D2) / 3).
  { replace (b1 - c1) with ((a1 - d1) / 3 + (-1 * (a1 - 2 * b1 + c1) + 1 * (b1 - 2 * c1 + d1)) / 3) by field.
    replace (b2 - c2) with ((a2 - d2) / 3 + (-1 * (a2 - 2 * b2 + c2) + 1 * (b2 - 2 * c2 + d2)) / 3) by field.
    apply S; try lra. apply T; lra. }
  assert (L3 : Rhypot (c1 - d1) (c2 - d2) <= C / 3 + (1 * D1 + 2 * D2) / 3).
  { replace (c1 - d1) with ((a1 - d1) / 3 + (-1 * (a1 - 2 * b1 + c1) + -2 * (b1 - 2 * c1 + d1)) / 3) by field.
    replace (c2 - d2) with ((a2 - d2) / 3 + (-1 * (a2 - 2 * b2 + c2) + -2 * (b2 - 2 * c2 + d2)) / 3) by field.
    apply S; try lra. apply T; lra. }
  lra.
Qed.
Lemma bend_half b M : bend_le b M -> bend_le (left_of (1/2) b) (M / 4) /\ bend_le (right_of (1/2) b) (M / 4).
Proof.
  destruct b as [[a1 a2] [b1 b2] [c1 c2] [d1 d2]]. unfold bend_le, left_of, right_of.
  cbv [px py z1 z2 k1 k2 mixp on_bez bern3]. intros [B1 B2].
  set (D1 := Rhypot (a1 - 2 * b1 + c1) (a2 - 2 * b2 + c2)) in *.
  set (D2 := Rhypot (b1 - 2 * c1 + d1) (b2 - 2 * c2 + d2)) in *.
  assert (T : forall u v x y, 0 <= u -> 0 <= v -> u + v = / 4 ->
     x = u * (a1 - 2 * b1 + c1) + v * (b1 - 2 * c1 + d1) -> y = u * (a2 - 2 * b2 + c2) + v * (b2 - 2 * c2 + d2) ->
     Rhypot x y <= M / 4).
  { intros u v x y Hu Hv Q -> ->. eapply Rle_trans; [apply hypot_tri|]. rewrite !hypot_scale, !Rabs_pos_eq by auto. fold D1 D2.
    assert (u * D1 <= u * M) by (apply Rmult_le_compat_l; auto). assert (v * D2 <= v * M) by (apply Rmult_le_compat_l; auto).
    replace (M / 4) with (u * M + v * M); [lra|]. rewrite <- Rmult_plus_distr_r, Q. field. }
  split; split.
  - apply (T (/4) 0); try lra; field.
  - apply (T (/8) (/8)); try lra; field.
  - apply (T (/8) (/8)); try lra; field.
  - apply (T 0 (/4)); try lra; field.
Qed.

Lemma zlength_unfold fuel (b : Bez) tol : zlength fuel b tol =
  if Rltb tol (cpl b - chord b) then
    match fuel with
    | O => Raise OutOfFuel
    | S f => match zlength f (left_of (1/2) b) tol with
             | Ok l1 => match zlength f (right_of (1/2) b) tol with Ok l2 => Ok (l1 + l2)%R | Raise e => Raise e end
             | Raise e => Raise e end
    end
  else Ok (/2 * chord b + /2 * cpl b)%R.
Proof.
  destruct fuel as [|f]; cbn [zlength]; rewrite ?lit_half; change (@pdist ROps) with euclid; rnum; fold (chord b);
    change (euclid (z1 b) (k1 b) + euclid (k1 b) (k2 b) + euclid (k2 b) (z2 b)) with (cpl b);
    destruct (Rltb tol (cpl b - chord b)); auto.
  replace (/2) with (1/2) by field. rewrite subdivide_halves by lra. reflexivity.
Qed.
Lemma sqrt_quarter x : 0 <= x -> R_sqrt.sqrt (x / 4) = R_sqrt.sqrt x / 2.
Proof.
  intros H. apply sqrt_lem_1; [lra| |].
  - pose proof (sqrt_pos x). lra.
  - pose proof (sqrt_sqrt x H) as Q. lra.
Qed.
Lemma zlength_sound fuel : forall (b : Bez) tol r M, 0 <= tol -> bend_le b M -> zlength fuel b tol = Ok r ->
  exists A B, A <= B /\ r = (A + B) / 2 /\ B - A <= cpl b - chord b /\ B - A <= R_sqrt.sqrt (8 / 3 * M * tol) /\
    chord b <= A /\ B <= cpl b /\
    (exists x, inscribed b x /\ A <= x) /\ (forall x, inscribed b x -> x <= B).
Proof.
  induction fuel as [|f IH]; intros b tol r M Ht HM; rewrite zlength_unfold; destruct (Rltb tol (cpl b - chord b)) eqn:L; rbool; intros Z.
  - discriminate.
  - injection Z as <-. exists (chord b), (cpl b). pose proof (chord_le_cpl b). pose proof (gap_bend b M HM) as G.
    repeat split; auto; try lra; try (apply Rle_refl).
    + apply le_sqr; [apply sqrt_pos|]. rewrite sqrt_sqrt; [apply Rmult_le_compat; lra|apply Rmult_le_pos; lra].
    + exists (chord b). split; [apply inscribed_chord|lra].
    + apply inscribed_le_cpl.
  - destruct (zlength f (left_of (1/2) b) tol) as [l1|] eqn:Z1; [|discriminate].
    destruct (zlength f (right_of (1/2) b) tol) as [l2|] eqn:Z2; [|discriminate]. injection Z as <-.
    destruct (bend_half b M HM) as [H1 H2].
    destruct (IH _ _ _ _ Ht H1 Z1) as (A1 & B1 & O1 & R1 & G1 & S1 & C1 & P1 & (x1 & I1 & J1) & U1).
    destruct (IH _ _ _ _ Ht H2 Z2) as (A2 & B2 & O2 & R2 & G2 & S2 & C2 & P2 & (x2 & I2 & J2) & U2).
    pose proof (cpl_split b (1/2) ltac:(lra)) as CS. pose proof (chord_split b (1/2)) as HS.
    exists (A1 + A2), (B1 + B2).
    split; [lra|]. split; [subst; toR; field|]. split; [lra|]. split.
    { assert (0 <= 8 / 3 * M * tol).
      { apply Rmult_le_pos; auto. destruct HM as [Q _]. pose proof (hypot_pos (px (z1 b) - 2 * px (k1 b) + px (k2 b)) (py (z1 b) - 2 * py (k1 b) + py (k2 b))). lra. }
      replace (8 / 3 * (M / 4) * tol) with ((8 / 3 * M * tol) / 4) in S1, S2 by field.
      rewrite sqrt_quarter in S1, S2 by auto. lra. }
    split; [lra|]. split; [lra|]. split.
    { destruct (inscribed_join b (1/2) x1 x2 ltac:(lra) I1 I2) as (w & Iw & Hw). exists w. split; auto. lra. }
    intros x Ix. destruct (inscribed_split b (1/2) x ltac:(lra) Ix) as (u & v & Iu & Iv & Huv).
    apply U1 in Iu. apply U2 in Iv. lra.
  - injection Z as <-. exists (chord b), (cpl b). pose proof (chord_le_cpl b). pose proof (gap_bend b M HM) as G.
    repeat split; auto; try lra; try (apply Rle_refl).
    + apply le_sqr; [apply sqrt_pos|]. rewrite sqrt_sqrt; [apply Rmult_le_compat; lra|apply Rmult_le_pos; lra].
    + exists (chord b). split; [apply inscribed_chord|lra].
    + apply inscribed_le_cpl.
Qed.
Lemma zlength_fuel fuel : forall (b : Bez) tol M, bend_le b M -> 8 / 3 * M <= tol * 4 ^ fuel -> exists r, zlength fuel b tol = Ok r.
Proof.
  induction fuel as [|f IH]; intros b tol M HM H; rewrite zlength_unfold; destruct (Rltb tol (cpl b - chord b)) eqn:L; rbool; eauto.
  - pose proof (gap_bend b M HM). cbn in H. lra.
  - destruct (bend_half b M HM) as [H1 H2]. cbn in H.
    destruct (IH _ tol _ H1) as (r1 & ->); [lra|]. destruct (IH _ tol _ H2) as (r2 & ->); [lra|]. eauto.
Qed.
Lemma zlength_terminates (b : Bez) tol : 0 < tol -> exists n, forall fuel, (n <= fuel)%nat -> exists r, zlength fuel b tol = Ok r.
Proof.
  intros Ht. destruct (Pow_x_infinity 4 ltac:(rewrite Rabs_pos_eq; lra) (8 / 3 * bend b / tol)) as (n & Hn).
  exists n. intros fuel Hf. apply (zlength_fuel fuel b tol (bend b) (bend_bend b)).
  specialize (Hn fuel Hf). rewrite Rabs_pos_eq in Hn by (apply pow_le; lra).
  apply Rge_le in Hn. apply (Rmult_le_compat_l tol) in Hn; [|lra].
  replace (tol * (8 / 3 * bend b / tol)) with (8 / 3 * bend b) in Hn by (field; lra). lra.
Qed.
Lemma zlength_stable fuel : forall (b : Bez) tol r, zlength fuel b tol = Ok r -> forall fuel', (fuel <= fuel')%nat -> zlength fuel' b tol = Ok r.
Proof.
  induction fuel as [|f IH]; intros b tol r; rewrite zlength_unfold; intros Z fuel' Hf; rewrite zlength_unfold;
    destruct (Rltb tol (cpl b - chord b)); auto; try discriminate.
  destruct fuel' as [|f']; [lia|].
  destruct (zlength f (left_of (1/2) b) tol) as [l1|] eqn:Z1; [|discriminate].
  destruct (zlength f (right_of (1/2) b) tol) as [l2|] eqn:Z2; [|discriminate].
  rewrite (IH _ _ _ Z1 f'), (IH _ _ _ Z2 f') by lia. auto.
Qed.
Lemma arc_length_exists (b : Bez) : { L | arc_length b L }.
Proof.
  apply completeness.
  - exists (cpl b). intros x. apply inscribed_le_cpl.
  - exists (chord b). apply inscribed_chord.
Qed.
