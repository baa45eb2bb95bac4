(** * GeomProofs5: angles, triangles, arcs and circles over R *)
From Verif Require Import Num NumR Geom GeomR GeomSpec GeomProofs GeomProofs2 GeomProofs3 GeomProofs4 Ellipse.
From Coq Require Import ZArith Reals Lra List Bool Psatz.
Import ListNotations.
Local Open Scope R_scope.

Lemma polar_id (p : Pt) : from_polar (fst (to_polar p)) (snd (to_polar p)) = p.
Proof.
  destruct p as [x y]. unfold from_polar, to_polar, pangle, plen. cbn [fst snd px py]. rnum.
  destruct (atan2_polar y x) as [C S]. apply pt_ext; cbn [px py]; assumption.
Qed.
Lemma polar_of (r a : R) : 0 < r -> - PI < a <= PI -> to_polar (from_polar r a) = (r, a).
Proof.
  intros Hr Ha. unfold from_polar, to_polar, pangle, plen. cbn [px py]. rnum.
  f_equal; [|apply atan2_of_polar; auto].
  apply hypot_unique; [lra|]. pose proof (sin2_cos2 a) as Q. unfold Rsqr in Q. nra.
Qed.

Section A.
  Context {E : Epsilon ROps}.
  Hypothesis He : 0 < EPS.

  Lemma peq_false (a b : Pt) : peq a b = false <-> EPS <= euclid a b.
  Proof.
    unfold peq, palmost. rnum. rewrite Rltb_false.
    pose proof (euclid_sqr a b) as H. pose proof (euclid_pos a b).
    destruct a as [x y], b as [z w]; cbn [px py] in *. rnum. rewrite <- H. split; nra.
  Qed.
  Lemma peq_true (a b : Pt) : peq a b = true <-> euclid a b < EPS.
  Proof.
    destruct (peq a b) eqn:H; [|apply peq_false in H; split; intro; [discriminate|lra]].
    split; auto. intros _. destruct (Rlt_le_dec (euclid a b) EPS) as [L|L]; auto.
    apply peq_false in L. congruence.
  Qed.

  Lemma angle2_turns (o a b : Pt) : o <> a -> o <> b -> EPS <= euclid a b ->
    turned o (angle2 o a b) a = at_param (Ln o b) (euclid o a / euclid o b).
  Proof.
    intros Ha Hb D. unfold angle2.
    assert (F : peq (psub a o) (psub b o) = false).
    { apply peq_false. replace (euclid (psub a o) (psub b o)) with (euclid a b); auto.
      destruct o, a, b. unfold euclid, Rsqr. gunf. f_equal. ring. }
    rewrite F. set (v1 := psub a o). set (v2 := psub b o).
    pose proof (atan2_polar (cross v1 v2) (dot v1 v2)) as [C S]. rewrite hypot_dc in C, S.
    assert (L1 : (plen v1 : R) = euclid o a).
    { rewrite euclid_hypot. unfold v1, plen, psub. cbn [px py]. rnum. rewrite <- hypot_sym. f_equal; ring. }
    assert (L2 : (plen v2 : R) = euclid o b).
    { rewrite euclid_hypot. unfold v2, plen, psub. cbn [px py]. rnum. rewrite <- hypot_sym. f_equal; ring. }
    rewrite L1, L2 in C, S.
    assert (P1 : 0 < euclid o a). { destruct (euclid_pos o a); auto. exfalso. apply Ha, euclid_zero. auto. }
    assert (P2 : 0 < euclid o b). { destruct (euclid_pos o b); auto. exfalso. apply Hb, euclid_zero. auto. }
    pose proof (euclid_sqr o a) as Q1.
    set (A := euclid o a) in *. set (B := euclid o b) in *. rnum.
    set (t := Ratan2 (cross v1 v2) (dot v1 v2)) in *.
    assert (C' : cos t = dot v1 v2 / (A * B)) by (rewrite <- C; field; lra).
    assert (S' : sin t = cross v1 v2 / (A * B)) by (rewrite <- S; field; lra).
    unfold turned. rewrite C', S'. unfold v1, v2. destruct o as [o1 o2], a as [x y], b as [z w].
    unfold at_param, dot, cross, psub. cbn [px py p1 p2] in *. rnum.
    apply pt_ext; cbn [px py]; toR.
    - apply Rplus_eq_reg_l with (- o1). apply Rmult_eq_reg_l with (A * B); [|nra].
      transitivity (A * A * (z - o1)); [|field; lra]. rewrite Q1. field. lra.
    - apply Rplus_eq_reg_l with (- o2). apply Rmult_eq_reg_l with (A * B); [|nra].
      transitivity (A * A * (w - o2)); [|field; lra]. rewrite Q1. field. lra.
  Qed.
  Lemma angle2_range (o a b : Pt) : - PI < angle2 o a b <= PI.
  Proof.
    unfold angle2. destruct (peq _ _); rnum; [pose proof PI_RGT_0; lra|apply atan2_range].
  Qed.

  (** bisector *)
  Lemma bisector_spec (o a b : Pt) : o <> a -> o <> b ->
    let u := psub (pbisector o a b) o in
    plen u = 1 /\
    dot u (psub a o) / euclid o a = dot u (psub b o) / euclid o b /\
    dot u (psub a o) = euclid o a * cos ((pangle (psub a o) - pangle (psub b o)) / 2).
  Proof.
    intros Ha Hb. cbv zeta.
    assert (P1 : 0 < euclid o a). { destruct (euclid_pos o a); auto. exfalso. apply Ha, euclid_zero. auto. }
    assert (P2 : 0 < euclid o b). { destruct (euclid_pos o b); auto. exfalso. apply Hb, euclid_zero. auto. }
    assert (K : forall c : Pt, Rhypot (px (psub c o)) (py (psub c o)) = euclid o c).
    { intros c. rewrite euclid_hypot. unfold psub. cbn [px py]. rnum. rewrite <- hypot_sym. f_equal; ring. }
    unfold pbisector. unfold pangle at 1 2. rnum.
    pose proof (atan2_polar (py (psub a o)) (px (psub a o))) as [Ca Sa].
    pose proof (atan2_polar (py (psub b o)) (px (psub b o))) as [Cb Sb].
    rewrite (K a) in *. rewrite (K b) in *.
    unfold pangle. rnum.
    set (t1 := Ratan2 (py (psub a o)) (px (psub a o))) in *. set (t2 := Ratan2 (py (psub b o)) (px (psub b o))) in *.
    assert (U : psub (padd o (from_polar 1 ((t1 + t2) / 2))) o = P (cos ((t1 + t2) / 2)) (sin ((t1 + t2) / 2))).
    { destruct o. unfold padd, psub, from_polar. ptx; ring. }
    unfold Rdiv in U |- *. rnum. rewrite U.
    assert (D : forall c : Pt, dot (P (cos ((t1 + t2) * / 2)) (sin ((t1 + t2) * / 2)) : Pt) c =
       (cos ((t1 + t2) * / 2) * px c + sin ((t1 + t2) * / 2) * py c)%R) by reflexivity.
    rewrite !D. clear D U. rewrite <- Ca, <- Sa, <- Cb, <- Sb.
    set (h := (t1 + t2) * / 2).
    assert (X : cos h * (euclid o a * cos t1) + sin h * (euclid o a * sin t1) = euclid o a * cos ((t1 - t2) * / 2)).
    { replace ((t1 - t2) * / 2) with (t1 - h) by (unfold h; lra). rewrite cos_minus. ring. }
    assert (Y : cos h * (euclid o b * cos t2) + sin h * (euclid o b * sin t2) = euclid o b * cos ((t1 - t2) * / 2)).
    { replace ((t1 - t2) * / 2) with (h - t2) by (unfold h; lra). rewrite cos_minus. ring. }
    rewrite X, Y. split; [|split; [toR; field; lra|reflexivity]].
    unfold plen. cbn [px py]. rnum. apply hypot_unique; [lra|]. pose proof (sin2_cos2 h) as Q. unfold Rsqr in Q. lra.
  Qed.

  (** distance to line *)
  Lemma dist_to_line_spec (o a b : Pt) : EPS <= euclid a b ->
    exists r, dist_to_line o a b = Ok r /\ r * euclid a b = - side (Ln a b) o /\
      exists q, on_line (Ln a b) q /\ euclid o q = Rabs r /\ forall q', on_line (Ln a b) q' -> Rabs r <= euclid o q'.
  Proof.
    intros H. unfold dist_to_line.
    assert (L : (plen (psub b a) : R) = euclid a b).
    { rewrite euclid_hypot. unfold plen, psub. cbn [px py]. rnum. rewrite <- hypot_sym. f_equal; ring. }
    rewrite L. unfold pydiv. rnum.
    destruct (Rltb (euclid a b) EPS) eqn:Z; [apply Rltb_true in Z; lra|].
    destruct (Reqb (euclid a b) 0) eqn:Z0; [apply Reqb_true in Z0; lra|].
    eexists. split; [reflexivity|]. set (e := euclid a b) in *.
    assert (EQ : cross (psub b a) (psub a o) / e * e = - side (Ln a b) o).
    { unfold side, cross, psub. destruct o as [o1 o2], a as [a1 a2], b as [b1' b2']. cbn [px py p1 p2]. rnum. field. lra. }
    split; [exact EQ|].
    destruct (proj_point_line He (Ln a b) o) as (q & _ & Oq & Mq); [exact H|].
    assert (G : forall q', on_line (Ln a b) q' -> Rabs (cross (psub b a) (psub a o) / e) <= euclid o q').
    { intros q' [u ->]. pose proof (side_dist (Ln a b) o u) as S. fold e in S.
      unfold seg_len in S. cbn [p1 p2] in S. fold e in S.
      apply Rmult_le_reg_r with e; [lra|]. rewrite <- (Rabs_pos_eq e) at 2 by lra. rewrite <- Rabs_mult, EQ.
      rewrite Rabs_Ropp. apply le_sqr; [pose proof (euclid_pos o (at_param (Ln a b) u)); nra|].
      rewrite <- Rabs_mult. rewrite Rabs_pos_eq by nra. exact S. }
    exists q. split; [exact Oq|split; [|exact G]].
    apply Rle_antisym; [|apply G; exact Oq].
    (* the foot of the perpendicular *)
    pose proof (euclid_sqr a b) as Q. fold e in Q.
    set (u := ((px o - px a) * (px b - px a) + (py o - py a) * (py b - py a)) / (e * e)).
    rewrite euclid_sym. apply Rle_trans with (euclid (at_param (Ln a b) u) o); [apply Mq; exists u; reflexivity|].
    right. apply euclid_unique; [apply Rabs_pos|].
    rewrite <- Rabs_mult, Rabs_pos_eq by nra.
    destruct o as [o1 o2], a as [a1 a2], b as [b1' b2']. unfold at_param, cross, psub. cbn [px py p1 p2] in *. rnum.
    assert (EE : e * e <> 0) by nra.
    unfold u. set (A := b1' - a1) in *. set (B := b2' - a2) in *. set (X := o1 - a1) in *. set (Y := o2 - a2) in *.
    replace (a2 - o2) with (- Y) by (unfold Y; ring). replace (a1 - o1) with (- X) by (unfold X; ring).
    replace (a1 + (X * A + Y * B) / (e * e) * A - o1) with ((X * A + Y * B) / (e * e) * A - X) by (unfold X; ring).
    replace (a2 + (X * A + Y * B) / (e * e) * B - o2) with ((X * A + Y * B) / (e * e) * B - Y) by (unfold Y; ring).
    assert (Q2 : e * e = A * A + B * B) by (rewrite Q; unfold A, B; ring).
    apply Rmult_eq_reg_r with (e * e * (e * e)); [|nra].
    replace (A * - Y - - X * B) with (X * B - A * Y) by ring.
    transitivity ((X * B - A * Y) * (X * B - A * Y) * (e * e)); [field; lra|].
    rewrite Q2. field. rewrite <- Q2. exact EE.
  Qed.

  (** triangle *)
  Lemma inside_triangle_spec (a b c p : Pt) (u v w : R) :
    side (Ln a b) c <> 0 -> u + v + w = 1 ->
    px p = u * px a + v * px b + w * px c -> py p = u * py a + v * py b + w * py c ->
    inside_triangle p a b c = Ok (Rleb 0 w && Rleb 0 (- v) && Rleb (w - v) 1)%bool.
  Proof.
    intros D S X Y. unfold inside_triangle. rnum.
    destruct a as [a1 a2], b as [b1' b2'], c as [c1 c2], p as [x y].
    unfold side, cross, psub in *. cbn [px py p1 p2] in *. rnum.
    set (det := (b1' - a1) * (c2 - a2) - (c1 - a1) * (b2' - a2)).
    assert (Dn : det <> 0) by (intro Z; apply D; unfold det in Z; lra).
    destruct (Reqb det 0) eqn:Z; [apply Reqb_true in Z; contradiction|].
    assert (W : ((b1' - a1) * (y - a2) - (x - a1) * (b2' - a2)) / det = w).
    { rewrite X, Y. replace u with (1 - v - w) by lra. unfold det. field. exact Dn. }
    assert (V : ((c1 - a1) * (y - a2) - (x - a1) * (c2 - a2)) / det = - v).
    { rewrite X, Y. replace u with (1 - v - w) by lra. unfold det. field. exact Dn. }
    rewrite W, V. reflexivity.
  Qed.

  (** circle and line *)
  Lemma line_point (l : Line_) (q : Pt) : 0 < seg_len l -> side l q = 0 -> on_line l q.
  Proof.
    intros H S. pose proof (euclid_sqr (p1 l) (p2 l)) as Q. fold (seg_len l) in Q.
    set (D := seg_len l * seg_len l) in *. assert (Dp : D <> 0) by (unfold D; nra).
    exists (((px q - px (p1 l)) * (px (p2 l) - px (p1 l)) + (py q - py (p1 l)) * (py (p2 l) - py (p1 l))) / D).
    destruct l as [[a b] [c d]], q as [x y]. unfold side, at_param in *. cbn [px py p1 p2] in *. rnum.
    set (A := c - a) in *. set (B := d - b) in *. set (X := x - a) in *. set (Y := y - b) in *.
    assert (Q2 : D = A * A + B * B) by (rewrite Q; unfold A, B; ring).
    apply pt_ext; cbn [px py]; toR.
    - replace x with (a + X) by (unfold X; ring). f_equal. apply Rmult_eq_reg_r with D; auto.
      transitivity ((X * A + Y * B) * A); [|field; auto]. rewrite Q2.
      replace ((X * A + Y * B) * A) with (X * A * A + B * (A * Y)) by ring. replace (A * Y) with (B * X) by lra. ring.
    - replace y with (b + Y) by (unfold Y; ring). f_equal. apply Rmult_eq_reg_r with D; auto.
      transitivity ((X * A + Y * B) * B); [|field; auto]. rewrite Q2.
      replace ((X * A + Y * B) * B) with (A * (B * X) + Y * B * B) by ring. replace (B * X) with (A * Y) by lra. ring.
  Qed.
End A.
