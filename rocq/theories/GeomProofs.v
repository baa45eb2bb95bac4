(** * GeomProofs: points, transforms, lines over R. *)
From Verif Require Import Num NumR Geom GeomR GeomSpec.
From Coq Require Import ZArith Reals Lra Lia Bool List Psatz.
Import ListNotations.
Local Open Scope R_scope.

Lemma pt_ext (a b : Pt) : @eq R (px a) (px b) -> @eq R (py a) (py b) -> a = b.
Proof. destruct a, b. cbn. now intros -> ->. Qed.
Ltac toR := match goal with |- @eq _ ?a ?b => change (@eq R a b) | _ => idtac end; rnum.
Tactic Notation "ptx" := apply pt_ext; cbn [px py p1 p2 at_param]; toR.

Lemma euclid_hypot (a b : Pt) : euclid a b = Rhypot (px a - px b) (py a - py b).
Proof. reflexivity. Qed.
Lemma dist_euclid (a b : Pt) : pdist a b = euclid a b.
Proof. reflexivity. Qed.
Lemma euclid_pos (a b : Pt) : 0 <= euclid a b.
Proof. apply sqrt_pos. Qed.
Lemma euclid_sqr (a b : Pt) : euclid a b * euclid a b = (px a - px b) * (px a - px b) + (py a - py b) * (py a - py b).
Proof. rewrite euclid_hypot. apply hypot_sqr. Qed.
Lemma euclid_sym (a b : Pt) : euclid a b = euclid b a.
Proof. unfold euclid, Rsqr. f_equal. ring. Qed.
Lemma euclid_unique (a b : Pt) r : 0 <= r ->
  r * r = (px a - px b) * (px a - px b) + (py a - py b) * (py a - py b) -> euclid a b = r.
Proof. rewrite euclid_hypot. apply hypot_unique. Qed.
Lemma euclid_zero (a b : Pt) : euclid a b = 0 <-> a = b.
Proof.
  rewrite euclid_hypot, hypot_zero. split.
  - intros [H1 H2]. apply pt_ext; lra.
  - intros ->. lra.
Qed.
Lemma le_sqr x y : 0 <= y -> x * x <= y * y -> x <= y.
Proof. intros. nra. Qed.
Lemma euclid_triangle (a b c : Pt) : euclid a c <= euclid a b + euclid b c.
Proof.
  pose proof (euclid_pos a b). pose proof (euclid_pos b c). pose proof (euclid_pos a c).
  pose proof (euclid_sqr a b) as S1. pose proof (euclid_sqr b c) as S2. pose proof (euclid_sqr a c) as S3.
  apply le_sqr; [lra|].
  set (u := euclid a b) in *. set (v := euclid b c) in *. set (w := euclid a c) in *.
  set (x1 := px a - px b) in *. set (y1 := py a - py b) in *. set (x2 := px b - px c) in *. set (y2 := py b - py c) in *.
  replace (px a - px c) with (x1 + x2) in S3 by (unfold x1, x2; ring).
  replace (py a - py c) with (y1 + y2) in S3 by (unfold y1, y2; ring).
  assert (x1 * x2 + y1 * y2 <= u * v).
  { apply le_sqr; [apply Rmult_le_pos; auto|].
    replace (u * v * (u * v)) with ((u * u) * (v * v)) by ring. rewrite S1, S2.
    assert (0 <= (x1 * y2 - x2 * y1) * (x1 * y2 - x2 * y1)) by (apply Rle_0_sqr). nra. }
  nra.
Qed.

Section G.
  Context {E : Epsilon ROps}.

  Lemma at_param_model l u : lpoint_at l u = at_param l u.
  Proof. destruct l as [[a b] [c d]]. unfold at_param. gunf. ptx; unfold lpoint_at; gunf; ring. Qed.

  (** ** Intersection *)
  Lemma cross_terms_R (l o : Line_) :
    let x1 := px (p1 l) in let y1 := py (p1 l) in let x2 := px (p2 l) in let y2 := py (p2 l) in
    let x3 := px (p1 o) in let y3 := py (p1 o) in let x4 := px (p2 o) in let y4 := py (p2 o) in
    cross_terms l o = ((x4 - x3) * (y1 - y3) - (y4 - y3) * (x1 - x3),
     (x2 - x1) * (y1 - y3) - (y2 - y1) * (x1 - x3),
     (y4 - y3) * (x2 - x1) - (x4 - x3) * (y2 - y1)) .
  Proof. reflexivity. Qed.

  Definition within (b : bool) (u : R) : Prop := b = true -> - EPS <= u <= 1 + EPS.
  Lemma intersection_mu_spec (l o : Line_) seg sa sb mu :
    intersection_mu l o seg sa sb = Some mu -> 0 < EPS ->
    EPS <= Rabs (dir_cross l o) /\
    exists nu, at_param l mu = at_param o nu /\ within (seg || sa) mu /\ within (seg || sb) nu.
  Proof.
    unfold intersection_mu. rewrite cross_terms_R. cbv zeta.
    destruct l as [[x1 y1] [x2 y2]], o as [[x3 y3] [x4 y4]]. cbn [px py p1 p2]. rnum.
    set (a := (x4 - x3) * (y1 - y3) - (y4 - y3) * (x1 - x3) : R). set (b := (x2 - x1) * (y1 - y3) - (y2 - y1) * (x1 - x3) : R).
    set (d := (y4 - y3) * (x2 - x1) - (x4 - x3) * (y2 - y1) : R).
    destruct (Rltb (Rabs d) EPS) eqn:D; [discriminate|]. rbool. intros H He.
    assert (Ed : d = dir_cross (Ln (P x1 y1) (P x2 y2)) (Ln (P x3 y3) (P x4 y4))).
    { unfold d, dir_cross. cbn. ring. }
    rewrite <- Ed. split; auto.
    assert (d <> 0) by (intros Z; rewrite Z, Rabs_R0 in D; lra).
    match type of H with (if ?c then _ else _) = _ => destruct c eqn:C; [discriminate|] end.
    injection H as <-. exists (b / d). split.
    - assert (K : forall s t e, (s + t / d * e) * d = s * d + t * e) by (intros; field; auto).
      ptx; apply Rmult_eq_reg_r with d; auto; rewrite !K; unfold a, b, d; ring.
    - apply orb_false_iff in C as [C1 C2]. unfold within. split; intros T; rewrite T in *; cbn [andb] in *.
      + apply orb_false_iff in C1 as [C1 C3]. rbool. lra.
      + apply orb_false_iff in C2 as [C1' C3]. rbool. lra.
  Qed.

  Lemma intersection_mu_complete (l o : Line_) seg sa sb mu nu :
    0 < EPS -> EPS <= Rabs (dir_cross l o) -> at_param l mu = at_param o nu ->
    within (seg || sa) mu -> within (seg || sb) nu -> intersection_mu l o seg sa sb = Some mu.
  Proof.
    unfold intersection_mu. rewrite cross_terms_R. cbv zeta.
    destruct l as [[x1 y1] [x2 y2]], o as [[x3 y3] [x4 y4]]. unfold at_param, dir_cross. cbn [px py p1 p2]. rnum.
    set (a := (x4 - x3) * (y1 - y3) - (y4 - y3) * (x1 - x3) : R). set (b := (x2 - x1) * (y1 - y3) - (y2 - y1) * (x1 - x3) : R).
    set (d := (y4 - y3) * (x2 - x1) - (x4 - x3) * (y2 - y1) : R).
    intros He D. assert (Ed : d = (x2 - x1) * (y4 - y3) - (y2 - y1) * (x4 - x3)) by (unfold d; ring).
    rewrite <- Ed in D.
    intros Q W1 W2. injection Q as Q1 Q2. change (@eq R (x1 + mu * (x2 - x1)) (x3 + nu * (x4 - x3))) in Q1.
    change (@eq R (y1 + mu * (y2 - y1)) (y3 + nu * (y4 - y3))) in Q2.
    assert (X13 : x1 - x3 = nu * (x4 - x3) - mu * (x2 - x1)) by lra.
    assert (Y13 : y1 - y3 = nu * (y4 - y3) - mu * (y2 - y1)) by lra.
    assert (d <> 0) by (intros Z; rewrite Z, Rabs_R0 in D; lra).
    apply Rltb_false in D as D'. rewrite D'.
    assert (Ha : a / d = mu).
    { apply Rmult_eq_reg_r with d; auto. unfold Rdiv. rewrite Rmult_assoc, Rinv_l, Rmult_1_r by auto.
      unfold a, d. rewrite X13, Y13. ring. }
    assert (Hb : b / d = nu).
    { apply Rmult_eq_reg_r with d; auto. unfold Rdiv. rewrite Rmult_assoc, Rinv_l, Rmult_1_r by auto.
      unfold b, d. rewrite X13, Y13. ring. }
    rewrite Ha, Hb.
    assert (forall f u, within f u -> f && (Rltb u (- EPS) || Rltb (1 + EPS) u) = false) as K.
    { intros [|] u W; [|reflexivity]. specialize (W eq_refl). cbn [andb].
      apply orb_false_iff. split; rbool; lra. }
    rewrite (K _ _ W1), (K _ _ W2). reflexivity.
  Qed.

  (** ** Nearest point *)
  Lemma proj_param (l : Line_) (p : Pt) : EPS * EPS <= plen2 (vec l) -> plen2 (vec l) <> 0 ->
    exists u, pproj (vec l) (psub p (p1 l)) = Ok u /\
      u * plen2 (vec l) = (px p - px (p1 l)) * (px (p2 l) - px (p1 l)) + (py p - py (p1 l)) * (py (p2 l) - py (p1 l)).
  Proof.
    intros H H0. unfold pproj. rnum. apply Rltb_false in H. rewrite H.
    unfold pydiv. rnum. apply Reqb_false in H0 as H1. rewrite H1. eexists. split; [reflexivity|].
    unfold Rdiv. rewrite Rmult_assoc, Rinv_l by (rbool; auto).
    destruct l as [[a b] [c d]], p as [x y]. gunf. ring.
  Qed.
End G.
