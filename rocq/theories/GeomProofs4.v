(** * GeomProofs4: transforms, line algebra, point algebra over R *)
From Verif Require Import Num NumR Geom GeomR GeomSpec GeomProofs GeomProofs2 GeomProofs3.
From Coq Require Import ZArith Reals Lra List Bool Psatz.
Import ListNotations.
Local Open Scope R_scope.

Ltac pt_solve := apply pt_ext; gunf; cbn [m00 m01 m02 m10 m11 m12 px py p1 p2]; toR; try ring.

(** ** transforms *)
Lemma apply_compose (a b : mat ROps) (p : Pt) : apply (compose a b) p = apply a (apply b p).
Proof. destruct a, b, p. pt_solve. Qed.
Lemma apply_rotate (o p : Pt) (a : R) : apply (mrotate a o) p = turned o a p.
Proof. destruct o, p. unfold mrotate, turned. pt_solve. Qed.
Lemma mat_ext (a b : mat ROps) : @eq R (m00 a) (m00 b) -> @eq R (m01 a) (m01 b) -> @eq R (m02 a) (m02 b) ->
  @eq R (m10 a) (m10 b) -> @eq R (m11 a) (m11 b) -> @eq R (m12 a) (m12 b) -> a = b.
Proof. destruct a, b. cbn. intros. f_equal; assumption. Qed.
Lemma is_identity_spec (m : mat ROps) : is_identity m = true <-> m = Mx 1 0 0 0 1 0.
Proof.
  unfold is_identity. rnum. rewrite !andb_true_iff, !Reqb_true. split.
  - intros [[[[[A B] C] D] F] G]. apply mat_ext; assumption.
  - intros ->. cbn. tauto.
Qed.
Lemma identity_acts (m : mat ROps) : is_identity m = true <-> forall p : Pt, apply m p = p.
Proof.
  rewrite is_identity_spec. split.
  - intros -> p. destruct p. pt_solve.
  - intros H. pose proof (H (P 0 0)) as A. pose proof (H (P 1 0)) as B. pose proof (H (P 0 1)) as C.
    unfold apply in A, B, C. cbn [px py] in *. rnum. injection A as A1 A2. injection B as B1 B2. injection C as C1 C2.
    apply mat_ext; cbn; lra.
Qed.

(** ** lines *)
Section L.
  Context {E : Epsilon ROps}.
  Hypothesis He : 0 < EPS.

  Lemma seg_len_pos (l : Line_) : 0 <= seg_len l.
  Proof. apply euclid_pos. Qed.
  Lemma at_param_0 (l : Line_) : at_param l 0 = p1 l.
  Proof. destruct l as [[] []]. ptx; ring. Qed.
  Lemma at_param_1 (l : Line_) : at_param l 1 = p2 l.
  Proof. destruct l as [[] []]. ptx; ring. Qed.

  Lemma extend_spec (l : Line_) (d : R) mid : 0 < seg_len l ->
    exists m, extend l d mid = Ok m /\
      p1 m = at_param l (if mid then - (d / 2) / seg_len l else 0) /\
      p2 m = at_param l (1 + (if mid then d / 2 else d) / seg_len l).
  Proof.
    intros H. unfold extend, pydiv. rewrite seg_len_llen. rnum.
    destruct (Reqb (seg_len l) 0) eqn:Z; [apply Reqb_true in Z; lra|]. cbn [rmap].
    destruct mid; eexists; (split; [reflexivity|]); cbn [p1 p2]; destruct l as [[a b] [c d']]; cbn [p1 p2 px py] in *;
      (split; apply pt_ext; unfold at_param; gunf; toR; field; lra).
  Qed.
  Lemma extend_raises (l : Line_) (d : R) mid : seg_len l = 0 -> extend l d mid = Raise ZeroDivisionError.
  Proof.
    intros H. unfold extend, pydiv. rewrite seg_len_llen. rnum. rewrite H.
    destruct (Reqb 0 0) eqn:Z; [reflexivity|]. apply Reqb_false in Z. lra.
  Qed.
  Lemma shift_spec (l : Line_) (d : R) : 0 < seg_len l ->
    exists m, Geom.shift l d = Ok m /\ p1 m = at_param l (d / seg_len l) /\ p2 m = at_param l (1 + d / seg_len l).
  Proof.
    intros H. unfold Geom.shift, pydiv. rewrite seg_len_llen. rnum.
    destruct (Reqb (seg_len l) 0) eqn:Z; [apply Reqb_true in Z; lra|]. cbn [rmap].
    eexists; (split; [reflexivity|]); cbn [p1 p2]; destruct l as [[a b] [c d']]; cbn [p1 p2 px py] in *;
      (split; apply pt_ext; unfold at_param; gunf; toR; field; lra).
  Qed.
  Lemma mu_point_at (l : Line_) (u : R) : 0 < seg_len l -> 0 <= u -> lmu l (lpoint_at l u) = Ok u.
  Proof.
    intros H Hu. unfold lmu, pydiv. rewrite seg_len_llen, at_param_model, dist_euclid. rnum.
    destruct (Reqb (seg_len l) 0) eqn:Z; [apply Reqb_true in Z; lra|]. f_equal. toR.
    rewrite <- (at_param_0 l) at 1. rewrite euclid_at. rewrite Rabs_minus_sym. rewrite Rabs_pos_eq by lra. field. lra.
  Qed.
  Lemma midpoint_spec (l : Line_) : midpoint l = at_param l (1 / 2).
  Proof. unfold midpoint. destruct l as [[a b] [c d]]. cbn [p1 p2]. rewrite lit_half. unfold pmul, padd, at_param. ptx; lra. Qed.

  (** side of the offset line *)
  Lemma side_at (l : Line_) (dx dy u : R) :
    side l (moved dx dy (at_param l u)) = (px (p2 l) - px (p1 l)) * dy - (py (p2 l) - py (p1 l)) * dx.
  Proof. destruct l as [[a b] [c d]]. unfold side, moved, at_param. cbn [px py p1 p2]. ring. Qed.
  Lemma euclid_moved (p : Pt) dx dy : euclid (moved dx dy p) p = R_sqrt.sqrt (dx * dx + dy * dy).
  Proof. unfold euclid, moved, Rsqr. cbn [px py]. f_equal. ring. Qed.
  Lemma side_dist (l : Line_) (q : Pt) (v : R) :
    side l q * side l q <= (euclid q (at_param l v) * seg_len l) * (euclid q (at_param l v) * seg_len l).
  Proof.
    pose proof (euclid_sqr q (at_param l v)) as H1. pose proof (euclid_sqr (p1 l) (p2 l)) as H2. fold (seg_len l) in H2.
    replace (euclid q (at_param l v) * seg_len l * (euclid q (at_param l v) * seg_len l)) with
      ((euclid q (at_param l v) * euclid q (at_param l v)) * (seg_len l * seg_len l)) by ring.
    rewrite H1, H2. destruct l as [[a b] [c d]], q as [x y]. unfold side, at_param. cbn [px py p1 p2].
    set (X := x - (a + v * (c - a))). set (Y := y - (b + v * (d - b))).
    replace ((c - a) * (y - b) - (d - b) * (x - a)) with ((c - a) * Y - (d - b) * X) by (unfold X, Y; ring).
    set (A := c - a). set (B := d - b). replace (a - c) with (- A) by (unfold A; ring). replace (b - d) with (- B) by (unfold B; ring).
    pose proof (Rle_0_sqr (A * X + B * Y)) as S. unfold Rsqr in S. nra.
  Qed.
End L.

(** ** points *)
Lemma lagrange (a b : Pt) : (dot a b : R) * dot a b + (cross a b : R) * cross a b = (plen2 a : R) * plen2 b.
Proof. destruct a, b. gunf. cbn. ring. Qed.
Lemma plen_sqr (a : Pt) : (plen a : R) * plen a = plen2 a.
Proof. destruct a. gunf. apply hypot_sqr. Qed.
Lemma plen_pos (a : Pt) : 0 <= (plen a : R).
Proof. destruct a. gunf. apply hypot_pos. Qed.

Lemma turned_iso (o p q : Pt) a : euclid (turned o a p) (turned o a q) = euclid p q.
Proof.
  apply euclid_unique; [apply euclid_pos|]. rewrite euclid_sqr. destruct o as [o1 o2], p as [x y], q as [z w]. unfold turned. cbn [px py].
  pose proof (sin2_cos2 a) as Q. unfold Rsqr in Q.
  set (c := cos a) in *. set (s := sin a) in *. rnum. 
  transitivity ((s * s + c * c) * ((x - z) * (x - z) + (y - w) * (y - w))); [rewrite Q; ring|ring].
Qed.

Lemma hypot_dc (a b : Pt) : Rhypot (dot a b) (cross a b) = (plen a : R) * plen b.
Proof.
  apply hypot_unique; [apply Rmult_le_pos; apply plen_pos|].
  rewrite lagrange, <- !plen_sqr. ring.
Qed.
