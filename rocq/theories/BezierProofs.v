(** * BezierProofs: evaluation, subdivision, derivatives, flatness, extrema, arc length over R. *)
From Verif Require Import Num NumR Geom GeomR GeomSpec GeomProofs GeomProofs2 GeomProofs4 GeomProofs5 Ellipse Bezier BezierSpec.
From Coq Require Import ZArith Reals Lra Lia Bool List Psatz.
Import ListNotations.
Local Open Scope R_scope.

Ltac zunf := cbv beta iota zeta delta [bern3 bern2 on_bez on_quadratic padd psub pmul pneg pdiv3 px py z1 k1 k2 z2 apply
  m00 m01 m02 m10 m11 m12 translate ztransform from_quadratic]; rnum.
(** equality of points by field arithmetic *)
Ltac zring := apply pt_ext; zunf; match goal with |- @eq _ ?a ?b => change (@eq R a b) end; try ring; try field.

Lemma on_bez_0 (b : Bez) : on_bez b 0 = z1 b.
Proof. destruct b as [[a1 a2] [b1 b2] [c1 c2] [d1 d2]]. zring. Qed.
Lemma on_bez_1 (b : Bez) : on_bez b 1 = z2 b.
Proof. destruct b as [[a1 a2] [b1 b2] [c1 c2] [d1 d2]]. zring. Qed.
Lemma quadratic_same (q1 q2 q3 : Pt) t : on_bez (from_quadratic q1 q2 q3) t = on_quadratic q1 q2 q3 t.
Proof. destruct q1 as [a1 a2], q2 as [b1 b2], q3 as [c1 c2]. zring. Qed.
Lemma transform_bez (b : Bez) (m : mat ROps) t : on_bez (ztransform b m) t = apply m (on_bez b t).
Proof. destruct b as [[a1 a2] [b1 b2] [c1 c2] [d1 d2]], m as [m1 m2 m3 m4 m5 m6]. zring. Qed.

(** ** derivatives *)
Lemma d_ext f g t d d' : derivable_pt_lim f t d -> (forall x, f x = g x) -> d = d' -> derivable_pt_lim g t d'.
Proof.
  intros D Q <- eps Heps. destruct (D eps Heps) as (del & Hd). exists del. intros h. rewrite <- !Q. apply Hd.
Qed.
Lemma d_poly a b c d t :
  derivable_pt_lim (fun t => a + b * t + c * t^2 + d * t^3) t (b + 2 * c * t + 3 * d * t^2).
Proof.
  replace (b + 2 * c * t + 3 * d * t^2) with (0 + b * 1 + c * (INR 2 * t ^ (pred 2)) + d * (INR 3 * t ^ (pred 3)))
    by (cbn [INR pred]; ring).
  apply derivable_pt_lim_plus with (f1 := fun t => a + b * t + c * t^2) (f2 := fun t => d * t^3).
  - apply derivable_pt_lim_plus with (f1 := fun t => a + b * t) (f2 := fun t => c * t^2).
    + apply derivable_pt_lim_plus with (f1 := fun t => a) (f2 := fun t => b * t).
      * apply derivable_pt_lim_const.
      * apply derivable_pt_lim_scal. apply derivable_pt_lim_id.
    + apply derivable_pt_lim_scal. apply derivable_pt_lim_pow.
  - apply derivable_pt_lim_scal. apply derivable_pt_lim_pow.
Qed.
Lemma d_bern3 a b c d t : derivable_pt_lim (bern3 a b c d) t
  (3 * (t*t - 2 * t + 1) * (b - a) + 6 * (t - t*t) * (c - b) + 3 * (t*t) * (d - c)).
Proof.
  eapply d_ext; [apply (d_poly a (3 * (b - a)) (3 * (a - 2 * b + c)) (d - 3 * c + 3 * b - a))| |ring].
  intros. unfold bern3. ring.
Qed.

(** ** subdivision *)
Lemma subdivide_inside (b : Bez) t : 0 < t < 1 ->
  exists c1 c2, zsubdivide b t = (c1, Some c2) /\
    (forall s, on_bez c1 s = on_bez b (t * s)) /\ (forall s, on_bez c2 s = on_bez b (t + (1 - t) * s)).
Proof.
  intros H. unfold zsubdivide. rnum.
  assert (A : Rleb t 0 = false) by (rbool; lra). assert (B : Rleb 1 t = false) by (rbool; lra).
  rewrite A, B. cbn [orb]. cbv [controlpoints_at]. eexists. eexists. split; [reflexivity|].
  destruct b as [[a1 a2] [b1 b2] [c1 c2] [d1 d2]]. split; intros s; zring.
Qed.
Lemma subdivide_outside (b : Bez) t : t <= 0 \/ 1 <= t -> zsubdivide b t = (b, None).
Proof.
  intros H. unfold zsubdivide. rnum.
  destruct H; [assert (A : Rleb t 0 = true) by (rbool; lra)|assert (A : Rleb 1 t = true) by (rbool; lra)];
    rewrite A; rewrite ?orb_true_r; reflexivity.
Qed.

Section Z.
  Context {E : Epsilon ROps}.
  Hypothesis He : 0 < EPS.

  Lemma point_at_general (b : Bez) t : EPS <= Rabs t -> EPS <= Rabs (t - 1) -> zpoint_at b t = on_bez b t.
  Proof.
    intros H1 H2. unfold zpoint_at.
    assert (A : is_zero (t : ROps) = false) by (apply isz_false; auto).
    assert (B : feq (t : ROps) (of_Z 1) = false) by (unfold feq; rnum; rbool; auto).
    rewrite A, B. destruct b as [[a1 a2] [b1 b2] [c1 c2] [d1 d2]]. zring.
  Qed.
  Lemma point_at_start (b : Bez) t : Rabs t < EPS -> zpoint_at b t = z1 b.
  Proof.
    intros H1. unfold zpoint_at.
    assert (A : is_zero (t : ROps) = true) by (apply isz; auto). rewrite A. reflexivity.
  Qed.
  Lemma point_at_end (b : Bez) t : EPS <= Rabs t -> Rabs (t - 1) < EPS -> zpoint_at b t = z2 b.
  Proof.
    intros H1 H2. unfold zpoint_at.
    assert (A : is_zero (t : ROps) = false) by (apply isz_false; auto).
    assert (B : feq (t : ROps) (of_Z 1) = true) by (unfold feq; rnum; rbool; auto).
    rewrite A, B. reflexivity.
  Qed.

  (** ** flatness *)
  Lemma on_segment_p1 (l : Line_) : on_segment l (p1 l).
  Proof. exists 0. split; [lra|]. rewrite at_param_0. reflexivity. Qed.
  Lemma ldist_segment (l : Line_) p : exists q, ldist l p true = Ok (euclid q p) /\ on_segment l q /\
    (EPS <= seg_len l -> forall r, on_segment l r -> euclid q p <= euclid r p).
  Proof.
    destruct (Rle_lt_dec EPS (seg_len l)) as [H|H].
    - destruct (proj_point_segment He l p H) as (q & A & B & C). exists q. repeat split; auto.
      unfold ldist. rewrite A. cbn [rmap]. rewrite dist_euclid. reflexivity.
    - exists (p1 l). split; [|split; [apply on_segment_p1|lra]].
      unfold ldist, lproj_point, pproj.
      assert (A : (plen2 (vec l) <? EPS * EPS)%num = true).
      { pose proof (plen2_seg l) as Q. rnum. rbool. rewrite Q.
        pose proof (seg_len_pos l). apply Rmult_le_0_lt_compat; lra. }
      rewrite A. cbn [rmap]. rnum.
      assert (Bt : Rleb 0 0 = true) by (rbool; lra). rewrite Bt. cbn [andb]. rewrite dist_euclid. reflexivity.
  Qed.
  Lemma hypot_triangle x1 y1 x2 y2 : Rhypot (x1 + x2) (y1 + y2) <= Rhypot x1 y1 + Rhypot x2 y2.
  Proof.
    pose proof (euclid_triangle (P (x1 + x2) (y1 + y2)) (P x2 y2) (P 0 0)) as H.
    rewrite !euclid_hypot in H. cbn [px py] in H. toR.
    replace (x1 + x2 - x2) with x1 in H by ring. replace (y1 + y2 - y2) with y1 in H by ring.
    rewrite !Rminus_0_r in H. exact H.
  Qed.
  (** convex combination of two segment points and the end points stays on the segment, at the
      combined distance *)
  Lemma bez_near_segment (b : Bez) (n1 n2 : Pt) d t : let l := Ln (z1 b) (z2 b) in
    on_segment l n1 -> on_segment l n2 -> euclid n1 (k1 b) <= d -> euclid n2 (k2 b) <= d -> 0 <= t <= 1 ->
    exists q, on_segment l q /\ euclid q (on_bez b t) <= d.
  Proof.
    intros l (u & Hu & ->) (v & Hv & ->) D1 D2 Ht.
    set (w1 := 3 * (1 - t)^2 * t). set (w2 := 3 * (1 - t) * t^2).
    assert (W1 : 0 <= w1).
    { unfold w1. apply Rmult_le_pos; [|lra]. pose proof (pow2_ge_0 (1 - t)). lra. }
    assert (W2 : 0 <= w2).
    { unfold w2. apply Rmult_le_pos; [lra|apply pow2_ge_0]. }
    assert (W : w1 + w2 <= 1).
    { unfold w1, w2. assert (0 <= (1-t)^3) by (apply pow_le; lra). assert (0 <= t^3) by (apply pow_le; lra).
      nra. }
    exists (at_param l (w1 * u + w2 * v + t^3)). split.
    - exists (w1 * u + w2 * v + t^3). split; auto.
      assert (T3 : 0 <= t^3) by (apply pow_le; lra).
      assert (T4 : (1-t)^3 + w1 + w2 + t^3 = 1) by (unfold w1, w2; ring).
      assert (T5 : 0 <= (1-t)^3) by (apply pow_le; lra).
      assert (0 <= w1 * u <= w1) by (split; [apply Rmult_le_pos; lra|rewrite <- (Rmult_1_r w1) at 2; apply Rmult_le_compat_l; lra]).
      assert (0 <= w2 * v <= w2) by (split; [apply Rmult_le_pos; lra|rewrite <- (Rmult_1_r w2) at 2; apply Rmult_le_compat_l; lra]).
      lra.
    - destruct b as [[a1 a2] [b1 b2] [c1 c2] [e1 e2]].
      rewrite euclid_hypot in *. unfold l, at_param, on_bez in *. cbn [px py p1 p2 z1 z2 k1 k2] in *.
      set (X1 := a1 + u * (e1 - a1) - b1) in *. set (Y1 := a2 + u * (e2 - a2) - b2) in *.
      set (X2 := a1 + v * (e1 - a1) - c1) in *. set (Y2 := a2 + v * (e2 - a2) - c2) in *.
      match goal with |- Rhypot ?x ?y <= d =>
        replace x with (w1 * X1 + w2 * X2) by (unfold X1, X2, w1, w2, bern3; ring);
        replace y with (w1 * Y1 + w2 * Y2) by (unfold Y1, Y2, w1, w2, bern3; ring) end.
      eapply Rle_trans; [apply hypot_triangle|]. rewrite !hypot_scale, !Rabs_pos_eq by auto.
      assert (0 <= d) by (eapply Rle_trans; [apply hypot_pos|exact D1]).
      apply Rle_trans with (w1 * d + w2 * d); [apply Rplus_le_compat; apply Rmult_le_compat_l; auto|].
      rewrite <- Rmult_plus_distr_r. rewrite <- (Rmult_1_l d) at 2. apply Rmult_le_compat_r; auto.
  Qed.
  Lemma flatness_spec (b : Bez) : exists f, flatness b = Ok f /\ 0 <= f /\
    forall t, 0 <= t <= 1 -> exists q, on_segment (Ln (z1 b) (z2 b)) q /\ euclid q (on_bez b t) <= Rmax f EPS.
  Proof.
    unfold flatness. destruct (peq (z1 b) (k1 b) && peq (z2 b) (k2 b)) eqn:S.
    - exists 0. split; [reflexivity|]. split; [lra|]. intros t Ht. apply andb_prop in S. destruct S as [S1 S2].
      apply peq_true in S1; auto. apply peq_true in S2; auto.
      apply (bez_near_segment b (z1 b) (z2 b)); auto.
      + apply (on_segment_p1 (Ln (z1 b) (z2 b))).
      + exists 1. split; [lra|]. now rewrite at_param_1.
      + eapply Rle_trans; [left; exact S1|apply Rmax_r].
      + eapply Rle_trans; [left; exact S2|apply Rmax_r].
    - destruct (ldist_segment (Ln (z1 b) (z2 b)) (k1 b)) as (q1 & A1 & B1 & _).
      destruct (ldist_segment (Ln (z1 b) (z2 b)) (k2 b)) as (q2 & A2 & B2 & _).
      rewrite A1, A2. cbn [rbind]. rewrite pymax_R. eexists. split; [reflexivity|]. split.
      + eapply Rle_trans; [apply (euclid_pos q1 (k1 b))|apply Rmax_l].
      + intros t Ht. apply (bez_near_segment b q1 q2); auto.
        * eapply Rle_trans; [|apply Rmax_l]. apply Rmax_l.
        * eapply Rle_trans; [|apply Rmax_l]. apply Rmax_r.
  Qed.
  (** a flat curve: exactly the control-point distance, when the shortcut is not taken *)

  (** ** arc length *)
  Definition chord_len (b : Bez) : R := euclid (z1 b) (z2 b).
  Definition polygon_len (b : Bez) : R := euclid (z1 b) (k1 b) + euclid (k1 b) (k2 b) + euclid (k2 b) (z2 b).
  Lemma chord_le_polygon (b : Bez) : chord_len b <= polygon_len b.
  Proof.
    unfold chord_len, polygon_len.
    pose proof (euclid_triangle (z1 b) (k1 b) (z2 b)). pose proof (euclid_triangle (k1 b) (k2 b) (z2 b)). lra.
  Qed.
End Z.
