(** * GeomProofs2: lines (offset, projection, extension) and boxes over R. *)
From Verif Require Import Num NumR Geom GeomR GeomSpec GeomProofs.
From Coq Require Import ZArith Reals Lra Lia Bool List Psatz.
Import ListNotations.
Local Open Scope R_scope.

Lemma seg_len_llen (l : Line_) : llen l = seg_len l.
Proof.
  unfold seg_len. rewrite euclid_hypot. destruct l as [[a b] [c d]]. cbn [p1 p2 px py]. gunf.
  rewrite <- (hypot_sym (a - c)). f_equal; ring.
Qed.
Lemma plen2_seg (l : Line_) : @eq R (plen2 (vec l)) (seg_len l * seg_len l).
Proof. unfold seg_len. rewrite euclid_sqr. destruct l as [[a b] [c d]]. gunf. ring. Qed.
Lemma euclid_at (l : Line_) u v : euclid (at_param l u) (at_param l v) = Rabs (u - v) * seg_len l.
Proof.
  unfold seg_len. rewrite (euclid_hypot (p1 l)). rewrite <- hypot_scale. rewrite euclid_hypot.
  destruct l as [[a b] [c d]]. unfold at_param. cbn [px py p1 p2]. unfold Rhypot. f_equal. ring.
Qed.

Section L.
  Context {E : Epsilon ROps}.
  Hypothesis He : 0 < EPS.

  Lemma isz (x : R) : is_zero x = true <-> Rabs x < EPS.
  Proof.
    unfold is_zero. rnum. rewrite andb_true_iff, !Rltb_true. split.
    - intros. now apply Rabs_def1.
    - intros H. apply Rabs_def2 in H. lra.
  Qed.
  Lemma isz_false (x : R) : is_zero x = false <-> EPS <= Rabs x.
  Proof.
    pose proof (isz x) as H. destruct (is_zero x).
    - split; [discriminate|]. intros. pose proof (proj1 H eq_refl). lra.
    - split; auto. intros _. destruct (Rle_lt_dec EPS (Rabs x)); auto. apply H in r. discriminate.
  Qed.

  Lemma offset_spec (l : Line_) (d : R) : EPS <= Rabs d -> EPS <= seg_len l ->
    let n := P (- (py (p2 l) - py (p1 l)) * (d / seg_len l))%R ((px (p2 l) - px (p1 l)) * (d / seg_len l))%R in
    loffset l d = Ln (moved (px n) (py n) (p1 l)) (moved (px n) (py n) (p2 l)).
  Proof.
    intros Hd Hl. cbv zeta. unfold loffset. rewrite seg_len_llen.
    apply isz_false in Hd. rewrite Hd.
    assert (Hl' : is_zero (seg_len l) = false).
    { apply isz_false. rewrite Rabs_pos_eq; auto. apply euclid_pos. }
    rewrite Hl'. cbn [orb]. set (k := seg_len l) in *. destruct l as [[a b] [c e]]. unfold moved.
    f_equal; ptx; gunf; ring.
  Qed.

  (** Orthogonal projection minimises the distance. *)
  Lemma proj_min (l : Line_) (p : Pt) (u v : R) :
    u * (seg_len l * seg_len l) =
      (px p - px (p1 l)) * (px (p2 l) - px (p1 l)) + (py p - py (p1 l)) * (py (p2 l) - py (p1 l)) ->
    euclid (at_param l v) p * euclid (at_param l v) p =
    euclid (at_param l u) p * euclid (at_param l u) p + (v - u) * (v - u) * (seg_len l * seg_len l).
  Proof.
    intros H. rewrite !euclid_sqr. unfold seg_len in *. rewrite euclid_sqr in *.
    destruct l as [[a b] [c d]], p as [x y]. unfold at_param in *. cbn [px py p1 p2] in *. rnum.
    revert H. set (X := c - a). set (Y := d - b). set (X' := a - c). set (Y' := b - d).
    assert (X' = - X) by (unfold X', X; ring). assert (Y' = - Y) by (unfold Y', Y; ring).
    rewrite H, H0. clear H H0 X' Y'. intros H.
    replace (- X * - X + - Y * - Y) with (X * X + Y * Y) in * by ring.
    assert (H' : u * (X * X + Y * Y) = (x - a) * X + (y - b) * Y) by exact H. clear H.
    replace (a + v * X - x) with ((a + u * X - x) + (v - u) * X) by ring.
    replace (b + v * Y - y) with ((b + u * Y - y) + (v - u) * Y) by ring.
    assert (K : (a + u * X - x) * X + (b + u * Y - y) * Y = 0) by lra.
    set (A := a + u * X - x) in *. set (B := b + u * Y - y) in *.
    replace ((A + (v - u) * X) * (A + (v - u) * X) + (B + (v - u) * Y) * (B + (v - u) * Y))
      with (A * A + B * B + (v - u) * (v - u) * (X * X + Y * Y) + 2 * (v - u) * (A * X + B * Y)) by ring.
    rewrite K. ring.
  Qed.

  Lemma proj_exists (l : Line_) (p : Pt) : EPS <= seg_len l ->
    exists u, pproj (vec l) (psub p (p1 l)) = Ok u /\
      u * (seg_len l * seg_len l) =
      (px p - px (p1 l)) * (px (p2 l) - px (p1 l)) + (py p - py (p1 l)) * (py (p2 l) - py (p1 l)).
  Proof.
    intros H. rewrite <- plen2_seg. apply proj_param; rewrite plen2_seg.
    - apply Rmult_le_compat; lra.
    - apply Rgt_not_eq. apply Rmult_lt_0_compat; lra.
  Qed.

  Lemma proj_point_line (l : Line_) p : EPS <= seg_len l ->
    exists q, lproj_point l p false = Ok q /\ on_line l q /\
      forall r, on_line l r -> euclid q p <= euclid r p.
  Proof.
    intros H. destruct (proj_exists l p H) as (u & Hu & Q). unfold lproj_point. rewrite Hu. cbn [rmap andb].
    eexists. split; [reflexivity|].
    assert (K : padd (p1 l) (pmul (vec l) u) = at_param l u).
    { rewrite <- at_param_model. reflexivity. }
    rewrite K. split; [exists u; reflexivity|]. intros r [v ->]. apply le_sqr; [apply euclid_pos|].
    rewrite (proj_min l p u v Q). assert (0 <= (v - u) * (v - u) * (seg_len l * seg_len l)); [|lra].
    apply Rmult_le_pos; [apply Rle_0_sqr|apply Rle_0_sqr].
  Qed.

  Lemma proj_point_segment (l : Line_) p : EPS <= seg_len l ->
    exists q, lproj_point l p true = Ok q /\ on_segment l q /\
      forall r, on_segment l r -> euclid q p <= euclid r p.
  Proof.
    intros H. destruct (proj_exists l p H) as (u & Hu & Q). unfold lproj_point. rewrite Hu. cbn [rmap andb]. rnum.
    assert (Hp : 0 <= seg_len l * seg_len l) by apply Rle_0_sqr.
    assert (K : forall a v, (a - u) * (a - u) <= (v - u) * (v - u) -> euclid (at_param l a) p <= euclid (at_param l v) p).
    { intros a v Hav. apply le_sqr; [apply euclid_pos|]. rewrite (proj_min l p u v Q), (proj_min l p u a Q).
      apply Rplus_le_compat_l. apply Rmult_le_compat_r; auto. }
    assert (A0 : p1 l = at_param l 0) by (destruct l as [[? ?] [? ?]]; ptx; ring).
    assert (A1 : p2 l = at_param l 1) by (destruct l as [[? ?] [? ?]]; ptx; ring).
    destruct (Rleb u 0) eqn:L; [|destruct (Rleb 1 u) eqn:G]; rbool; eexists; (split; [reflexivity|]).
    - split; [exists 0; split; [lra|auto]|]. intros r [v [Hv ->]]. rewrite A0. apply K. nra.
    - split; [exists 1; split; [lra|auto]|]. intros r [v [Hv ->]]. rewrite A1. apply K. nra.
    - assert (Ku : padd (p1 l) (pmul (vec l) u) = at_param l u) by (rewrite <- at_param_model; reflexivity).
      rewrite Ku. split; [exists u; split; [lra|auto]|]. intros r [v [Hv ->]]. apply K.
      replace ((u - u) * (u - u)) with 0 by ring. apply Rle_0_sqr.
  Qed.

  (** ** Boxes *)
  Lemma pymin_R (a b : R) : @pymin ROps a b = Rmin a b.
  Proof.
    unfold pymin. rnum. unfold Rmin. destruct (Rltb b a) eqn:L; rbool; destruct (Rle_dec a b); lra.
  Qed.
  Lemma pymax_R (a b : R) : @pymax ROps a b = Rmax a b.
  Proof.
    unfold pymax. rnum. unfold Rmax. destruct (Rltb a b) eqn:L; rbool; destruct (Rle_dec a b); lra.
  Qed.

  (** What one Liang-Barsky step does to the parameter interval. *)
  Lemma clipT_some q p u0 u1 v0 v1 : u0 <= u1 -> clipT q p (u0, u1) = Some (v0, v1) ->
    u0 <= v0 /\ v0 <= v1 /\ v1 <= u1 /\
    (EPS <= Rabs p -> forall u, u0 <= u <= u1 -> (v0 <= u <= v1 <-> q <= u * p)) /\
    (Rabs p < EPS -> q <= 0 /\ v0 = u0 /\ v1 = u1).
  Proof.
    intros Hu. unfold clipT. destruct (is_zero p) eqn:Z.
    - apply isz in Z. rnum. destruct (Rleb q 0) eqn:L; [|discriminate]. rbool. intros [= <- <-].
      repeat split; try lra; intros; lra.
    - apply isz_false in Z. rnum. cbn [fst snd].
      assert (p <> 0) by (intros ->; rewrite Rabs_R0 in Z; lra).
      assert (Q : q = q / p * p) by (field; auto). set (r := q / p) in *.
      destruct (Rltb 0 p) eqn:Hp; rbool.
      + destruct (Rltb u1 r) eqn:A; [discriminate|]. destruct (Rltb u0 r) eqn:B; rbool; intros [= <- <-];
          (split; [lra|split; [lra|split; [lra|split; [|lra]]]]); intros _ u Huu; rewrite Q; split; intros; nra.
      + assert (p < 0) by lra.
        destruct (Rltb r u0) eqn:A; [discriminate|]. destruct (Rltb r u1) eqn:B; rbool; intros [= <- <-];
          (split; [lra|split; [lra|split; [lra|split; [|lra]]]]); intros _ u Huu; rewrite Q; split; intros; nra.
  Qed.
  Lemma clipT_none q p u0 u1 : clipT q p (u0, u1) = None ->
    (EPS <= Rabs p -> forall u, u0 <= u <= u1 -> u * p < q) /\ (Rabs p < EPS -> 0 < q).
  Proof.
    unfold clipT. destruct (is_zero p) eqn:Z.
    - apply isz in Z. rnum. destruct (Rleb q 0) eqn:L; [discriminate|]. rbool. intros _. split; intros; lra.
    - apply isz_false in Z. rnum. cbn [fst snd].
      assert (p <> 0) by (intros ->; rewrite Rabs_R0 in Z; lra).
      assert (Q : q = q / p * p) by (field; auto). set (r := q / p) in *.
      destruct (Rltb 0 p) eqn:Hp; rbool.
      + destruct (Rltb u1 r) eqn:A; [|destruct (Rltb u0 r); discriminate]. rbool. intros _.
        split; [|lra]. intros _ u Hu. rewrite Q. nra.
      + destruct (Rltb r u0) eqn:A; [|destruct (Rltb r u1); discriminate]. rbool. intros _.
        split; [|lra]. intros _ u Hu. rewrite Q. nra.
  Qed.
End L.
