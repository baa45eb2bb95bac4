(** * PropsGeom3: more of point.py and line.py (C39), over R. *)
From Verif Require Import Num NumR Geom GeomSpec GeomProofs GeomProofs2 GeomProofs5 PropsGeom.
From Coq Require Import ZArith Reals Lra Lia List Bool.
Import ListNotations.
Local Open Scope R_scope.
Ltac asR := match goal with |- ?u = ?v => change (@eq R u v) end.

(** Division of a vector by a number: undone by the multiplication; only 0 is refused. *)
Theorem C39_division (a : Pt) (k : R) : (k <> 0 -> exists b, pdiv a k = Ok b /\ pmul b k = a) /\ (k = 0 -> pdiv a k = Raise ZeroDivisionError).
Proof.
  unfold pdiv. rnum. split; intros H.
  - rewrite (proj2 (Reqb_false _ _) H). eexists. split; [reflexivity|]. destruct a as [x y]. unfold pmul. apply pt_ext; cbn [px py]; toR; asR; field; exact H.
  - rewrite (proj2 (Reqb_true _ _) H). reflexivity.
Qed.
(** is_zero: less than the tolerance away from the origin. *)
Theorem C39_is_zero {E : Epsilon ROps} (a : Pt) : 0 < EPS -> (pis_zero a = true <-> euclid (P 0 0) a < EPS).
Proof.
  intros He. unfold pis_zero. rnum. rewrite Rltb_true. unfold euclid, plen2. cbn [px py]. rnum. replace (Rsqr (0 - px a)) with (Rsqr (px a)) by (unfold Rsqr; ring). replace (Rsqr (0 - py a)) with (Rsqr (py a)) by (unfold Rsqr; ring). fold (Rsqr (px a)) (Rsqr (py a)).
  pose proof (Rle_0_sqr (px a)). pose proof (Rle_0_sqr (py a)). split; intros H1.
  - rewrite <- (sqrt_square EPS) by lra. apply sqrt_lt_1; [lra|nra|exact H1].
  - rewrite <- (sqrt_sqrt (Rsqr (px a) + Rsqr (py a))) by lra. pose proof (sqrt_pos (Rsqr (px a) + Rsqr (py a))). nra.
Qed.
(** orientation: positive if the third point lies to the left of the way from the first to the second when Y points up, that is to its right,
    a clockwise turn, when Y points down as in a drawing; zero exactly if it lies on the line through both. *)
Theorem C39_orientation (a b c : Pt) : orientation a b c = side (Ln a b) c /\ (a <> b -> (orientation a b c = 0 <-> on_line (Ln a b) c)).
Proof.
  assert (S : orientation a b c = side (Ln a b) c) by (unfold orientation, cross, psub, side; cbn [px py p1 p2]; rnum; toR; ring). split; [exact S|].
  intros D. rewrite S. unfold side, on_line, at_param. cbn [p1 p2]. split.
  - intros Z. destruct (Req_dec (px b) (px a)) as [X|X].
    + assert (Y : py b - py a <> 0) by (intros Y; apply D; apply pt_ext; lra). exists ((py c - py a) / (py b - py a)). apply pt_ext; cbn [px py p1 p2].
      * rewrite ?X. assert (px c = px a); [|lra]. apply Rmult_eq_reg_r with (py b - py a); [|exact Y]. rewrite X in Z. lra.
      * unfold Rdiv. rewrite Rmult_assoc, Rinv_l by exact Y. lra.
    + assert (X' : px b - px a <> 0) by lra. exists ((px c - px a) / (px b - px a)). apply pt_ext; cbn [px py p1 p2]; unfold Rdiv; [rewrite Rmult_assoc, Rinv_l by exact X'; lra|].
      apply Rmult_eq_reg_r with (px b - px a); [|exact X'].
      replace ((py a + (px c - px a) * / (px b - px a) * (py b - py a)) * (px b - px a)) with (py a * (px b - px a) + (px c - px a) * (py b - py a) * (/ (px b - px a) * (px b - px a))) by lra.
      rewrite Rinv_l by exact X'. lra.
  - intros [t T]. rewrite T. cbn [px py p1 p2]. asR; ring.
Qed.
(** normal_projection of a line: the parameter of the point of the line nearest to the point given, 0 for a line of no length. *)
Theorem C39_line_projection {E : Epsilon ROps} (l : Line_) (p : Pt) : 0 < EPS ->
  exists u, lproj l p = Ok u /\ (euclid (p1 l) (p2 l) < EPS -> u = 0) /\
    (EPS <= euclid (p1 l) (p2 l) -> forall r, on_line l r -> euclid (at_param l u) p <= euclid r p).
Proof.
  intros He. unfold lproj. destruct (peq (p1 l) (p2 l)) eqn:Q.
  - exists 0. apply (peq_true He) in Q. split; [reflexivity|split; [reflexivity|intros H; lra]].
  - apply (peq_false He) in Q. destruct (C36_nearest_on_line He l p Q) as (q & A & B & C). unfold lproj_point in A.
    destruct (pproj (vec l) (psub p (p1 l))) as [u|] eqn:U; [|discriminate]. exists u. split; [reflexivity|split; [intros H; lra|]].
    intros _ r HR. cbn [rmap andb] in A. assert (q = padd (p1 l) (pmul (vec l) u)) by congruence. subst q.
    replace (at_param l u) with (padd (p1 l) (pmul (vec l) u)); [now apply C|]. destruct l as [[a b] [c d]]. unfold at_param, padd, pmul, vec. cbn [p1 p2 px py]. apply pt_ext; cbn [px py psub]; toR; try ring; try lra. all: unfold vec; cbn; ring.
Qed.
