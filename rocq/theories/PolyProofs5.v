(** * PolyProofs5: clipping a segment with a polygon, clipper conversions. *)
From Verif Require Import Num NumR Geom GeomR GeomSpec GeomProofs GeomProofs2 GeomProofs4 GeomProofs5 Polygon PolySpec BezierProofs PolyProofs PolyProofs3.
From Coq Require Import ZArith Reals Lra Lia Bool List Psatz Permutation.
Import ListNotations.
Local Open Scope R_scope.

Section Clip.
  Context {e : Epsilon ROps}.
  Hypothesis He : 0 < EPS.

  (** [q] is on the segment, up to the tolerance at both ends. *)
  Definition near_segment (l : Line_) (q : Pt) : Prop := exists u, - EPS <= u <= 1 + EPS /\ q = at_param l u.
  Lemma lpoint_at_param (l : Line_) m : lpoint_at l m = at_param l m.
  Proof. apply at_param_model. Qed.
  Lemma insert_in x l : forall z, In z (@insert_num ROps x l) -> z = x \/ In z l.
  Proof.
    induction l as [|y l IH]; cbn [insert_num]; intros z H; [destruct H as [->|[]]; auto|].
    destruct (x <? y)%num; [destruct H as [->|H]; auto|]. destruct H as [->|H]; [right; left; auto|].
    destruct (IH z H); auto. right; right; auto.
  Qed.
  Lemma sort_in l z : In z (@sort_nums ROps l) -> In z l.
  Proof.
    unfold sort_nums. assert (G : forall l acc, In z (fold_left (fun acc x => @insert_num ROps x acc) l acc) -> In z acc \/ In z l).
    { clear. induction l as [|x l IH]; intros acc H; [auto|]. cbn [fold_left] in H. apply IH in H. destruct H as [H|H]; [|right; right; auto].
      apply insert_in in H. destruct H as [->|H]; [right; left|left]; auto. }
    intros H. apply G in H. destruct H as [[]|H]; auto.
  Qed.
  Lemma segments_on (ln : Line_) l : forall s, near_segment ln s -> (forall m, In m l -> - EPS <= m <= 1 + EPS) ->
    forall g, In g (poly_segments ln s l) -> near_segment ln (p1 g) /\ near_segment ln (p2 g) /\ peq (p1 g) (p2 g) = false.
  Proof.
    assert (G : forall n l, (length l < n)%nat -> forall s, near_segment ln s -> (forall m, In m l -> - EPS <= m <= 1 + EPS) ->
      forall g, In g (poly_segments ln s l) -> near_segment ln (p1 g) /\ near_segment ln (p2 g) /\ peq (p1 g) (p2 g) = false).
    { clear l. induction n as [|n IH]; intros l L s Hs Hm g Hg; [lia|]. destruct l as [|m r]; [destruct Hg|].
      assert (A : near_segment ln (lpoint_at ln m)) by (exists m; split; [apply Hm; left; auto|apply lpoint_at_param]).
      assert (B : forall g, In g (if negb (peq s (lpoint_at ln m)) then [Ln s (lpoint_at ln m)] else []) ->
        near_segment ln (p1 g) /\ near_segment ln (p2 g) /\ peq (p1 g) (p2 g) = false).
      { intros g'. destruct (peq s (lpoint_at ln m)) eqn:Q; [intros []|]. intros [<-|[]]. cbn [p1 p2]. auto. }
      destruct r as [|m' r']; [apply B; exact Hg|].
      change (In g ((if negb (peq s (lpoint_at ln m)) then [Ln s (lpoint_at ln m)] else []) ++ poly_segments ln (lpoint_at ln m') r')) in Hg.
      apply in_app_iff in Hg. destruct Hg as [Hg|Hg]; [apply B; exact Hg|].
      apply (IH r') with (s := lpoint_at ln m'); auto; [cbn in L; lia| |intros; apply Hm; right; right; auto].
      exists m'. split; [apply Hm; right; left; auto|apply lpoint_at_param]. }
    intros s. apply (G (S (length l))). lia.
  Qed.
  Theorem clip_on_line (l : list Pt) (ln : Line_) out : poly_intersect_line l ln = Ok out ->
    forall g, In g out -> near_segment ln (p1 g) /\ near_segment ln (p2 g) /\ (g = ln \/ peq (p1 g) (p2 g) = false).
  Proof.
    unfold poly_intersect_line. destruct l as [|v0 r]; [discriminate|].
    set (edges := if peq v0 (last r v0) then pairs_from v0 r else cyc_pairs (v0 :: r)).
    set (mus := flat_map _ edges). set (in1 := poly_inside _ (p1 ln)). set (in2 := poly_inside _ (p2 ln)).
    assert (M : forall m, In m mus -> - EPS <= m <= 1 + EPS).
    { intros m Hm. apply in_flat_map in Hm. destruct Hm as ([a b] & _ & Hm).
      destruct (intersection_mu ln (Ln a b) true false false) as [mu|] eqn:I; [|destruct Hm]. destruct Hm as [<-|[]].
      destruct (intersection_mu_spec _ _ _ _ _ _ I He) as (_ & nu & _ & W & _). apply W. reflexivity. }
    assert (N1 : near_segment ln (p1 ln)) by (exists 0; split; [lra|rewrite at_param_0; auto]).
    assert (N2 : near_segment ln (p2 ln)) by (exists 1; split; [lra|rewrite at_param_1; auto]).
    destruct mus as [|m0 ms] eqn:EM.
    - intros Q. injection Q as <-. destruct (in1 && in2); intros g []; [|destruct H]. subst g. auto.
    - rewrite <- EM in *. set (s := sort_nums mus).
      assert (S : forall m, In m s -> - EPS <= m <= 1 + EPS) by (intros m Hm; apply M, sort_in, Hm).
      intros Q. injection Q as <-. intros g Hg.
      assert (Z : forall A B C : Prop, A /\ B /\ C -> A /\ B /\ (g = ln \/ C)) by tauto. apply Z. clear Z.
      destruct in1; [apply (segments_on ln s (p1 ln)); auto|].
      destruct in2.
      { apply (segments_on ln (rev s) (p2 ln)); auto. intros m Hm. apply S, in_rev, Hm. }
      destruct s as [|m1 r1]; [destruct Hg|]. apply (segments_on ln r1 (lpoint_at ln m1)); auto; [|intros; apply S; right; auto].
      exists m1. split; [apply S; left; auto|apply lpoint_at_param].
  Qed.

  (** A diagonal of a square that passes exactly through two corners is lost. *)
  Definition sq4 : list Pt := [P 0 0; P 4 0; P 4 4; P 0 4]%R.
  Definition diag : Line_ := Ln (P (-1) (-1))%R (P 5 5)%R.
  Lemma mu_hit (a b : Pt) mu nu : EPS <= Rabs (dir_cross diag (Ln a b)) -> at_param diag mu = at_param (Ln a b) nu ->
    0 <= mu <= 1 -> 0 <= nu <= 1 -> intersection_mu diag (Ln a b) true false false = Some mu.
  Proof. intros D Q A B. apply (intersection_mu_complete diag (Ln a b) true false false mu nu); auto; intros _; lra. Qed.
  Ltac hit := first [ unfold dir_cross, diag; cbn [px py p1 p2]; unfold Rabs; destruct Rcase_abs; lra
                    | unfold at_param, diag; cbn [px py p1 p2]; f_equal; lra | lra ].
  Ltac decide_lt := repeat match goal with
    |- context [Rltb ?a ?b] => first [ replace (Rltb a b) with true by (symmetry; apply Rltb_true; lra)
                                     | replace (Rltb a b) with false by (symmetry; apply Rltb_false; lra) ] end.
  Lemma peq_self (a : Pt) : peq a a = true.
  Proof.
    apply peq_true; auto. unfold euclid. change (T ROps) with R. rewrite !Rminus_diag_eq by reflexivity.
    unfold Rsqr. rewrite Rmult_0_l, Rplus_0_l, sqrt_0. exact He.
  Qed.
  Lemma clip_diag : EPS <= 1 -> poly_intersect_line sq4 diag = Ok [] /\ poly_inside sq4 (P 2 2)%R = true /\ on_segment diag (P 2 2)%R.
  Proof.
    intros E1. split; [|split].
    - unfold poly_intersect_line. cbn [sq4 last].
      assert (PN : peq (P 0 0 : Pt)%R (P 0 4)%R = false).
      { apply peq_false; auto. unfold euclid. cbn [px py].
        replace ((0 - 0)² + (0 - 4)²) with (4²) by (unfold Rsqr; ring). rewrite sqrt_Rsqr by lra. lra. }
      rewrite PN. change (cyc_pairs sq4) with ([(P 0 4, P 0 0); (P 0 0, P 4 0); (P 4 0, P 4 4); (P 4 4, P 0 4)] : list (Pt * Pt))%R. cbn [flat_map].
      rewrite (mu_hit (P 0 4)%R (P 0 0)%R (1/6) 1) by hit.
      rewrite (mu_hit (P 0 0)%R (P 4 0)%R (1/6) 0) by hit.
      rewrite (mu_hit (P 4 0)%R (P 4 4)%R (5/6) 1) by hit.
      rewrite (mu_hit (P 4 4)%R (P 0 4)%R (5/6) 0) by hit.
      cbn [app].
      assert (I1 : poly_inside sq4 (p1 diag) = false).
      { unfold poly_inside, sq4, diag. cbn [cyc_pairs last pairs_from fold_left px py p1 p2]. rnum. decide_lt. reflexivity. }
      assert (I2 : poly_inside sq4 (p2 diag) = false).
      { unfold poly_inside, sq4, diag. cbn [cyc_pairs last pairs_from fold_left px py p1 p2]. rnum. decide_lt. reflexivity. }
      rewrite I1, I2.
      unfold sort_nums. cbn [fold_left insert_num]. rnum. decide_lt. cbn [insert_num]. rnum. decide_lt. cbn [insert_num]. rnum. decide_lt.
      cbn [poly_segments]. rewrite !peq_self. reflexivity.
    - unfold poly_inside, sq4. cbn [cyc_pairs last pairs_from fold_left px py p1 p2]. rnum. decide_lt. cbn [Bool.eqb negb andb].
      replace ((0 - 0) * (2 - 0) / (4 - 0) + 0) with 0 by lra. replace ((4 - 4) * (2 - 4) / (0 - 4) + 4) with 4 by lra. decide_lt. reflexivity.
    - exists (1/2). split; [lra|]. unfold at_param. cbn. f_equal; lra.
  Qed.

  (** ** clipper integer coordinates *)
  Lemma trunc_near (x : R) : Rabs (IZR (Ztrunc x) - x) < 1.
  Proof.
    unfold Ztrunc. destruct (Rlt_dec x 0) as [N|N].
    - pose proof (Zfloor_spec (- x)) as F. rewrite opp_IZR. unfold Rabs. destruct Rcase_abs; lra.
    - pose proof (Zfloor_spec x) as F. unfold Rabs. destruct Rcase_abs; lra.
  Qed.
End Clip.
