(** * BezierProofs3: smoothing curves and the biarc approximation. *)
From Verif Require Import Num NumR Geom GeomR GeomSpec GeomProofs GeomProofs2 GeomProofs3 GeomProofs4 GeomProofs5 Ellipse Bezier BezierSpec BezierProofs.
From Coq Require Import ZArith Reals Lra Lia Bool List Psatz.
Import ListNotations.

Section Generic.
  Context {N : NumOps} {E : Epsilon N}.
  Local Open Scope num_scope.

  (** ** smooth_path joins the same points *)
  Definition ends (s : seg N) : pt N * pt N := (s_p1 s, s_p2 s).
  Definition zends (b : bez N) : pt N * pt N := (z1 b, z2 b).
  Definition apart (e : pt N * pt N) : bool := negb (peq (fst e) (snd e)).
  Lemma smoothing_ends (s1 : seg N) s2 cp sm m c nx : smoothing_curve s1 s2 cp sm m = Ok (c, nx) -> zends c = ends s1.
  Proof.
    unfold smoothing_curve. destruct s2 as [s2|].
    - destruct (pydiv (s_length s1) (s_length s1 + s_length s2)) as [ratio|]; cbn [rbind]; [|discriminate].
      match goal with |- context [let '(x, y) := ?t in _] => destruct t as [cp1 mag2] end.
      destruct (peq cp1 (s_p1 s1)).
      + destruct s1; intros H; injection H as <- _; reflexivity.
      + intros H; injection H as <- _; reflexivity.
    - intros H; injection H as <- _; reflexivity.
  Qed.
  Lemma last_default {A} (r : list A) : forall x y, r <> [] -> last r x = last r y.
  Proof. induction r as [|a [|b r] IH]; intros x y H; [congruence|reflexivity|]. exact (IH x y ltac:(discriminate)). Qed.
  Lemma last_cons {A} (r : list A) x y : last (x :: r) y = last r x.
  Proof. destruct r as [|a r]; [reflexivity|]. change (last (a :: r) y = last (a :: r) x). apply last_default. discriminate. Qed.
  Lemma add_curve_ends c (acc : list (bez N)) : map zends (add_curve c acc) = map zends acc ++ filter apart [zends c].
  Proof. unfold add_curve. cbn. unfold apart. cbn. destruct (negb (peq (z1 c) (z2 c))); rewrite ?map_app, ?app_nil_r; reflexivity. Qed.
  Lemma smooth_loop_ends rest sm : forall (s1 : seg N) cp acc sl cp' out,
    smooth_loop s1 cp rest sm acc = Ok (sl, cp', out) ->
    map zends out = map zends acc ++ filter apart (map ends (removelast (s1 :: rest))) /\ sl = last rest s1.
  Proof.
    induction rest as [|s2 r IH]; intros s1 cp acc sl cp' out; cbn [smooth_loop].
    - intros H. injection H as <- _ <-. cbn. rewrite app_nil_r. auto.
    - destruct (smoothing_curve s1 (Some s2) (Some cp) sm true) as [[c nx]|] eqn:S; cbn [rbind]; [|discriminate].
      intros H. apply IH in H. destruct H as [H1 H2]. split.
      + rewrite H1, add_curve_ends, <- app_assoc. f_equal.
        change (removelast (s1 :: s2 :: r)) with (s1 :: removelast (s2 :: r)).
        cbn [map filter]. rewrite <- (smoothing_ends _ _ _ _ _ _ _ S). cbn [map filter].
        destruct (apart (zends c)); reflexivity.
      + rewrite H2. symmetry. apply last_cons.
  Qed.
  Lemma filter_last {A} (f : A -> bool) l (x : A) : filter f (l ++ [x]) = filter f l ++ filter f [x].
  Proof. apply filter_app. Qed.
  (** an open path *)
  Lemma smooth_path_open (s0 s1 : seg N) r sm out : peq (s_p2 (last r s1)) (s_p1 s0) = false ->
    smooth_path (s0 :: s1 :: r) sm = Ok (Some out) ->
    map zends out = filter apart (map ends (s0 :: s1 :: r)).
  Proof.
    intros Hc. unfold smooth_path.
    destruct (smooth_loop s0 (s_p1 s0) (s1 :: r) sm []) as [[[sl cp] acc]|] eqn:L; cbn [rbind]; [|discriminate].
    rewrite Hc. destruct (smoothing_curve sl None (Some cp) sm true) as [[c nx]|] eqn:S; cbn [rbind]; [|discriminate].
    intros H. injection H as <-. apply smooth_loop_ends in L. destruct L as [L1 L2].
    rewrite add_curve_ends, L1. cbn [map app]. rewrite (smoothing_ends _ _ _ _ _ _ _ S), L2, <- filter_app.
    f_equal. transitivity (map ends (removelast (s0 :: s1 :: r) ++ [last (s0 :: s1 :: r) s0])).
    2: { rewrite <- (app_removelast_last s0 (l := s0 :: s1 :: r)) by discriminate. reflexivity. }
    rewrite map_app, !last_cons. reflexivity.
  Qed.
  (** a closed path whose first segment is not degenerate *)
  Lemma smooth_path_closed (s0 s1 : seg N) r sm out : peq (s_p2 (last r s1)) (s_p1 s0) = true -> peq (s_p1 s0) (s_p2 s0) = false ->
    smooth_path (s0 :: s1 :: r) sm = Ok (Some out) ->
    map zends out = filter apart (map ends (s0 :: s1 :: r)).
  Proof.
    intros Hc Hd. unfold smooth_path.
    destruct (smooth_loop s0 (s_p1 s0) (s1 :: r) sm []) as [[[sl cp] acc]|] eqn:L; cbn [rbind]; [|discriminate].
    rewrite Hc. destruct (smoothing_curve sl (Some s0) (Some cp) sm true) as [[c nx]|] eqn:S; cbn [rbind]; [|discriminate].
    destruct (smoothing_curve s0 (Some s1) (Some nx) sm true) as [[c0 nx0]|] eqn:S0; cbn [rbind]; [|discriminate].
    apply smooth_loop_ends in L. destruct L as [L1 L2]. cbn [map app] in L1.
    destruct acc as [|a acc]; [discriminate|].
    intros H. injection H as <-. rewrite add_curve_ends.
    assert (Q : map zends (c0 :: acc) = map zends (a :: acc)).
    { cbn [map]. f_equal. rewrite (smoothing_ends _ _ _ _ _ _ _ S0). cbn [map] in L1.
      change (removelast (s0 :: s1 :: r)) with (s0 :: removelast (s1 :: r)) in L1. cbn [map filter] in L1.
      unfold apart in L1 at 1. cbn [fst snd ends] in L1. rewrite Hd in L1. cbn [negb] in L1. injection L1 as L1 L1b _. unfold zends, ends. congruence. }
    rewrite Q, L1, (smoothing_ends _ _ _ _ _ _ _ S), L2, <- filter_app.
    f_equal. transitivity (map ends (removelast (s0 :: s1 :: r) ++ [last (s0 :: s1 :: r) s0])).
    2: { rewrite <- (app_removelast_last s0 (l := s0 :: s1 :: r)) by discriminate. reflexivity. }
    rewrite map_app, !last_cons. reflexivity.
  Qed.

  (** ** biarc structure *)
  (** when the code gives up on a (sub)curve and returns nothing for it *)
  Definition given_up (c : bez N) : Prop :=
    peq (z1 c) (z2 c) = true \/ joint_arc c = None \/
    exists j, joint_arc c = Some j /\ ((radius j <? EPS) = true \/ (alen j <? EPS) = true).
  Inductive pieces : pt N -> pt N -> list (seg N) -> Prop :=
  | pc_drop c : given_up c -> pieces (z1 c) (z2 c) []
  | pc_line a b : pieces a b [SLine (Ln a b)]
  | pc_arcs x y : ap2 x = ap1 y -> pieces (ap1 x) (ap2 y) [SArc x; SArc y]
  | pc_app a m b l1 l2 : pieces a m l1 -> pieces m b l2 -> pieces a b (l1 ++ l2).

  Lemma subdivide_joint (b c1 c2 : bez N) t : zsubdivide b t = (c1, Some c2) -> z1 c1 = z1 b /\ z2 c1 = z1 c2 /\ z2 c2 = z2 b.
  Proof.
    unfold zsubdivide. destruct ((t <=? #0) || (t >=? #1)); [discriminate|]. cbv [controlpoints_at].
    intros H. injection H as <- <-. auto.
  Qed.
  (** [cs] is a chain of curves from [a] to [b] *)
  Fixpoint ochain (cs : list (option (bez N))) (a b : pt N) : Prop :=
    match cs with
    | [] => a = b
    | Some c :: r => z1 c = a /\ ochain r (z2 c) b
    | None :: _ => False
    end.
  Lemma both_chain (b : bez N) t c1 c2 : zsubdivide b t = (c1, Some c2) -> ochain (both (zsubdivide b t)) (z1 b) (z2 b).
  Proof. intros H. rewrite H. apply subdivide_joint in H. cbn. intuition congruence. Qed.
  Lemma ochain_app l1 : forall l2 a m b, ochain l1 a m -> ochain l2 m b -> ochain (l1 ++ l2) a b.
  Proof. induction l1 as [|[c|] r IH]; cbn; intros l2 a m b H1 H2; [subst; auto| |tauto]. destruct H1. split; eauto. Qed.
  (** lists that may end with Python's None are still chains up to the None *)
  Fixpoint pchain (cs : list (option (bez N))) (a b : pt N) : Prop :=
    match cs with
    | [] => a = b
    | Some c :: r => z1 c = a /\ pchain r (z2 c) b
    | None :: _ => True
    end.
  Lemma pchain_of l : forall a b, ochain l a b -> pchain l a b.
  Proof. induction l as [|[c|] r IH]; cbn; intros; auto. destruct H. auto. Qed.
  Lemma pchain_app l1 : forall l2 a m b, pchain l1 a m -> pchain l2 m b -> pchain (l1 ++ l2) a b.
  Proof. induction l1 as [|[c|] r IH]; cbn; intros l2 a m b H1 H2; [subst; auto| |tauto]. destruct H1. split; eauto. Qed.
  Lemma both_pchain (b : bez N) t : pchain (both (zsubdivide b t)) (z1 b) (z2 b).
  Proof.
    destruct (zsubdivide b t) as [c1 [c2|]] eqn:S.
    - apply pchain_of. pose proof (both_chain b t c1 c2 S) as Q. rewrite S in Q. exact Q.
    - unfold zsubdivide in S. destruct ((t <=? #0) || (t >=? #1)).
      + injection S as <-. cbn. auto.
      + cbv [controlpoints_at] in S. discriminate.
  Qed.
  Lemma inflections_pchain (b : bez N) cs : subdivide_inflections b = Ok cs -> pchain cs (z1 b) (z2 b).
  Proof.
    unfold subdivide_inflections. destruct (find_inflections b false) as [t1 t2].
    destruct ((t1 >? #0) && (t2 =? #0)); [intros H; injection H as <-; apply both_pchain|].
    destruct ((t1 =? #0) && (t2 >? #0)); [intros H; injection H as <-; apply both_pchain|].
    destruct ((t1 >? #0) && (t2 >? #0)); [|intros H; injection H as <-; cbn; auto].
    set (t := if t1 >? t2 then t2 else t1). destruct (zsubdivide b t) as [c1 c2] eqn:S.
    destruct (find_inflections c1 true) as [u1 u2]. 
    destruct c2 as [c2|].
    - pose proof (subdivide_joint _ _ _ _ S) as (J1 & J2 & J3).
      destruct (pymax u1 u2 >? #0).
      + intros H; injection H as <-. rewrite <- J1. apply (pchain_app (both (zsubdivide c1 (pymax u1 u2))) [Some c2] _ (z2 c1)); [apply both_pchain|].
        cbn. intuition congruence.
      + destruct (find_inflections c2 true) as [v1 v2]. destruct (pymax v1 v2 >? #0); intros H; injection H as <-.
        * cbn [pchain]. split; auto. rewrite J2, <- J3. apply both_pchain.
        * cbn. intuition congruence.
    - assert (c1 = b /\ t = t) as [-> _].
      { unfold zsubdivide in S. destruct ((t <=? #0) || (t >=? #1)); [injection S; auto|cbv [controlpoints_at] in S; discriminate]. }
      destruct (pymax u1 u2 >? #0); [|discriminate]. intros H; injection H as <-.
      cbn. destruct (zsubdivide b (pymax u1 u2)) as [d1 d2] eqn:D. cbn.
      unfold zsubdivide in D. destruct ((pymax u1 u2 <=? #0) || (pymax u1 u2 >=? #1)).
      + injection D as <- <-. auto.
      + cbv [controlpoints_at] in D. injection D as <- <-. cbn. auto.
  Qed.
  Lemma arc_from_tangent_ends (a tn b : pt N) rev x : arc_from_tangent a tn b rev = Ok (Some x) ->
    if rev then ap1 x = b /\ ap2 x = a else ap1 x = a /\ ap2 x = b.
  Proof.
    unfold arc_from_tangent. destruct (peq a b || peq a (padd a tn)); [discriminate|].
    destruct (pydiv _ _); cbn [rbind]; [|discriminate]. unfold arc_auto.
    destruct rev; (destruct (calc_center _ _ _ _); cbn [rmap]; [|discriminate]); intros H; injection H as <-; auto.
  Qed.
  Lemma biarc_pieces fuel : forall (b : bez N) tol md lf d l, biarc fuel b tol md lf d = Ok l -> pieces (z1 b) (z2 b) l.
  Proof.
    induction fuel as [|f IH]; intros b tol md lf d l; [discriminate|]. cbn [biarc].
    destruct (peq (z1 b) (z2 b)) eqn:Q; [intros H; injection H as <-; apply pc_drop; left; auto|].
    destruct (flatness b) as [fl|]; cbn [rbind]; [|discriminate].
    destruct (fl <? lf); [intros H; injection H as <-; apply pc_line|].
    assert (HR : forall l, match zsubdivide b (lit 5 (-1)) with
          | (c1, Some c2) =>
              rbind (biarc f c1 tol md lf (S d)) (fun l1 =>
              rbind (biarc f c2 tol md lf (S d)) (fun l2 => Ok (l1 ++ l2)))
          | (_, None) => Raise AttributeError
          end = Ok l -> pieces (z1 b) (z2 b) l).
    { intros l'. destruct (zsubdivide b (lit 5 (-1))) as [c1 [c2|]] eqn:S; [|discriminate].
      destruct (biarc f c1 tol md lf _) as [l1|] eqn:B1; cbn [rbind]; [|discriminate].
      destruct (biarc f c2 tol md lf _) as [l2|] eqn:B2; cbn [rbind]; [|discriminate].
      intros H; injection H as <-. apply subdivide_joint in S. destruct S as (J1 & J2 & J3).
      rewrite <- J1, <- J3. apply pc_app with (z2 c1); [eapply IH; eauto|]. rewrite J2. eapply IH; eauto. }
    match goal with |- (if _ then rbind _ ?F else ?D) = _ -> _ => set (dir := D) end.
    assert (HD : forall l, dir = Ok l -> pieces (z1 b) (z2 b) l).
    { intros l'. unfold dir. clear dir. destruct (joint_arc b) as [j|] eqn:J.
      2: { intros H; injection H as <-. apply pc_drop. right; left; auto. }
      destruct ((radius j <? EPS) || (alen j <? EPS)) eqn:K.
      { intros H; injection H as <-. apply pc_drop. right; right. exists j. split; auto. apply orb_prop in K. auto. }
      destruct (pydiv (radius j) (plen (psub (zpoint_at b (lit 5 (-1))) (center j)))) as [k|]; cbn [rbind]; [|discriminate].
      destruct (_ && _); [apply HR|].
      match goal with |- rbind ?X _ = _ -> _ => destruct X as [o1|] eqn:A1; cbn [rbind]; [|discriminate] end.
      match goal with |- rbind ?X _ = _ -> _ => destruct X as [o2|] eqn:A2; cbn [rbind]; [|discriminate] end.
      destruct o1 as [a1|]; [|discriminate]. destruct o2 as [a2|]; [|discriminate].
      destruct (negb (feq (aend_tangent a1) (astart_tangent a2))); [discriminate|].
      match goal with |- rbind ?X _ = _ -> _ => destruct X as [bad|]; cbn [rbind]; [|discriminate] end.
      destruct bad; [apply HR|]. intros H; injection H as <-.
      apply arc_from_tangent_ends in A1. apply arc_from_tangent_ends in A2. cbn in A1, A2.
      destruct A1 as [<- A1], A2 as [A2 <-]. apply pc_arcs. congruence. }
    destruct (Nat.eqb d 0); [|exact (HD l)].
    destruct (subdivide_inflections b) as [cs|] eqn:SI; cbn [rbind]; [|discriminate].
    destruct (Nat.ltb 1 (length cs)) eqn:LL; [|exact (HD l)].
    assert (NE : cs <> []) by (intros ->; discriminate LL). clear LL.
    apply inflections_pchain in SI. revert SI. generalize (z1 b). revert l NE. clear - IH.
    induction cs as [|[c|] r IHc]; intros l NE a; cbn [pchain].
    - congruence.
    - intros [<- HC] H. destruct (biarc f c tol md lf (S d)) as [l1|] eqn:B1; cbn [rbind] in H; [|discriminate].
      destruct r as [|o r].
      + cbn [rbind] in H. injection H as <-. rewrite app_nil_r. cbn in HC. rewrite <- HC. eapply IH; eauto.
      + match type of H with rbind ?X _ = _ => destruct X as [l2|] eqn:B2; cbn [rbind] in H; [|discriminate] end.
        injection H as <-. apply pc_app with (z2 c); [eapply IH; eauto|]. apply IHc; [discriminate|exact HC|reflexivity].
    - discriminate.
  Qed.
End Generic.
