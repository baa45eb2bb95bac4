(** * BezierProofs4: the biarc approximation over R: partition of the curve, termination, crash. *)
From Verif Require Import Num NumR Geom GeomR GeomSpec GeomSpec2 GeomProofs GeomProofs2 GeomProofs3 GeomProofs4 GeomProofs5 GeomProofs7 GeomProofs8 Ellipse Bezier BezierSpec BezierProofs BezierProofs3.
From Coq Require Import ZArith Reals Lra Lia Bool List Psatz.
Import ListNotations.
Local Open Scope R_scope.

(** [c] is the part of [b] between the parameters s and e *)
Definition part_of (b : Bez) (s e : R) (c : Bez) : Prop := forall t, on_bez c t = on_bez b (s + t * (e - s)).
Lemma part_self (b : Bez) : part_of b 0 1 b.
Proof. intros t. f_equal. ring. Qed.
Lemma part_trans (b c d : Bez) s e s' e' : part_of b s e c -> part_of c s' e' d ->
  part_of b (s + s' * (e - s)) (s + e' * (e - s)) d.
Proof. intros H1 H2 t. rewrite H2, H1. f_equal. ring. Qed.
Lemma part_ends (b c : Bez) s e : part_of b s e c -> z1 c = on_bez b s /\ z2 c = on_bez b e.
Proof.
  intros H. rewrite <- (on_bez_0 c), <- (on_bez_1 c), !H. split; f_equal; ring.
Qed.
Lemma subdivide_parts (b : Bez) t c1 c2 : zsubdivide b t = (c1, Some c2) -> 0 < t < 1 /\ part_of b 0 t c1 /\ part_of b t 1 c2.
Proof.
  intros H. destruct (Rle_lt_dec t 0) as [L|L]; [rewrite subdivide_outside in H by auto; discriminate|].
  destruct (Rle_lt_dec 1 t) as [M|M]; [rewrite subdivide_outside in H by auto; discriminate|].
  destruct (subdivide_inside b t (conj L M)) as (d1 & d2 & Q & D1 & D2). rewrite Q in H. injection H as <- <-.
  repeat split; auto; intros s; [rewrite D1|rewrite D2]; f_equal; ring.
Qed.

Section B.
  Context {E : Epsilon ROps}.
  Hypothesis He : 0 < EPS.
  (** What the output list stands for: the parameter interval is cut into consecutive pieces; each
      piece is replaced by its chord, by two arcs joined end to end, or (the code gives up) by nothing. *)
  (** The two arcs are near the piece: their joint is within the tolerance of the middle of the piece, and so are the
      points at 1/14, ..., 6/14 of the piece from the first and at 8/14, ..., 13/14 from the second arc.  Or the piece is
      so short (at most [w]) that the bound on the number of subdivisions was reached.  *)
  Definition sampled (b : Bez) (tol w s e : R) (x y : Arc_) : Prop :=
    e - s <= w \/
    (EPS <= 1 / 14 -> euclid (ap2 x) (on_bez b (s + 1 / 2 * (e - s))) <= tol /\
       forall k, (1 <= k <= 6)%nat -> arc_within x tol (on_bez b (s + INR k / 14 * (e - s))) /\
                                      arc_within y tol (on_bez b (s + (1 / 2 + INR k / 14) * (e - s)))).
  Inductive covers (b : Bez) (lf tol w : R) : R -> R -> list (seg ROps) -> Prop :=
  | cv_drop s e c : part_of b s e c -> given_up c -> covers b lf tol w s e []
  | cv_line s e : (forall t, s <= t <= e -> exists q, on_segment (Ln (on_bez b s) (on_bez b e)) q /\ euclid q (on_bez b t) <= Rmax lf EPS) ->
      covers b lf tol w s e [SLine (Ln (on_bez b s) (on_bez b e))]
  | cv_arcs s e x y : ap1 x = on_bez b s -> ap2 x = ap1 y -> ap2 y = on_bez b e -> Rabs (aend_tangent x - astart_tangent y) < EPS -> sampled b tol w s e x y -> covers b lf tol w s e [SArc x; SArc y]
  | cv_app s m e l1 l2 : s < m < e -> covers b lf tol w s m l1 -> covers b lf tol w m e l2 -> covers b lf tol w s e (l1 ++ l2).

  Lemma covers_part (b c : Bez) lf tol w w' s e : s < e -> w * (e - s) <= w' -> part_of b s e c -> forall u v l, u < v -> covers c lf tol w u v l -> covers b lf tol w' (s + u * (e - s)) (s + v * (e - s)) l.
  Proof.
    intros Hse Hw Hp u v l Huv H. induction H as [s' e' d Hd G|s' e' Hl|s' e' x y A1 A2 A3 A4 A5|s' m e' l1 l2 Hm H1 IH1 H2 IH2].
    - eapply cv_drop; [|exact G]. eapply part_trans; eauto.
    - assert (Q : forall w, on_bez c w = on_bez b (s + w * (e - s))) by exact Hp.
      rewrite !Q. apply cv_line. intros t Ht.
      destruct (Hl ((t - s) / (e - s))) as (q & Q1 & Q2).
      { split; apply (Rmult_le_reg_r (e - s)); try lra; unfold Rdiv; rewrite Rmult_assoc, Rinv_l by lra; lra. }
      exists q. rewrite !Q in Q1. split; auto. rewrite Q in Q2.
      replace (s + (t - s) / (e - s) * (e - s)) with t in Q2 by (field; lra). exact Q2.
    - apply cv_arcs; [rewrite A1; apply Hp|auto|rewrite A3; apply Hp|auto|].
      destruct A5 as [A5|A5]; [left; eapply Rle_trans; [|exact Hw]; replace (s + e' * (e - s) - (s + s' * (e - s))) with ((e' - s') * (e - s)) by ring; apply Rmult_le_compat_r; lra|].
      right. intros Z. specialize (A5 Z). destruct A5 as [A5 A6].
      assert (Q : forall x, on_bez b (s + s' * (e - s) + x * (s + e' * (e - s) - (s + s' * (e - s)))) = on_bez c (s' + x * (e' - s'))) by (intros; rewrite Hp; f_equal; ring).
      split; [rewrite Q; exact A5|]. intros k Hk. rewrite !Q. apply A6, Hk.
    - apply cv_app with (s + m * (e - s)); [split; nra| apply IH1; lra|apply IH2; lra].
  Qed.

  (** lists from subdivide_inflections: a partition, up to a None (which makes the caller crash) *)
  Inductive parts (b : Bez) : R -> R -> list (option Bez) -> Prop :=
  | pt_one s e c : part_of b s e c -> parts b s e [Some c]
  | pt_none s e l : In None l -> parts b s e l
  | pt_cons s m e c r : s < m < e -> part_of b s m c -> parts b m e r -> parts b s e (Some c :: r).
  Lemma parts_two (b : Bez) s e c t : part_of b s e c -> s < e -> parts b s e (both (zsubdivide c t)).
  Proof.
    intros Hp Hs. destruct (zsubdivide c t) as [c1 [c2|]] eqn:S.
    - apply subdivide_parts in S. destruct S as (Ht & P1 & P2).
      cbn. apply pt_cons with (s + t * (e - s)); [split; nra| |].
      + pose proof (part_trans b c c1 s e 0 t Hp P1) as Q. rewrite Rmult_0_l, Rplus_0_r in Q. exact Q.
      + apply pt_one. pose proof (part_trans b c c2 s e t 1 Hp P2) as Q. replace (s + 1 * (e - s)) with e in Q by ring. exact Q.
    - apply pt_none. cbn. auto.
  Qed.
  Lemma parts_snoc (b : Bez) l : forall s m e c, s < m < e -> parts b s m l -> part_of b m e c -> parts b s e (l ++ [Some c]).
  Proof.
    intros s m e c Hm H. revert Hm. induction H as [s m c' H|s m l H|s m0 m c' r H0 H1 H2 IH]; intros Hm Hp.
    - cbn. apply pt_cons with m; auto. apply pt_one; auto.
    - apply pt_none. apply in_or_app; auto.
    - cbn. apply pt_cons with m0; [lra|auto|]. apply IH; [lra|auto].
  Qed.
  Lemma inflections_parts (b : Bez) cs : subdivide_inflections b = Ok cs -> parts b 0 1 cs.
  Proof.
    unfold subdivide_inflections. destruct (find_inflections b false) as [t1 t2].
    pose proof (part_self b) as PS.
    destruct (_ && _); [intros H; injection H as <-; apply parts_two; auto; lra|].
    destruct (_ && _); [intros H; injection H as <-; apply parts_two; auto; lra|].
    destruct (_ && _); [|intros H; injection H as <-; apply pt_one; auto].
    match goal with |- context [zsubdivide b ?x] => set (t := x) end.
    destruct (zsubdivide b t) as [c1 c2] eqn:S.
    destruct (find_inflections c1 true) as [u1 u2].
    destruct c2 as [c2|].
    - pose proof (subdivide_parts _ _ _ _ S) as (J1 & J2 & J3).
      destruct (pymax u1 u2 >? of_Z 0)%num.
      + intros H; injection H as <-. apply (parts_snoc b (both (zsubdivide c1 (pymax u1 u2))) 0 t 1 c2); auto.
        apply parts_two; auto; lra.
      + destruct (find_inflections c2 true) as [v1 v2]. destruct (pymax v1 v2 >? of_Z 0)%num; intros H; injection H as <-.
        * apply pt_cons with t; auto. apply (parts_two b t 1 c2); auto; lra.
        * apply pt_cons with t; auto. apply pt_one; auto.
    - destruct (pymax u1 u2 >? of_Z 0)%num; [|discriminate]. intros H; injection H as <-. apply pt_none.
      cbn. auto.
  Qed.

  Lemma covers_shift (b : Bez) lf tol w s e l s' e' : covers b lf tol w s e l -> s = s' -> e = e' -> covers b lf tol w s' e' l.
  Proof. intros H <- <-. exact H. Qed.
  Lemma haus_ok (b : Bez) (a : Arc_) (t1 t2 tol : R) : EPS <= t1 + (t2 - t1) / 7 -> t1 + (t2 - t1) * (6 / 7) <= 1 - EPS -> t1 < t2 -> check_hausdorff b a t1 t2 tol = Ok true ->
    forall k, (1 <= k <= 6)%nat -> arc_within a tol (on_bez b (t1 + INR k / 7 * (t2 - t1))).
  Proof.
    intros L1 L2 Ht H. unfold check_hausdorff in H. rnum.
    set (st := (t2 - t1) * (1 / 7)) in *. assert (St : 0 < st) by (unfold st; lra).
    assert (W : forall p d, adist a p true = Ok d -> d <= tol -> arc_within a tol p).
    { intros p d Q1 Q2 Pl u Hu Ra Hn. pose proof Pl as (A & B & C & D & F). assert (OA : exists d, adist a p true = Ok d /\ nearest a p d) by (eapply over_arc; eauto). destruct OA as (d' & Q3 & Q4).
      exists d'. split; auto. rewrite Q3 in Q1. injection Q1 as ->. exact Q2. }
    assert (G : forall n fuel t, haus_loop fuel b a t st t2 tol = Ok true -> forall k, (k < n)%nat -> t + INR k * st < t2 ->
      exists d, adist a (zpoint_at b (t + INR k * st)) true = Ok d /\ d <= tol).
    { induction n as [|n IH]; intros fuel t Hl k Hk Hb; [lia|]. destruct fuel as [|f]; [discriminate|]. cbn [haus_loop] in Hl. rnum.
      assert (t < t2) by (pose proof (pos_INR k); nra). rewrite (proj2 (Rltb_true t t2)) in Hl by auto.
      destruct (adist a (zpoint_at b t) true) as [d|] eqn:Q; [|discriminate]. cbn [rbind] in Hl. destruct (Rltb tol d) eqn:Z; [discriminate|]. rbool.
      destruct k as [|k].
      - exists d. cbn [INR]. rewrite Rmult_0_l, Rplus_0_r. auto.
      - rewrite S_INR in *. replace (t + (INR k + 1) * st) with (t + st + INR k * st) in * by ring. apply (IH f (t + st) Hl); [lia|auto]. }
    intros k Hk.
    assert (Kb : 1 <= INR k <= 6). { split; [change 1 with (INR 1)|replace 6 with (INR 6) by (cbn; lra)]; apply le_INR; lia. }
    destruct (G 7%nat 16%nat _ H (k - 1)%nat) as (d & Q1 & Q2); [lia| |].
    - rewrite minus_INR by lia. cbn [INR]. unfold st. nra.
    - rewrite minus_INR in Q1 by lia. cbn [INR] in Q1.
      replace (t1 + st + (INR k - 1) * st) with (t1 + INR k / 7 * (t2 - t1)) in Q1 by (unfold st; field).
      rewrite point_at_general in Q1; auto; [exact (W _ _ Q1 Q2)| |].
      + rewrite Rabs_pos_eq; nra.
      + rewrite Rabs_left; nra.
  Qed.
  Definition deep (md d : nat) : R := (1 / 2) ^ (md - Nat.max 1 d).
  Lemma deep_half md d : deep md (S d) * (1 / 2) <= deep md d.
  Proof.
    unfold deep. destruct d as [|d]; [cbn [Nat.max]; assert (0 < (1 / 2) ^ (md - 1)) by (apply pow_lt; lra); lra|].
    replace (Nat.max 1 (S (S d))) with (S (S d)) by lia. replace (Nat.max 1 (S d)) with (S d) by lia.
    destruct (Nat.le_gt_cases md (S d)) as [H|H].
    - replace (md - S (S d))%nat with 0%nat by lia. replace (md - S d)%nat with 0%nat by lia. cbn. lra.
    - replace (md - S d)%nat with (S (md - S (S d))) by lia. cbn [pow]. lra.
  Qed.
  Lemma deep_0 md : deep md 1 = deep md 0.
  Proof. reflexivity. Qed.
  Lemma deep_pos md d : 0 < deep md d.
  Proof. apply pow_lt. lra. Qed.
  Lemma deep_end md d : (md <= d)%nat -> deep md d = 1.
  Proof. intros H. unfold deep. replace (md - Nat.max 1 d)%nat with 0%nat by lia. reflexivity. Qed.
  Lemma biarc_covers fuel : forall (b : Bez) tol md lf d l, biarc fuel b tol md lf d = Ok l -> covers b lf tol (deep md d) 0 1 l.
  Proof.
    induction fuel as [|f IH]; intros b tol md lf d l; [discriminate|]. cbn [biarc].
    destruct (peq (z1 b) (z2 b)) eqn:Q; [intros H; injection H as <-; apply cv_drop with b; [apply part_self|left; auto]|].
    destruct (flatness_spec He b) as (fl & F1 & F2 & F3). rewrite F1. cbn [rbind].
    destruct (fl <? lf)%num eqn:FL.
    { intros H; injection H as <-. rewrite <- (on_bez_0 b), <- (on_bez_1 b). apply cv_line.
      intros t Ht. destruct (F3 t Ht) as (q & Q1 & Q2). rewrite on_bez_0, on_bez_1. exists q. split; auto.
      rnum. rbool. eapply Rle_trans; [exact Q2|]. apply Rle_max_compat_r. lra. }
    assert (HR : forall l, match zsubdivide b (lit 5 (-1)) with
          | (c1, Some c2) =>
              rbind (biarc f c1 tol md lf (S d)) (fun l1 =>
              rbind (biarc f c2 tol md lf (S d)) (fun l2 => Ok (l1 ++ l2)))
          | (_, None) => Raise AttributeError
          end = Ok l -> covers b lf tol (deep md d) 0 1 l).
    { intros l'. destruct (zsubdivide b (lit 5 (-1))) as [c1 [c2|]] eqn:S; [|discriminate].
      destruct (biarc f c1 tol md lf _) as [l1|] eqn:B1; cbn [rbind]; [|discriminate].
      destruct (biarc f c2 tol md lf _) as [l2|] eqn:B2; cbn [rbind]; [|discriminate].
      intros H; injection H as <-. apply subdivide_parts in S. destruct S as (J0 & J1 & J2).
      apply cv_app with (lit 5 (-1) : R); auto.
      - eapply covers_shift; [apply (covers_part b c1 lf tol (deep md (S d)) (deep md d) 0 (lit 5 (-1)) ltac:(lra) ltac:(pose proof (deep_half md d) as DH; replace (lit 5 (-1) - 0 : R) with (1 / 2) by (rnum; cbn; lra); exact DH) J1 0 1 l1); [lra|eapply IH; eauto]|ring|ring].
      - eapply covers_shift; [apply (covers_part b c2 lf tol (deep md (S d)) (deep md d) (lit 5 (-1)) 1 ltac:(lra) ltac:(pose proof (deep_half md d) as DH; replace (1 - lit 5 (-1) : R) with (1 / 2) by (rnum; cbn; lra); exact DH) J2 0 1 l2); [lra|eapply IH; eauto]|ring|ring]. }
    match goal with |- (if _ then rbind _ ?F else ?D) = _ -> _ => set (dir := D) end.
    assert (HD : forall l, dir = Ok l -> covers b lf tol (deep md d) 0 1 l).
    { intros l'. unfold dir. clear dir. destruct (joint_arc b) as [j|] eqn:J.
      2: { intros H; injection H as <-. apply cv_drop with b; [apply part_self|]. right; left; auto. }
      destruct ((radius j <? EPS) || (alen j <? EPS))%num eqn:K.
      { intros H; injection H as <-. apply cv_drop with b; [apply part_self|]. right; right. exists j. split; auto. apply orb_prop in K. auto. }
      destruct (pydiv (radius j) (plen (psub (zpoint_at b (lit 5 (-1))) (center j)))) as [k|]; cbn [rbind]; [|discriminate].
      match goal with |- (if ?X then _ else _) = _ -> _ => destruct X eqn:JD; [apply HR|] end.
      match goal with |- rbind ?X _ = _ -> _ => destruct X as [o1|] eqn:A1; cbn [rbind]; [|discriminate] end.
      match goal with |- rbind ?X _ = _ -> _ => destruct X as [o2|] eqn:A2; cbn [rbind]; [|discriminate] end.
      destruct o1 as [a1|]; [|discriminate]. destruct o2 as [a2|]; [|discriminate].
      destruct (negb (feq (aend_tangent a1) (astart_tangent a2))) eqn:TG; [discriminate|]. apply negb_false_iff in TG. unfold feq in TG. rnum. rbool.
      match goal with |- rbind ?X _ = _ -> _ => destruct X as [bad|] eqn:BD; cbn [rbind]; [|discriminate] end.
      destruct bad; [apply HR|]. intros H; injection H as <-.
      apply arc_from_tangent_ends in A1. apply arc_from_tangent_ends in A2. cbn in A1, A2.
      destruct A1 as [A1 A1'], A2 as [A2 A2']. apply cv_arcs; [rewrite on_bez_0; auto|congruence|rewrite on_bez_1; auto|exact TG|].
      destruct (Nat.ltb d md) eqn:DM; [|apply Nat.ltb_ge in DM; left; rewrite deep_end by auto; lra]. right. intros Hh.
      assert (HF : (lit 5 (-1) : R) = 1 / 2) by (rnum; cbn; lra).
      assert (PH : zpoint_at b (lit 5 (-1)) = on_bez b (0 + 1 / 2 * (1 - 0))).
      { rewrite HF, point_at_general; auto; [f_equal; ring| |]; [rewrite Rabs_pos_eq|rewrite Rabs_left]; lra. }
      try rewrite DM in JD; try rewrite DM in BD; cbn [andb] in JD. split.
      - rewrite A1', <- PH. revert JD. rnum. intros JD. rbool. rewrite <- dist_euclid. exact JD.
      - destruct (check_hausdorff b a2 (Rlit 5 (-1)) 1 tol) as [h2|] eqn:H2; [|discriminate]. cbn [rbind] in BD. destruct h2; [|discriminate]. cbn [negb] in BD.
        destruct (check_hausdorff b a1 0 (Rlit 5 (-1)) tol) as [h1|] eqn:H1; [|discriminate]. cbn [rmap] in BD. injection BD as BD. apply negb_false_iff in BD. subst h1.
        change (Rlit 5 (-1) = 1 / 2) in HF. rewrite HF in H1, H2. intros n Hk. split.
        + replace (0 + INR n / 14 * (1 - 0)) with (0 + INR n / 7 * (1 / 2 - 0)) by field. apply (haus_ok b a1 0 (1 / 2)); auto; lra.
        + replace (0 + (1 / 2 + INR n / 14) * (1 - 0)) with (1 / 2 + INR n / 7 * (1 - 1 / 2)) by field. apply (haus_ok b a2 (1 / 2) 1); auto; lra. }
    destruct (Nat.eqb d 0) eqn:D0; [|exact (HD l)]. apply Nat.eqb_eq in D0. subst d.
    destruct (subdivide_inflections b) as [cs|] eqn:SI; cbn [rbind]; [|discriminate].
    destruct (Nat.ltb 1 (length cs)); [|exact (HD l)].
    apply inflections_parts in SI. clear dir HD HR.
    assert (G : forall s e cs, 0 <= s -> e <= 1 -> s < e -> parts b s e cs -> forall l,
      (fix go (l : list (option Bez)) : res (list (seg ROps)) :=
               match l with
               | [] => Ok []
               | None :: _ => Raise AttributeError
               | Some c :: r =>
                   rbind (biarc f c tol md lf 1%nat) (fun l1 =>
                   rbind (go r) (fun l2 => Ok (l1 ++ l2)))
               end) cs = Ok l -> covers b lf tol (deep md 0) s e l).
    2: { apply G; [lra|lra|lra|auto]. }
    clear - IH He. intros s e cs H0 H1' Hse H. induction H as [s e c H|s e l0 H|s m e c r Hm H1 H2 IH2]; intros l.
    - destruct (biarc f c tol md lf 1%nat) as [l1|] eqn:B1; cbn [rbind]; [|discriminate].
      rewrite app_nil_r. intros Q; injection Q as <-.
      eapply covers_shift; [apply (covers_part b c lf tol (deep md 1) (deep md 0) s e Hse ltac:(rewrite deep_0; pose proof (deep_pos md 0); nra) H 0 1 l1); [lra|eapply IH; eauto]|ring|ring].
    - intros Q. exfalso. revert l Q. induction l0 as [|[c|] r IHr]; [destruct H| |discriminate].
      intros l. destruct (biarc f c tol md lf 1%nat) as [l1|]; cbn [rbind]; [|discriminate].
      destruct H as [H|H]; [discriminate|].
      match goal with |- rbind ?X _ = _ -> _ => destruct X as [l2|] eqn:B2; cbn [rbind]; [|discriminate] end.
      intros _. exact (IHr H l2 eq_refl).
    - destruct (biarc f c tol md lf 1%nat) as [l1|] eqn:B1; cbn [rbind]; [|discriminate].
      match goal with |- rbind ?X _ = _ -> _ => destruct X as [l2|] eqn:B2; cbn [rbind]; [|discriminate] end.
      intros Q; injection Q as <-. apply cv_app with m; auto; [|apply IH2; [lra|lra|lra|auto]].
      eapply covers_shift; [apply (covers_part b c lf tol (deep md 1) (deep md 0) s m ltac:(lra) ltac:(rewrite deep_0; pose proof (deep_pos md 0); nra) H1 0 1 l1); [lra|eapply IH; eauto]|ring|ring].
  Qed.

  (** ** The recursion depth is bounded by max_depth + 2 *)
  Definition nof {A} (x : res A) : Prop := x <> Raise OutOfFuel.
  Lemma nof_bind {A B} (x : res A) (f : A -> res B) : nof x -> (forall a, x = Ok a -> nof (f a)) -> nof (rbind x f).
  Proof. unfold nof. destruct x as [a|e]; cbn; intros H1 H2; [apply H2; reflexivity|congruence]. Qed.
  Lemma nof_map {A B} (x : res A) (f : A -> B) : nof x -> nof (rmap f x).
  Proof. unfold nof. destruct x; cbn; congruence. Qed.
  Lemma nof_ok {A} (a : A) : nof (Ok a).
  Proof. discriminate. Qed.
  Lemma nof_div (x y : R) : nof (@pydiv ROps x y).
  Proof. unfold nof, pydiv. destruct (_ =? _)%num; discriminate. Qed.
  Lemma nof_sqrt (x : R) : nof (@pysqrt ROps x).
  Proof. unfold nof, pysqrt. destruct (_ <? _)%num; discriminate. Qed.
  Lemma nof_arc_auto a b r t : nof (@arc_auto ROps E a b r t).
  Proof.
    unfold arc_auto. apply nof_map. unfold calc_center. destruct (peq a b); [apply nof_ok|].
    apply nof_bind; [apply nof_sqrt|]. intros. apply nof_bind; [apply nof_div|]. intros. apply nof_bind; [apply nof_div|]. intros. apply nof_ok.
  Qed.
  Lemma nof_arc_tangent a t b r : nof (@arc_from_tangent ROps E a t b r).
  Proof.
    unfold arc_from_tangent. destruct (_ || _); [apply nof_ok|]. apply nof_bind; [apply nof_div|]. intros.
    apply nof_map. destruct r; apply nof_arc_auto.
  Qed.
  Lemma nof_adist a p s : nof (@adist ROps E a p s).
  Proof.
    unfold adist. destruct (_ || _); [apply nof_ok|]. apply nof_bind.
    - destruct (feq _ _); [apply nof_ok|]. destruct (_ >? _)%num; [apply nof_ok|]. destruct (_ =? _)%num; [discriminate|].
      apply nof_ok.
    - intros. repeat match goal with |- nof (if ?c then _ else _) => destruct c end; try apply nof_ok; discriminate.
  Qed.
  Lemma nof_haus n : forall (b : Bez) a t step t2 tol, 0 < step -> t2 <= t + INR n * step -> nof (haus_loop (S n) b a t step t2 tol).
  Proof.
    induction n as [|n IH]; intros b a t step t2 tol Hs Ht.
    - cbn [haus_loop]. rnum. destruct (Rltb t t2) eqn:L; rbool; [cbn in Ht; lra|apply nof_ok].
    - remember (S n) as m. cbn [haus_loop]. rnum. destruct (Rltb t t2) eqn:L; [|apply nof_ok].
      apply nof_bind; [apply nof_adist|]. intros d _. destruct (Rltb tol d); [apply nof_ok|]. subst m.
      apply IH; auto. rewrite S_INR in Ht. lra.
  Qed.
  Lemma nof_check (b : Bez) a t1 t2 tol : t1 < t2 -> nof (check_hausdorff b a t1 t2 tol).
  Proof.
    intros H. unfold check_hausdorff. rnum. apply (nof_haus 15); [lra|].
    assert (Q : INR 15 = 15) by (simpl; ring). rewrite Q. lra.
  Qed.
  Lemma lit_half : (lit 5 (-1) : ROps) = 1 / 2 :> R.
  Proof. cbn. unfold Rlit. cbn. lra. Qed.
  Lemma nof_inflections (b : Bez) : nof (subdivide_inflections b).
  Proof.
    unfold subdivide_inflections. destruct (find_inflections b false) as [t1 t2].
    destruct (_ && _); [apply nof_ok|]. destruct (_ && _); [apply nof_ok|]. destruct (_ && _); [|apply nof_ok].
    match goal with |- context [zsubdivide b ?x] => destruct (zsubdivide b x) as [c1 c2] end.
    destruct (find_inflections c1 true) as [u1 u2]. destruct (_ >? _)%num; [apply nof_ok|].
    destruct c2 as [c2|]; [|discriminate]. destruct (find_inflections c2 true) as [v1 v2]. destruct (_ >? _)%num; apply nof_ok.
  Qed.
  Lemma biarc_fuel fuel : forall (b : Bez) tol md lf d, (Nat.max md 1 + 1 <= fuel + d)%nat -> (d <= Nat.max md 1)%nat ->
    nof (biarc fuel b tol md lf d).
  Proof.
    induction fuel as [|f IH]; intros b tol md lf d Hf Hd.
    { lia. }
    cbn [biarc]. destruct (peq (z1 b) (z2 b)); [apply nof_ok|].
    destruct (flatness_spec He b) as (fl & F1 & F2 & F3). rewrite F1. cbn [rbind].
    destruct (fl <? lf)%num; [apply nof_ok|].
    assert (HR : (d < md)%nat -> nof (match zsubdivide b (lit 5 (-1)) with
          | (c1, Some c2) =>
              rbind (biarc f c1 tol md lf (S d)) (fun l1 =>
              rbind (biarc f c2 tol md lf (S d)) (fun l2 => Ok (l1 ++ l2)))
          | (_, None) => Raise AttributeError
          end)).
    { intros Hlt. destruct (zsubdivide b (lit 5 (-1))) as [c1 [c2|]]; [|discriminate].
      apply nof_bind; [apply IH|intros; apply nof_bind; [apply IH|intros; apply nof_ok]].
      all: lia. }
    match goal with |- nof (if _ then rbind _ ?F else ?D) => set (dir := D) end.
    assert (HD : nof dir).
    { unfold dir. clear dir. destruct (joint_arc b) as [j|]; [|apply nof_ok].
      destruct (_ || _); [apply nof_ok|]. apply nof_bind; [apply nof_div|]. intros k _.
      destruct (Nat.ltb d md) eqn:L.
      - apply Nat.ltb_lt in L. destruct (_ && _); [apply HR; auto|].
        apply nof_bind; [apply nof_arc_tangent|]. intros o1 _. apply nof_bind; [apply nof_arc_tangent|]. intros o2 _.
        destruct o1 as [a1|]; [|discriminate]. destruct o2 as [a2|]; [|discriminate].
        destruct (negb (feq _ _)); [discriminate|].
        pose proof lit_half as LH.
        apply nof_bind; [apply nof_bind; [apply nof_check; rnum; toR; lra|]|].
        + intros h _. destruct (negb h); [apply nof_ok|]. apply nof_map. apply nof_check. rnum. toR. lra.
        + intros bad _. destruct bad; [apply HR; auto|apply nof_ok].
      - cbn [andb]. apply nof_bind; [apply nof_arc_tangent|]. intros o1 _. apply nof_bind; [apply nof_arc_tangent|]. intros o2 _.
        destruct o1 as [a1|]; [|discriminate]. destruct o2 as [a2|]; [|discriminate].
        destruct (negb (feq _ _)); [discriminate|]. cbn [rbind]. apply nof_ok. }
    destruct (Nat.eqb d 0) eqn:D0; [|exact HD].
    apply Nat.eqb_eq in D0. subst d.
    apply nof_bind; [apply nof_inflections|]. intros cs _. destruct (Nat.ltb 1 (length cs)); [|exact HD].
    induction cs as [|[c|] r IHr]; [apply nof_ok| |discriminate].
    apply nof_bind; [apply IH; lia|]. intros l1 _. apply nof_bind; [exact IHr|]. intros; apply nof_ok.
  Qed.
End B.
