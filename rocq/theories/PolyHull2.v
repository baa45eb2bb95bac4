(** * PolyHull2: both half hulls together. *)
From Verif Require Import Num NumR Geom GeomR GeomSpec GeomProofs GeomProofs2 GeomProofs5 Polygon PolySpec PolyHull.
From Coq Require Import ZArith Reals Lra Lia Bool List Psatz Sorted Permutation.
Import ListNotations.
Local Open Scope R_scope.

(** ** consecutive pairs *)
Definition pairs (l : list Pt) : list (Pt * Pt) := combine l (tl l).
Lemma pairs_cons x y (l : list Pt) : pairs (x :: y :: l) = (x, y) :: pairs (y :: l).
Proof. reflexivity. Qed.
Lemma pairs_join A : forall y (B : list Pt), pairs (A ++ y :: B) = pairs (A ++ [y]) ++ pairs (y :: B).
Proof.
  induction A as [|x A IH]; intros y B; [reflexivity|].
  destruct A as [|z A]; [reflexivity|].
  change ((x :: z :: A) ++ y :: B) with (x :: z :: (A ++ y :: B)).
  change ((x :: z :: A) ++ [y]) with (x :: z :: (A ++ [y])).
  rewrite !pairs_cons. cbn [app]. f_equal. apply (IH y B).
Qed.
Lemma edgesR_pairs h : forall x, In x (edgesR h) <-> In x (pairs (rev h)).
Proof.
  induction h as [|b [|a t] IH]; intros x; cbn [edgesR]; [cbn; tauto|cbn; tauto|].
  cbn [rev] in *. rewrite <- app_assoc. cbn [app]. rewrite pairs_join. rewrite in_app_iff, <- IH. cbn. tauto.
Qed.
Lemma combine_extra {A B} (k e : list A) : forall (j : list B), length k = length j -> combine (k ++ e) j = combine k j.
Proof.
  induction k as [|a k IH]; intros [|b j] H; try discriminate.
  - destruct e; reflexivity.
  - cbn. f_equal. apply IH. cbn in H. lia.
Qed.
Lemma cyclic_split (x y : Pt) m n : cyclic_edges ((x :: m ++ [y]) ++ n) = pairs (x :: m ++ [y]) ++ pairs (y :: n ++ [x]).
Proof.
  change (x :: m ++ [y]) with ((x :: m) ++ [y]). rewrite <- pairs_join.
  unfold cyclic_edges. cbn [app]. unfold pairs. cbn [tl].
  replace (x :: m ++ y :: n ++ [x]) with ((x :: m ++ y :: n) ++ [x]) by (cbn; now rewrite <- app_assoc).
  rewrite combine_extra.
  - f_equal; [|]; cbn; rewrite <- ?app_assoc; reflexivity.
  - cbn. rewrite !app_length. cbn. rewrite app_length. cbn. lia.
Qed.
Lemma pairs_in (l : list Pt) : forall a b, In (a, b) (pairs l) -> In a l /\ In b l.
Proof.
  intros a b H. split; [eapply in_combine_l; eauto|]. apply in_combine_r in H. destruct l; [destruct H|right; auto].
Qed.
Lemma edgesR_in h : forall a b, In (a, b) (edgesR h) -> In a h /\ In b h.
Proof. intros a b H. apply edgesR_pairs in H. apply pairs_in in H. rewrite <- !in_rev in H. exact H. Qed.

(** ** what the invariant says about the forward chain *)
Lemma chain_lt h : chainR h -> forall a b, In (a, b) (edgesR h) -> llt a b.
Proof.
  induction h as [|b [|a t] IH]; intros C x y; cbn [edgesR]; [intros []|intros []|]. intros [Q|H].
  - injection Q as <- <-. cbn in C. tauto.
  - apply IH; auto. cbn in C. tauto.
Qed.
Lemma chain_turns h : chainR h -> forall a b c, In (a, b) (edgesR h) -> In (b, c) (edgesR h) -> 0 < cross3 a b c.
Proof.
  induction h as [|y [|x t] IH]; intros C a b c; [intros []|intros []|].
  change (edgesR (y :: x :: t)) with ((x, y) :: edgesR (x :: t)). destruct C as (L & T & C). 
  assert (BEL : forall p, In p t -> llt p x) by (intros p; eapply chain_below; [exact C|reflexivity]).
  intros [H1|H1] [H2|H2].
  - injection H1 as -> ->. injection H2 as -> ->. exfalso. apply (llt_irrefl _ L).
  - injection H1 as -> ->. exfalso. apply edgesR_in in H2. destruct H2 as [[->|H2] _]; [apply (llt_irrefl _ L)|].
    apply (llt_irrefl b). eapply llt_trans; [apply BEL; exact H2|exact L].
  - injection H2 as -> ->. destruct t as [|z t]; [destruct H1|]. destruct H1 as [H1|H1].
    + injection H1 as ->. exact T.
    + exfalso. apply edgesR_in in H1. destruct H1 as [_ H1]. apply (llt_irrefl b). apply BEL. exact H1.
  - apply IH; auto.
Qed.
Lemma chain_nodup h : chainR h -> NoDup h.
Proof.
  induction h as [|b [|a t] IH]; intros C; [constructor|constructor; [intros []|constructor]|].
  constructor.
  - intros H. apply (llt_irrefl b). eapply chain_below; [exact C|reflexivity|exact H].
  - apply IH. cbn in C. tauto.
Qed.

(** ** collinearity *)
Lemma on_line (a y p q r : Pt) : llt a y -> cross3 a y p = 0 -> cross3 a y q = 0 -> cross3 a y r = 0 -> cross3 p q r = 0.
Proof.
  intros L Hp Hq Hr. unfold cross3 in *. unfold llt, pos in L. toR.
  set (u := px y - px a) in *. set (v := py y - py a) in *.
  assert (A1 : u * (py q - py p) = v * (px q - px p)) by lra.
  assert (A2 : u * (py r - py p) = v * (px r - px p)) by lra.
  destruct L as [L|[L1 L2]].
  - apply Rmult_eq_reg_l with u; [|lra]. rewrite Rmult_0_r.
    transitivity ((px q - px p) * (u * (py r - py p)) - (u * (py q - py p)) * (px r - px p)); [ring|]. rewrite A1, A2. ring.
  - rewrite L1 in *. assert (px q - px p = 0) by nra. assert (px r - px p = 0) by nra. rewrite H, H0. ring.
Qed.
Lemma joint (pts : list Pt) (a y c : Pt) : llt a y -> llt c y -> (forall p, In p pts -> lle p y) ->
  (forall p, In p pts -> 0 <= cross3 a y p) -> (forall p, In p pts -> 0 <= cross3 y c p) ->
  cross3 a y c = 0 -> forall p, In p pts -> cross3 a y p = 0.
Proof.
  intros La Lc Hy H1 H2 Z p Hp. destruct (Hy p Hp) as [L| ->]; [|apply cross3_abb].
  pose proof (H1 p Hp) as A. pose proof (H2 p Hp) as B.
  assert (Q : 0 <= cr (px y - px a) (py y - py a) (px y - px p) (py y - py p)).
  { apply (cr_weak _ _ (px y - px c) (py y - py c)); auto.
    - unfold cross3 in Z. unfold cr. toR. lra.
    - unfold cross3 in B. unfold cr. toR. lra. }
  unfold cross3 in *. unfold cr in Q. toR. lra.
Qed.
(** an inner vertex of the lower chain is not the end of an edge that comes from the right *)
Lemma not_shared (a p b c : Pt) : llt a p -> llt p b -> llt p c -> 0 < cross3 a p b -> 0 <= cross3 p b c -> 0 <= cross3 c p a -> False.
Proof.
  intros L1 L2 L3 H1 H2 H3.
  assert (Q : 0 < cr (px p - px a) (py p - py a) (px c - px p) (py c - py p)).
  { apply (cr_strict _ _ (px b - px p) (py b - py p)); [exact L1|exact L2|exact L3| |].
    - rewrite <- cross3_cr. exact H1.
    - rewrite <- cross3_cr2. exact H2. }
  unfold cross3 in H3. unfold cr in Q. toR. lra.
Qed.
Lemma lle_px (a b : Pt) : lle a b -> (px a : R) <= px b.
Proof. intros [[H|[H _]]| ->]; toR; lra. Qed.
Lemma lle_py (a b : Pt) : lle a b -> (px a : R) = px b -> (py a : R) <= py b.
Proof. intros [[H|[_ H]]| ->] Q; toR; lra. Qed.
Lemma unit_ratio (a b c : R) : a < b -> a <= c <= b -> 0 <= (c - a) / (b - a) <= 1.
Proof.
  intros L H. split; apply Rmult_le_reg_r with (b - a); try lra; unfold Rdiv; rewrite Rmult_assoc, Rinv_l by lra; lra.
Qed.
Lemma between_pts (x y p : Pt) : llt x y -> lle x p -> lle p y -> cross3 x y p = 0 -> on_segment (Ln x y) p.
Proof.
  intros L H1 H2 C. pose proof (lle_px _ _ H1). pose proof (lle_px _ _ H2). pose proof (lle_py _ _ H1). pose proof (lle_py _ _ H2).
  unfold cross3 in C. unfold llt, pos in L. toR.
  destruct x as [x1 x2], y as [y1 y2], p as [p1 p2]. cbn [px py] in *.
  destruct L as [L|[L1 L2]].
  - exists ((p1 - x1) / (y1 - x1)). split; [apply unit_ratio; lra|].
    unfold at_param. cbn [px py Geom.p1 Geom.p2]. apply pt_ext; cbn [px py]; toR; [field; lra|].
    apply Rmult_eq_reg_r with (y1 - x1); [|lra]. field_simplify; [|lra]. lra.
  - assert (y1 = x1) by lra. subst y1. assert (p1 = x1) by lra. subst p1.
    exists ((p2 - x2) / (y2 - x2)). split; [apply unit_ratio; lra|].
    unfold at_param. cbn [px py Geom.p1 Geom.p2]. apply pt_ext; cbn [px py]; toR; [ring|field; lra].
Qed.

(** ** point reflection *)
Lemma neg_neg (p : Pt) : pneg (pneg p) = p.
Proof. destruct p as [a b]. unfold pneg. cbn [px py]. rnum. apply pt_ext; cbn [px py]; toR; ring. Qed.
Lemma neg_cross (a b c : Pt) : cross3 (pneg a) (pneg b) (pneg c) = cross3 a b c.
Proof. unfold cross3, pneg. cbn [px py]. rnum. toR. ring. Qed.
Lemma neg_llt (a b : Pt) : llt (pneg a) (pneg b) <-> llt b a.
Proof. unfold llt, pos, pneg. cbn [px py]. rnum. toR. split; intros [H|[H H']]; [left|right|left|right]; try lra. Qed.
Lemma neg_lle (a b : Pt) : lle (pneg a) (pneg b) <-> lle b a.
Proof.
  unfold lle. rewrite neg_llt. split; intros [H|H]; auto; right; [|congruence].
  rewrite <- (neg_neg a), H. now rewrite neg_neg.
Qed.

Section H.
  Context {E : Epsilon ROps}.
  Hypothesis He : 0 < EPS.
  Lemma neg_turn (a b c : Pt) : turn (pneg a) (pneg b) (pneg c) = turn a b c.
  Proof.
    unfold turn, pneg. cbn [px py]. rnum.
    match goal with |- (if Rltb ?x 0 then _ else _) = (if Rltb ?y 0 then _ else _) => replace x with y by (toR; ring) end. reflexivity.
  Qed.
  Lemma neg_peq (a b : Pt) : peq (pneg a) (pneg b) = peq a b.
  Proof.
    unfold peq, palmost, pneg. cbn [px py]. rnum.
    match goal with |- Rltb ?x _ = Rltb ?y _ => replace x with y by (toR; ring) end. reflexivity.
  Qed.
  Lemma neg_pop (h : list Pt) r : pop_right (map pneg h) (pneg r) = map pneg (pop_right h r).
  Proof.
    induction h as [|b [|a t] IH]; [reflexivity|reflexivity|].
    cbn [map pop_right] in *. rewrite neg_turn. destruct (turn a b r =? 1)%Z; [reflexivity|exact IH].
  Qed.
  Lemma neg_keep (h : list Pt) r : keep_left (map pneg h) (pneg r) = map pneg (keep_left h r).
  Proof.
    unfold keep_left. rewrite neg_pop. destruct (pop_right h r) as [|b t]; [reflexivity|]. cbn [map].
    rewrite neg_peq. destruct (negb (peq b r)); reflexivity.
  Qed.
  Lemma neg_fold (l : list Pt) : forall h, fold_left keep_left (map pneg l) (map pneg h) = map pneg (fold_left keep_left l h).
  Proof. induction l as [|r l IH]; intros h; cbn; [reflexivity|]. rewrite neg_keep. apply IH. Qed.
  Lemma neg_euclid (a b : Pt) : euclid (pneg a) (pneg b) = euclid a b.
  Proof. unfold euclid, pneg, Rsqr. cbn [px py]. rnum. f_equal. toR. ring. Qed.

  (** ** the sort *)
  Lemma lex_lt_llt (a b : Pt) : lex_lt a b = true <-> llt a b.
  Proof.
    unfold lex_lt, llt, pos. rnum. toR. destruct (Reqb (px a) (px b)) eqn:Q; rbool.
    - rewrite Rltb_true. split; [right; lra|intros [?|[? ?]]; lra].
    - rewrite Rltb_true. split; [left; lra|intros [?|[? ?]]; lra].
  Qed.
  Lemma insert_perm p (l : list Pt) : Permutation (insert_pt p l) (p :: l).
  Proof.
    induction l as [|q l IH]; [reflexivity|]. cbn. destruct (lex_lt p q); [reflexivity|]. rewrite IH. apply perm_swap.
  Qed.
  Lemma insert_sorted p (l : list Pt) : StronglySorted lle l -> StronglySorted lle (insert_pt p l).
  Proof.
    induction l as [|q l IH]; intros S; cbn; [repeat constructor|].
    destruct (lex_lt p q) eqn:Q.
    - constructor; auto. apply lex_lt_llt in Q. apply StronglySorted_inv in S. destruct S as [S F].
      constructor; [left; auto|]. eapply Forall_impl; [|exact F]. intros a Ha. left. eapply llt_le_trans; eauto.
    - apply StronglySorted_inv in S. destruct S as [S F]. constructor; auto.
      assert (L : lle q p). { destruct (lle_total q p) as [|L]; auto. apply lex_lt_llt in L. congruence. }
      apply Forall_forall. intros a Ha. apply (Permutation_in _ (insert_perm p l)) in Ha.
      destruct Ha as [<-|Ha]; auto. rewrite Forall_forall in F. auto.
  Qed.
  Lemma sort_spec (l : list Pt) : StronglySorted lle (sort_pts l) /\ Permutation (sort_pts l) l.
  Proof.
    unfold sort_pts.
    assert (G : forall l acc, StronglySorted lle acc -> StronglySorted lle (fold_left (fun acc p => insert_pt p acc) l acc) /\
      Permutation (fold_left (fun acc p => insert_pt p acc) l acc) (l ++ acc)).
    { clear l. induction l as [|p l IH]; intros acc S; cbn [fold_left]; [split; auto|].
      destruct (IH (insert_pt p acc) (insert_sorted p acc S)) as [A B]. split; auto.
      rewrite B. cbn. rewrite insert_perm. symmetry. apply Permutation_middle. }
    destruct (G l [] ltac:(constructor)) as [A B]. rewrite app_nil_r in B. auto.
  Qed.
  Lemma sorted_rev (l : list Pt) : StronglySorted lle l -> StronglySorted lle (map pneg (rev l)).
  Proof.
    induction l as [|a l IH]; intros S; [constructor|]. cbn [rev]. rewrite map_app.
    apply StronglySorted_inv in S. destruct S as [S F]. rewrite Forall_forall in F.
    specialize (IH S). cbn [map].
    assert (G : forall k, StronglySorted lle k -> (forall p, In p k -> lle p (pneg a)) -> StronglySorted lle (k ++ [pneg a])).
    { clear. induction k as [|b k IH]; intros S H; cbn; [repeat constructor|].
      apply StronglySorted_inv in S. destruct S as [S F]. constructor; [apply IH; auto; intros; apply H; right; auto|].
      apply Forall_forall. intros p Hp. apply in_app_or in Hp. rewrite Forall_forall in F.
      destruct Hp as [Hp|[<-|[]]]; [auto|]. apply H. left; auto. }
    apply G; auto. intros p Hp. apply in_map_iff in Hp. destruct Hp as (q & <- & Hq). apply neg_lle, F. now apply in_rev.
  Qed.

  (** ** the two chains *)
  (** forward facts about a half hull, for the lexicographic order or its reverse *)
  Record half (lt : Pt -> Pt -> Prop) (pts l : list Pt) : Prop := {
    hf_sub : forall p, In p l -> In p pts;
    hf_nodup : NoDup l;
    hf_lt : forall a b, In (a, b) (pairs l) -> lt a b;
    hf_turn : forall a b c, In (a, b) (pairs l) -> In (b, c) (pairs l) -> 0 < cross3 a b c;
    hf_left : forall a b, In (a, b) (pairs l) -> forall p, In p pts -> 0 <= cross3 a b p;
    hf_ends : exists x y, hd_error l = Some x /\ last l x = y /\
       (forall p, In p pts -> (lt x p \/ x = p) /\ (lt p y \/ p = y)) }.
  Lemma last_rev_cons {A} (t : list A) b d : last (rev (b :: t)) d = b.
  Proof. cbn. apply last_last. Qed.
  Lemma half_of_inv done h : inv done h -> half llt done (rev h).
  Proof.
    intros I. constructor.
    - intros p H. apply (inv_sub _ _ I). now apply in_rev.
    - apply NoDup_rev. apply chain_nodup. apply (inv_chain _ _ I).
    - intros a b H. apply edgesR_pairs in H. eapply chain_lt; [apply (inv_chain _ _ I)|exact H].
    - intros a b c H1 H2. apply edgesR_pairs in H1. apply edgesR_pairs in H2. eapply chain_turns; [apply (inv_chain _ _ I)|eauto|eauto].
    - intros a b H. apply edgesR_pairs in H. apply (inv_left _ _ I). exact H.
    - destruct h as [|y t]; [destruct (inv_chain _ _ I)|].
      destruct (rev (y :: t)) as [|x r] eqn:Q; [apply (f_equal (@length _)) in Q; rewrite rev_length in Q; discriminate|].
      exists x, y. split; [reflexivity|]. split; [rewrite <- Q; apply last_rev_cons|].
      intros p Hp. split.
      + apply (inv_bot _ _ I (rev r) x); auto. rewrite <- (rev_involutive (y :: t)), Q. reflexivity.
      + apply (inv_top _ _ I y t eq_refl p Hp).
  Qed.
  Lemma map_pairs (f : Pt -> Pt) (l : list Pt) : pairs (map f l) = map (fun '(a, b) => (f a, f b)) (pairs l).
  Proof.
    unfold pairs. destruct l as [|a l]; [reflexivity|]. cbn [map tl].
    revert a. induction l as [|b l IH]; intros a; [reflexivity|]. cbn. f_equal. apply IH.
  Qed.
  Lemma half_neg pts l : half llt (map pneg pts) (map pneg l) -> half (fun a b => llt b a) pts l.
  Proof.
    intros H. assert (PR : forall a b, In (a, b) (pairs l) -> In (pneg a, pneg b) (pairs (map pneg l))).
    { intros a b Q. rewrite map_pairs. apply in_map_iff. exists (a, b). auto. }
    assert (MI : forall p, In p pts -> In (pneg p) (map pneg pts)) by (intros; now apply in_map).
    constructor.
    - intros p Hp. apply (in_map pneg) in Hp. apply (hf_sub _ _ _ H) in Hp. apply in_map_iff in Hp. destruct Hp as (q & Q & Hq).
      rewrite <- (neg_neg p), <- Q, neg_neg. auto.
    - apply (NoDup_map_inv pneg). apply (hf_nodup _ _ _ H).
    - intros a b Q. apply PR in Q. apply (hf_lt _ _ _ H) in Q. apply (proj1 (neg_llt a b)). exact Q.
    - intros a b c Q1 Q2. rewrite <- (neg_cross a b c). apply (hf_turn _ _ _ H); [apply PR; exact Q1|apply PR; exact Q2].
    - intros a b Q p Hp. rewrite <- neg_cross. apply (hf_left _ _ _ H); [apply PR; exact Q|apply MI; exact Hp].
    - destruct (hf_ends _ _ _ H) as (x & y & A & B & C). destruct l as [|x0 l]; [discriminate|]. cbn in A. injection A as <-.
      exists x0, (pneg y). split; [reflexivity|]. split.
      + rewrite <- B, <- (neg_neg (last (x0 :: l) x0)). f_equal. symmetry.
        change (pneg x0 :: map pneg l) with (map pneg (x0 :: l)). clear. generalize (x0 :: l) as k. induction k as [|a [|b k] IH]; [reflexivity|reflexivity|].
        exact IH.
      + intros p Hp. destruct (C (pneg p) (MI p Hp)) as [C1 C2]. split.
        * destruct C1 as [C1|C1]; [left; apply (proj1 (neg_llt _ _)); exact C1|right]. rewrite <- (neg_neg x0), C1. apply neg_neg.
        * destruct C2 as [C2|C2]; [left|right].
          -- apply (proj1 (neg_llt _ _)). rewrite neg_neg. exact C2.
          -- rewrite <- C2. now rewrite neg_neg.
  Qed.
  Lemma half_in lt pts pts' l : (forall p, In p pts <-> In p pts') -> half lt pts l -> half lt pts' l.
  Proof.
    intros Q [A B C D F (x & y & G1 & G2 & G3)]. constructor; auto.
    - intros p Hp. now apply Q, A.
    - intros a b H p Hp. apply F; auto. now apply Q.
    - exists x, y. split; auto. split; auto. intros p Hp. apply G3. now apply Q.
  Qed.
  Lemma two_halves (l : list Pt) : l <> [] -> separated l ->
    half llt l (half_hull (sort_pts l)) /\ half (fun a b => llt b a) l (half_hull (rev (sort_pts l))).
  Proof.
    intros NE Sep. destruct (sort_spec l) as [S P].
    assert (IN : forall p, In p (sort_pts l) <-> In p l).
    { intros p. split; apply Permutation_in; [auto|symmetry; auto]. }
    assert (NS : sort_pts l <> []). { intros Z. rewrite Z in P. apply Permutation_nil in P. auto. }
    split.
    - destruct (half_inv He (sort_pts l) NS S) as (d & D1 & D2).
      { intros p q Hp Hq. apply Sep; now apply IN. }
      unfold half_hull. apply (half_in _ d); [intros p; rewrite D1; apply IN|]. now apply half_of_inv.
    - destruct (half_inv He (map pneg (rev (sort_pts l)))) as (d & D1 & D2).
      { intros Z. apply NS. apply map_eq_nil in Z. rewrite <- (rev_involutive (sort_pts l)), Z. reflexivity. }
      { now apply sorted_rev. }
      { intros p q Hp Hq. apply in_map_iff in Hp. apply in_map_iff in Hq. destruct Hp as (p' & <- & Hp), Hq as (q' & <- & Hq).
        apply in_rev, IN in Hp. apply in_rev, IN in Hq. destruct (Sep p' q' Hp Hq) as [->|D]; auto. right. now rewrite neg_euclid. }
      unfold half_hull. change (@nil Pt) with (map (@pneg ROps) (@nil Pt)) in D2. rewrite neg_fold in D2.
      apply (half_in _ (map pneg d)).
      + intros p. rewrite in_map_iff. split.
        * intros (q & <- & Hq). apply D1 in Hq. apply in_map_iff in Hq. destruct Hq as (r & <- & Hr). rewrite neg_neg. apply IN. now apply in_rev.
        * intros Hp. exists (pneg p). split; [apply neg_neg|]. apply D1. apply in_map. apply -> in_rev. now apply IN.
      + apply half_neg. rewrite map_map, (map_ext _ (fun x => x)) by apply neg_neg. rewrite map_id, map_rev. now apply half_of_inv.
  Qed.
End H.
