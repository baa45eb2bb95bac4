(** * CamProofs3: sorting, flipping, splitting (C28, C29, C32), generic part. *)
From Coq Require Import String ZArith NArith List Bool Lia Permutation.
From Verif Require Import Num Gcode Geom Cam CamSpec.
Import ListNotations.
Local Open Scope string_scope.

Section Lists.
  Context {N : NumOps} {E : Epsilon N}.
  Notation path := (list (cseg N)).

  (** ** Sorting *)
  Lemma insert_perm lt (x : path) l : Permutation (x :: l) (insert_by lt x l).
  Proof.
    induction l as [|y l IH]; [reflexivity|]. cbn. destruct (lt y x); [|reflexivity].
    rewrite perm_swap. now constructor.
  Qed.
  Lemma sort_perm lt (l : list path) : Permutation l (sort_by lt l).
  Proof.
    induction l as [|x l IH]; [reflexivity|]. cbn. rewrite <- insert_perm. now constructor.
  Qed.
  Lemma sort_rev_perm lt (l : list path) : Permutation l (sort_rev lt l).
  Proof. unfold sort_rev. rewrite <- Permutation_rev, <- sort_perm. apply Permutation_rev. Qed.

  (** Stability: elements that compare equal keep their order. *)
  Lemma insert_stable lt (f : path -> bool) x l :
    (forall a b, f a = true -> f b = true -> lt a b = false) ->
    filter f (insert_by lt x l) = filter f (x :: l).
  Proof.
    intros H. induction l as [|y l IH]; [reflexivity|]. cbn [insert_by].
    destruct (lt y x) eqn:L; [|reflexivity]. cbn [filter] in *. rewrite IH.
    destruct (f y) eqn:Fy, (f x) eqn:Fx; auto. rewrite (H y x) in L by auto. discriminate.
  Qed.
  Lemma sort_stable lt (f : path -> bool) l :
    (forall a b, f a = true -> f b = true -> lt a b = false) -> filter f (sort_by lt l) = filter f l.
  Proof.
    intros H. induction l as [|x l IH]; [reflexivity|]. transitivity (filter f (x :: sort_by lt l)).
    - apply insert_stable, H.
    - cbn [filter]. now rewrite IH.
  Qed.
  Lemma filter_rev {A} (f : A -> bool) l : filter f (rev l) = rev (filter f l).
  Proof.
    induction l as [|x l IH]; [reflexivity|]. cbn. rewrite filter_app, IH. cbn.
    destruct (f x); cbn; [reflexivity|apply app_nil_r].
  Qed.
  Lemma sort_rev_stable lt (f : path -> bool) l :
    (forall a b, f a = true -> f b = true -> lt a b = false) -> filter f (sort_rev lt l) = filter f l.
  Proof. intros H. unfold sort_rev. rewrite filter_rev, sort_stable, filter_rev, rev_involutive; auto. Qed.

  (** Sortedness, from totality and transitivity of "not greater". *)
  Section Order.
    Variable lt : path -> path -> bool.
    Let le a b := lt b a = false.
    Hypothesis le_trans : forall a b c, le a b -> le b c -> le a c.
    Hypothesis lt_le : forall a b, lt a b = true -> le a b.
    Definition sorted (l : list path) : Prop := forall a x b y c, l = (a ++ x :: b ++ y :: c)%list -> lt y x = false.
    Inductive chain : list path -> Prop :=
    | ch_nil : chain []
    | ch_cons x l : Forall (le x) l -> chain l -> chain (x :: l).
    Lemma insert_chain x l : chain l -> chain (insert_by lt x l).
    Proof.
      induction 1 as [|y l F C IH]; [repeat constructor|]. cbn. destruct (lt y x) eqn:L.
      - constructor; auto. eapply Permutation_Forall; [apply insert_perm|]. constructor; auto.
      - constructor; [|now constructor]. constructor; [exact L|].
        eapply Forall_impl; [|exact F]. intros z Hz. exact (le_trans x y z L Hz).
    Qed.
    Lemma sort_chain l : chain (sort_by lt l).
    Proof. induction l as [|x l IH]; [constructor|]. now apply insert_chain. Qed.
    Lemma chain_sorted l : chain l -> sorted l.
    Proof.
      intros C a x b y c ->. induction a as [|z a IH]; cbn in C.
      - inversion C as [|? ? F _]; subst. rewrite Forall_forall in F. apply F, in_or_app. right; left; reflexivity.
      - inversion C; auto.
    Qed.
    Lemma sort_sorted l : sorted (sort_by lt l).
    Proof. apply chain_sorted, sort_chain. Qed.
    Lemma sort_rev_sorted l a x b y c : sort_rev lt l = (a ++ x :: b ++ y :: c)%list -> lt x y = false.
    Proof.
      intros H. unfold sort_rev in H.
      assert (R : sort_by lt (rev l) = rev (a ++ x :: b ++ y :: c)) by now rewrite <- H, rev_involutive.
      rewrite rev_app_distr in R. cbn [rev] in R. rewrite rev_app_distr in R. cbn [rev] in R.
      repeat (rewrite <- app_assoc in R; cbn [app] in R).
      exact (sort_sorted (rev l) (rev c) y (rev b) x (rev a) R).
    Qed.
  End Order.

  Lemma no_empty_spec (l : list path) : no_empty l = true <-> ~ In [] l.
  Proof.
    unfold no_empty. rewrite forallb_forall. split.
    - intros H I. specialize (H _ I). discriminate.
    - intros H p I. destruct p; [contradiction|reflexivity].
  Qed.

  (** ** Flipping *)
  Lemma flip_spec (l : list path) : forall e, flipped_of l (flip_loop e l).
  Proof.
    induction l as [|p l IH]; intros e; [constructor|]. cbn [flip_loop]. constructor; [|apply IH].
    destruct (ltb _ _); auto.
  Qed.
  Lemma flip_paths_spec (l l' : list path) : flip_paths l = Ok l' -> flipped_of l l'.
  Proof.
    unfold flip_paths. destruct l as [|p l]; [discriminate|]. destruct (no_empty _); [|discriminate].
    intros [= <-]. exact (flip_spec (p :: l) _).
  Qed.
  Lemma flipped_length (l l' : list path) : flipped_of l l' -> length l = length l'.
  Proof. induction 1; cbn; congruence. Qed.

  Lemma last_rev {A} (l : list A) d : last (rev l) d = hd d l.
  Proof. destruct l as [|x l]; [reflexivity|]. cbn. apply last_last. Qed.
  Lemma hd_rev {A} (l : list A) d : hd d (rev l) = last l d.
  Proof. rewrite <- (rev_involutive l) at 2. symmetry. apply last_rev. Qed.
  Lemma reversed_ends (p : path) : p <> [] ->
    first_pt (path_reversed p) = last_pt p /\ last_pt (path_reversed p) = first_pt p.
  Proof.
    intros H. unfold path_reversed, last_pt.
    assert (R1 : forall s : cseg N, c_p1 (plain (s_reversed (geo s))) = c_p2 s) by (intros [[l|a] ? ? ? ? ? ?]; reflexivity).
    assert (R2 : forall s : cseg N, c_p2 (plain (s_reversed (geo s))) = c_p1 s) by (intros [[l|a] ? ? ? ? ? ?]; reflexivity).
    destruct p as [|s p] using rev_ind; [contradiction|]. clear IHp.
    rewrite rev_app_distr, last_last. cbn [rev app map first_pt]. split; [apply R1|].
    destruct p as [|t p].
    - cbn. apply R2.
    - cbn [app first_pt rev]. rewrite map_app. cbn [map].
      rewrite app_comm_cons, last_last. apply R2.
  Qed.
  (** After flipping, each path starts at the end that is nearer to where the
      previous path ended. *)
  Lemma flip_near (OL : OrderLaws N) (l : list path) : forall e, ~ In [] l ->
    forall l1 p q l2, (flip_loop e l) = (l1 ++ p :: q :: l2)%list ->
      ltb (pdist (last_pt p) (last_pt q)) (pdist (last_pt p) (first_pt q)) = false.
  Proof.
    assert (Hd : forall (e : pt N) (p : path) l (q : path) r, p <> [] -> flip_loop e (p :: l) = q :: r ->
              ltb (pdist e (last_pt q)) (pdist e (first_pt q)) = false).
    { intros e p l0 q r Hp [= <- _]. destruct (ltb (pdist e (last_pt p)) (pdist e (first_pt p))) eqn:L; [|exact L].
      destruct (reversed_ends p Hp) as [-> ->]. now apply (ltb_asym N OL). }
    induction l as [|p0 l IH]; intros e NI l1 p q l2 H; [destruct l1; discriminate|].
    destruct l1 as [|x l1].
    - cbn [flip_loop app] in H. injection H as <- H.
      destruct l as [|p1 l]; [discriminate|].
      eapply Hd; [|exact H]. intros ->. apply NI. right; left; reflexivity.
    - cbn [flip_loop app] in H. injection H as _ H. eapply IH; [|exact H].
      intros I. apply NI. right; exact I.
  Qed.

  (** ** 'optimize' *)
  Lemma band_inv w (l : list path) : forall st,
    let st' := fold_left (band_step w) l st in
    Permutation (b_new st' ++ b_batch st') ((b_new st ++ b_batch st) ++ l) /\ (l <> [] -> b_batch st' <> []).
  Proof.
    assert (St : forall st p, Permutation (b_new (band_step w st p) ++ b_batch (band_step w st p))
                 ((b_new st ++ b_batch st) ++ [p]) /\ b_batch (band_step w st p) <> []).
    { intros st p. unfold band_step. destruct (_ && _); cbn [b_new b_batch].
      - rewrite app_assoc. split; [reflexivity|]. destruct (b_batch st); discriminate.
      - split; [|discriminate]. apply Permutation_app_tail, Permutation_app_head.
        destruct (if Z.eqb _ _ then _ else _); symmetry; [apply sort_rev_perm|apply sort_perm]. }
    induction l as [|p l IH]; intros st; cbn zeta.
    - cbn. rewrite app_nil_r. split; [reflexivity|congruence].
    - cbn [fold_left]. destruct (IH (band_step w st p)) as [A B]. destruct (St st p) as [C D]. split.
      + rewrite A, C, <- app_assoc. reflexivity.
      + intros _. destruct l; [exact D|]. apply B. discriminate.
  Qed.
  Lemma optimize_loses (l l' : list path) : sort_segment_paths_1 l = Ok l' ->
    exists kept lost, Permutation l (kept ++ lost) /\ lost <> [] /\ flipped_of kept l'.
  Proof.
    unfold sort_segment_paths_1. destruct (nth_error _ _) as [p|] eqn:En; [|discriminate].
    destruct (no_empty l); [|discriminate]. intros H. apply flip_paths_spec in H.
    match type of H with flipped_of (b_new (fold_left (band_step ?w) _ ?i)) _ =>
      destruct (band_inv w (sort_by lt_yx l) i) as [A B] end.
    eexists _, _. split; [|split; [|exact H]].
    - rewrite A. cbn [b_new b_batch app]. apply sort_perm.
    - apply B. intros Z. pose proof (sort_perm lt_yx l) as S0. rewrite Z in S0.
      apply Permutation_sym, Permutation_nil in S0. subst l. destruct (length (@nil path) / 2); discriminate.
  Qed.

  (** Any property of segments that fresh segments have survives sorting. *)
  Lemma sort_paths_forall (PS : cseg N -> Prop) (l l' : list path) m :
    (forall s, PS (plain s)) -> sort_paths l m = Ok l' -> Forall (Forall PS) l -> Forall (Forall PS) l'.
  Proof.
    intros Hp. assert (Fl : forall a b, flipped_of a b -> Forall (Forall PS) a -> Forall (Forall PS) b).
    { induction 1 as [|p p' a b Hpp _ IH]; intros F; [constructor|]. inversion F; subst. constructor; auto.
      destruct Hpp as [->| ->]; auto. apply Forall_forall. intros s Hs. unfold backwards in Hs.
      apply in_map_iff in Hs as (s0 & <- & _). apply Hp. }
    assert (Pm : forall a b : list path, Permutation a b -> Forall (Forall PS) a -> Forall (Forall PS) b)
      by (intros a b HP; apply Permutation_Forall, HP).
    unfold sort_paths, keyed.
    destruct (String.eqb m "flip"); [intros H; apply Fl, flip_paths_spec, H|].
    destruct (String.eqb m "optimize").
    { intros H F. apply optimize_loses in H as (kept & lost & P & _ & L). apply (Fl _ _ L).
      apply (Pm _ _ P) in F. apply Forall_app in F. apply F. }
    destruct (String.eqb m "y+"); [destruct (no_empty l); [intros [= <-]; apply Pm, sort_perm|discriminate]|].
    destruct (String.eqb m "y-"); [destruct (no_empty l); [intros [= <-]; apply Pm, sort_rev_perm|discriminate]|].
    destruct (String.eqb m "x+"); [destruct (no_empty l); [intros [= <-]; apply Pm, sort_perm|discriminate]|].
    destruct (String.eqb m "x-"); [destruct (no_empty l); [intros [= <-]; apply Pm, sort_rev_perm|discriminate]|].
    now intros [= <-].
  Qed.

  (** ** Splitting *)
  Lemma split_loop_spec (rest : path) : forall pl np s1,
    exists q qs, split_loop pl np s1 rest = (pl ++ (np ++ q) :: qs)%list /\
      (q ++ concat qs)%list = s1 :: rest /\ q <> [] /\ Forall (fun x => x <> []) qs.
  Proof.
    induction rest as [|s2 rest IH]; intros pl np s1; cbn [split_loop].
    - exists [s1], []. repeat split; auto; discriminate.
    - destruct (cut_here s1 s2).
      + destruct (IH (pl ++ [np ++ [s1]])%list [] s2) as (q & qs & H & C & Q & F).
        exists [s1], (q :: qs). rewrite H, <- app_assoc. cbn [app concat]. rewrite C.
        repeat split; auto; discriminate.
      + destruct (IH pl (np ++ [s1])%list s2) as (q & qs & H & C & Q & F).
        exists (s1 :: q), qs. rewrite H, <- app_assoc. cbn [app]. rewrite C. repeat split; auto; discriminate.
  Qed.
  (** Inside a piece no joint is a cut; between pieces every joint is. *)
  Definition uncut (q : path) : Prop := forall a s t b, q = (a ++ s :: t :: b)%list -> cut_here s t = false.
  Lemma uncut_snoc q s t : uncut (q ++ [s]) -> cut_here s t = false -> uncut ((q ++ [s]) ++ [t]).
  Proof.
    intros U C a x y b H. destruct b as [|z b _] using rev_ind.
    - change (a ++ [x; y])%list with (a ++ [x] ++ [y])%list in H. rewrite app_assoc in H.
      apply app_inj_tail in H as [H ->]. apply app_inj_tail in H as [-> ->]. exact C.
    - change (a ++ x :: y :: b ++ [z])%list with (a ++ (x :: y :: b) ++ [z])%list in H.
      rewrite app_assoc in H. apply app_inj_tail in H as [H ->]. exact (U a x y b H).
  Qed.
  Lemma split_loop_joints (rest : path) : forall pl np s1,
    uncut (np ++ [s1]) ->
    exists qs, split_loop pl np s1 rest = (pl ++ qs)%list /\
      Forall uncut qs /\
      (forall a q r b, qs = (a ++ q :: r :: b)%list -> forall d, cut_here (last q d) (hd d r) = true) /\
      (forall d, hd d (hd [] qs) = hd d (np ++ [s1])).
  Proof.
    induction rest as [|s2 rest IH]; intros pl np s1 U; cbn [split_loop].
    - exists [np ++ [s1]]%list. repeat split; auto.
      + intros [|? [|? ?]] q r b H; discriminate.
    - destruct (cut_here s1 s2) eqn:C.
      + destruct (IH (pl ++ [np ++ [s1]])%list [] s2) as (qs & H & F & J & Hd).
        { intros [|? [|? ?]] s t b H; discriminate. }
        exists ((np ++ [s1]) :: qs)%list. rewrite H, <- app_assoc. split; [reflexivity|]. split; [constructor; auto|].
        split; [|reflexivity].
        intros a q r b Hq d. destruct a as [|x a].
        * cbn in Hq. injection Hq as <- Hq. subst qs. cbn in Hd. rewrite Hd, last_last. exact C.
        * cbn in Hq. injection Hq as _ Hq. exact (J a q r b Hq d).
      + destruct (IH pl (np ++ [s1])%list s2) as (qs & H & F & J & Hd); [now apply uncut_snoc|].
        exists qs. split; [exact H|]. split; [exact F|]. split; [exact J|].
        intros d. rewrite Hd. destruct np; reflexivity.
  Qed.
  Theorem split_spec (p : path) ps : split_path_g1 p = Ok ps ->
    concat ps = p /\ Forall (fun q => q <> []) ps /\ Forall uncut ps /\
    forall a q r b, ps = (a ++ q :: r :: b)%list -> forall d, cut_here (last q d) (hd d r) = true.
  Proof.
    destruct p as [|s p]; [discriminate|]. cbn [split_path_g1]. intros [= <-].
    destruct (split_loop_spec p [] [] s) as (q & qs & H & C & Q & F).
    destruct (split_loop_joints p [] [] s) as (rs & H' & U & J & _).
    { intros [|? [|? ?]] s0 t b H0; discriminate. }
    rewrite H in *. cbn [app] in *. subst rs. split; [exact C|]. split; [constructor; auto|]. split; [exact U|exact J].
  Qed.
  Lemma preprocess_forall (PS : cseg N -> Prop) k (l l' : list path) :
    preprocess k l = Ok l' -> Forall (Forall PS) l -> Forall (Forall PS) l'.
  Proof.
    revert l'. induction l as [|p l IH]; intros l' H F; [injection H as <-; constructor|].
    cbn in H. destruct (if path_split_cusps k then split_path_g1 p else Ok [p]) as [ps|e] eqn:Ep; [|discriminate].
    cbn in H. destruct (preprocess k l) as [rs|e]; [|discriminate]. injection H as <-.
    inversion F as [|? ? Fp Fl]; subst. apply Forall_app. split; [|apply IH; auto].
    destruct (path_split_cusps k); [|injection Ep as <-; constructor; auto].
    apply split_spec in Ep as (<- & _). clear -Fp. induction ps as [|q ps IH]; [constructor|].
    cbn in Fp. apply Forall_app in Fp as [A B]. constructor; auto.
  Qed.
  (** Preprocessing keeps the segments and their order. *)
  Lemma preprocess_concat k (l l' : list path) : preprocess k l = Ok l' -> concat l' = concat l.
  Proof.
    revert l'. induction l as [|p l IH]; intros l' H; [injection H as <-; reflexivity|].
    cbn in H. destruct (if path_split_cusps k then split_path_g1 p else Ok [p]) as [ps|e] eqn:Ep; [|discriminate].
    cbn in H. destruct (preprocess k l) as [rs|e]; [|discriminate]. injection H as <-.
    rewrite concat_app, (IH rs eq_refl). cbn. f_equal.
    destruct (path_split_cusps k); [|injection Ep as <-; cbn; apply app_nil_r]. apply split_spec in Ep. apply Ep.
  Qed.
End Lists.
