(** * PropsLines: order, direction and connection of grid lines (C144, C145). *)
From Coq Require Import ZArith List Bool Lia Permutation.
From Verif Require Import Num NumF64 Geom Lines.
Import ListNotations.

Section Order.
  Context {N : NumOps} {E : Epsilon N}.

  (** Specification.  [l] drawn the other way round *)
  Definition backwards (l : line N) : line N := Ln (p2 l) (p1 l).
  (** Line number [i] (from 0) is drawn backwards if that is asked for, and the other way if lines
      alternate and i is odd. *)
  Definition turned_round (reverse alternate : bool) (i : nat) : bool := xorb reverse (alternate && Nat.odd i).
  (** What is drawn for line number [i]. *)
  Definition strokes_of (doubled reverse alternate : bool) (i : nat) (l : line N) : list (line N) :=
    let there := if turned_round reverse alternate i then backwards l else l in
    let back := if turned_round reverse alternate i then l else backwards l in
    if doubled then [there; back] else [there].
  Fixpoint indexed {A B} (f : nat -> A -> list B) (i : nat) (l : list A) : list B :=
    match l with [] => [] | a :: r => f i a ++ indexed f (S i) r end.

  Lemma indexed_ext {A B} (f g : nat -> A -> list B) l : (forall i a, f i a = g i a) -> forall i, indexed f i l = indexed g i l.
  Proof. intros H. induction l as [|a l IH]; intros i; cbn; auto. now rewrite H, IH. Qed.
  Lemma indexed_single {A} (l : list A) : forall i, indexed (fun _ a => [a]) i l = l.
  Proof. induction l as [|a l IH]; intros i; cbn; auto. now rewrite IH. Qed.
  Lemma reversed_loop_spec lines d r a : forall i, reversed_loop lines d r a (Nat.odd i) = indexed (strokes_of d r a) i lines.
  Proof.
    induction lines as [|l lines IH]; intros i; auto. cbn [reversed_loop indexed].
    rewrite <- IH, Nat.odd_succ, <- Nat.negb_odd. f_equal. unfold strokes_of, turned_round, backwards.
    destruct r, a, (Nat.odd i), d; reflexivity.
  Qed.

  (** Every line is drawn in the direction asked for, immediately followed by its way back if lines are doubled;
      the order is kept. *)
  Theorem C144_direction lines doubled reverse alternate :
    insert_reversed_lines lines doubled reverse alternate = indexed (strokes_of doubled reverse alternate) 0 lines.
  Proof.
    unfold insert_reversed_lines. destruct (negb doubled && negb reverse && negb alternate) eqn:Q.
    - apply andb_true_iff in Q as [Q A]. apply andb_true_iff in Q as [D R]. destruct doubled, reverse, alternate; try discriminate.
      rewrite <- (indexed_single lines 0) at 1. apply indexed_ext. reflexivity.
    - exact (reversed_loop_spec lines doubled reverse alternate 0).
  Qed.

  (** ** C145 *)
  (** Each line starts where the one before ends (==). *)
  Fixpoint chain (lines : list (line N)) : Prop :=
    match lines with
    | l :: ((m :: _) as r) => peq (p2 l) (p1 m) = true /\ chain r
    | _ => True
    end.
  Lemma chain_snoc l q m : chain (l ++ [q]) -> peq (p2 q) (p1 m) = true -> chain ((l ++ [q]) ++ [m]).
  Proof.
    induction l as [|a l IH]; intros H J; [cbn; auto|]. cbn [app] in *. destruct l as [|b l].
    - cbn in *. tauto.
    - cbn [app] in *. destruct H as [A B]. split; [exact A|]. apply IH; auto.
  Qed.
  (** Two consecutive paths do not join. *)
  Fixpoint apart (paths : list (list (line N))) : Prop :=
    match paths with
    | p :: ((q :: _) as r) => (forall d, peq (p2 (last p d)) (p1 (hd d q)) = false) /\ apart r
    | _ => True
    end.
  Lemma paths_loop_spec lines : forall path q, chain (path ++ [q]) ->
    exists p rest, paths_loop (path ++ [q]) q lines = p :: rest /\ (exists t, p = (path ++ [q]) ++ t) /\
      concat (p :: rest) = (path ++ [q]) ++ lines /\ Forall (fun p => p <> [] /\ chain p) (p :: rest) /\ apart (p :: rest).
  Proof.
    induction lines as [|l lines IH]; intros path q C; cbn [paths_loop].
    - exists (path ++ [q]), []. split; [reflexivity|]. split; [exists []; now rewrite app_nil_r|]. split; [reflexivity|].
      split; [|exact Logic.I]. constructor; auto. split; auto. destruct path; discriminate.
    - destruct (peq (p2 q) (p1 l)) eqn:J.
      + destruct (IH (path ++ [q]) l (chain_snoc _ _ _ C J)) as (p & rest & E1 & (t & E2) & E3 & E4 & E5).
        exists p, rest. split; [exact E1|]. split; [exists (l :: t); rewrite E2, <- app_assoc; reflexivity|]. split; [|tauto].
        rewrite E3, <- app_assoc. reflexivity.
      + destruct (IH [] l Logic.I) as (p & rest & E1 & (t & E2) & E3 & E4 & E5). cbn [app] in E1, E2, E3.
        exists (path ++ [q]), (p :: rest). split; [now rewrite <- E1|]. split; [exists []; now rewrite app_nil_r|].
        split; [cbn [concat] in *; now rewrite E3|]. split; [constructor; auto; split; auto; destruct path; discriminate|].
        split; [|exact E5]. intros d. rewrite last_last. subst p. cbn [hd]. exact J.
  Qed.
  (** The paths drawn contain all lines in order; each is an unbroken chain; two successive ones do not join. *)
  Theorem C145_paths lines : concat (connected_paths lines) = lines /\ Forall (fun p => p <> [] /\ chain p) (connected_paths lines) /\ apart (connected_paths lines).
  Proof.
    destruct lines as [|l r]; [repeat split; constructor|]. unfold connected_paths.
    destruct (paths_loop_spec r [] l Logic.I) as (p & rest & E1 & _ & E3 & E4 & E5). cbn [app] in E1, E3. rewrite E1. auto.
  Qed.

  (** [out] is [lines] with connecting lines put in between: from the end of a line to the start of the next one. *)
  Inductive connected : list (line N) -> list (line N) -> Prop :=
  | conn_nil : connected [] []
  | conn_one l : connected [l] [l]
  | conn_touch l m r out : peq (p2 l) (p1 m) = true -> connected (m :: r) out -> connected (l :: m :: r) (l :: out)
  | conn_gap l m r out : peq (p2 l) (p1 m) = false -> connected (m :: r) out -> connected (l :: m :: r) (l :: Ln (p2 l) (p1 m) :: out).
  Lemma connectors_spec lines : connected lines (insert_connectors lines).
  Proof.
    unfold insert_connectors. destruct lines as [|l r]; [constructor|]. cbn [connectors_loop app]. revert l.
    induction r as [|m r IH]; intros l; [constructor|]. cbn [connectors_loop]. destruct (peq (p2 l) (p1 m)) eqn:Q; cbn [negb app].
    - now constructor.
    - now constructor.
  Qed.
  Theorem C145_connectors lines : connected lines (insert_connectors lines).
  Proof. exact (connectors_spec lines). Qed.

  (** ** The whole grid: every line of the two sets is drawn *)
  Lemma interleave_perm {A} (h v : list A) : Permutation (interleave h v) (h ++ v).
  Proof.
    revert v. induction h as [|a h IH]; intros v; [reflexivity|]. destruct v as [|b v]; [now rewrite app_nil_r|].
    cbn [interleave app]. constructor. rewrite (IH v). apply Permutation_middle.
  Qed.
  Definition drawn (h : bool) (out : list (bool * list (line N))) : list (list (line N)) :=
    map snd (filter (fun p => Bool.eqb (fst p) h) out).
  Lemma drawn_app h a b : drawn h (a ++ b) = drawn h a ++ drawn h b.
  Proof. unfold drawn. now rewrite filter_app, map_app. Qed.
  Lemma drawn_pair h b l : drawn h (map (pair b) l) = if Bool.eqb b h then l else [].
  Proof. unfold drawn. induction l as [|a l IH]; cbn; [now destruct (Bool.eqb b h)|]. destruct (Bool.eqb b h); cbn; rewrite IH; auto. Qed.
  Lemma drawn_perm h a b : Permutation a b -> Permutation (drawn h a) (drawn h b).
  Proof.
    intros H. unfold drawn. apply Permutation_map. induction H; cbn; auto; [destruct (Bool.eqb _ _); auto| |eapply Permutation_trans; eauto].
    destruct (Bool.eqb (fst x) h), (Bool.eqb (fst y) h); auto. apply perm_swap.
  Qed.
  Lemma drawn_interleave h a b : drawn h (interleave (map (pair true) a) (map (pair false) b)) = if h then a else b.
  Proof.
    revert b. induction a as [|x a IH]; intros b.
    - cbn [map interleave]. rewrite drawn_pair. destruct h; reflexivity.
    - destruct b as [|y b]; cbn [map interleave].
      + change ((true, x) :: map (pair true) a) with (map (pair true) (x :: a)). rewrite drawn_pair. destruct h; reflexivity.
      + unfold drawn in *. cbn [filter fst]. specialize (IH b). destruct h; cbn [Bool.eqb]; cbn [map snd]; now rewrite IH.
  Qed.
  Lemma interleave_turns (h v : list (bool * list (line N))) : Forall (fun p => fst p = true) h -> Forall (fun p => fst p = false) v ->
    forall i, (i < length h)%nat -> (i < length v)%nat ->
    exists p q, nth_error (interleave h v) (2 * i) = Some (true, p) /\ nth_error (interleave h v) (2 * i + 1) = Some (false, q).
  Proof.
    revert v. induction h as [|[t p] h IH]; intros v Hh Hv i I1 I2; [cbn in I1; lia|]. destruct v as [|[f q] v]; [cbn in I2; lia|].
    inversion Hh as [|? ? A1 A2]; subst. inversion Hv as [|? ? B1 B2]; subst. cbn in A1, B1. subst t f. cbn [interleave].
    destruct i as [|i]; [exists p, q; split; reflexivity|]. cbn [length] in *.
    replace (2 * S i)%nat with (S (S (2 * i))) by lia. cbn [nth_error Nat.add]. apply IH; auto; lia.
  Qed.
  (** The lines of one direction in the order and directions asked for, from the generated ones. *)
  Definition ordered (d : direction (N:=N)) (ls : list (line N)) : list (line N) :=
    indexed (strokes_of (d_double d) (d_reverse_path d) (d_alt d)) 0 (if d_reverse_order d then rev ls else ls).
  Theorem C144_grid fuel (h v : direction (N:=N)) hv sh hs vs out (hl vl : list (line N)) :
    (if d_draw h then make_lines fuel (d_set h) else Ok []) = Ok hl ->
    (if d_draw v then make_lines fuel (quarter (d_set v)) else Ok []) = Ok vl ->
    (forall l, Permutation (hs l) l) -> (forall l, Permutation (vs l) l) ->
    grid_paths fuel h v hv sh hs vs = Ok out ->
    exists hl' vl',
      (if negb hv && d_connect h then connected (ordered h hl) hl' else hl' = ordered h hl) /\
      (if negb hv && d_connect v then connected (ordered v vl) vl' else vl' = ordered v vl) /\
      Permutation (drawn true out) (connected_paths hl') /\ Permutation (drawn false out) (connected_paths vl') /\
      (sh = false -> drawn true out = connected_paths hl' /\ drawn false out = connected_paths vl') /\
      (hv = false -> out = map (pair true) (connected_paths hl') ++ map (pair false) (connected_paths vl')) /\
      (hv = true -> forall i, (i < length (connected_paths hl'))%nat -> (i < length (connected_paths vl'))%nat ->
        exists p q, nth_error out (2 * i) = Some (true, p) /\ nth_error out (2 * i + 1) = Some (false, q)).
  Proof.
    intros H1 H2 P1 P2. unfold grid_paths.
    assert (D1 : direction_lines fuel false h = Ok (ordered h hl)).
    { unfold direction_lines. destruct (d_draw h); [|injection H1 as <-; unfold ordered; destruct (d_reverse_order h); reflexivity].
      rewrite H1. cbn [rmap]. now rewrite C144_direction. }
    assert (D2 : direction_lines fuel true v = Ok (ordered v vl)).
    { unfold direction_lines. destruct (d_draw v); [|injection H2 as <-; unfold ordered; destruct (d_reverse_order v); reflexivity].
      rewrite H2. cbn [rmap]. now rewrite C144_direction. }
    rewrite D1, D2. cbn [rbind]. intros H.
    set (hl' := if negb hv && d_connect h then insert_connectors (ordered h hl) else ordered h hl) in *.
    set (vl' := if negb hv && d_connect v then insert_connectors (ordered v vl) else ordered v vl) in *.
    exists hl', vl'. split; [unfold hl'; destruct (negb hv && d_connect h); [apply connectors_spec|reflexivity]|].
    split; [unfold vl'; destruct (negb hv && d_connect v); [apply connectors_spec|reflexivity]|].
    clearbody hl' vl'.
    assert (E0 : out = (if hv && negb match hl' with [] => true | _ :: _ => false end && negb match vl' with [] => true | _ :: _ => false end
      then if sh then interleave (hs (map (pair true) (connected_paths hl'))) (vs (map (pair false) (connected_paths vl')))
           else interleave (map (pair true) (connected_paths hl')) (map (pair false) (connected_paths vl'))
      else map (pair true) (connected_paths hl') ++ map (pair false) (connected_paths vl'))) by congruence.
    assert (G : forall b, drawn b (map (pair true) (connected_paths hl') ++ map (pair false) (connected_paths vl')) = if b then connected_paths hl' else connected_paths vl').
    { intros b. rewrite drawn_app, !drawn_pair. destruct b; cbn [Bool.eqb]; now rewrite ?app_nil_r. }
    assert (PM : Permutation out (map (pair true) (connected_paths hl') ++ map (pair false) (connected_paths vl'))).
    { rewrite E0. destruct (hv && _ && _); [|reflexivity]. destruct sh; rewrite interleave_perm; [|reflexivity].
      now rewrite (P1 _), (P2 _). }
    split; [rewrite <- (G true); now apply drawn_perm|split; [rewrite <- (G false); now apply drawn_perm|]].
    split; [intros ->; rewrite E0; destruct (hv && _ && _); [rewrite !drawn_interleave|rewrite !G]; split; reflexivity|].
    split; [intros ->; rewrite E0; reflexivity|]. intros -> i I1 I2. rewrite E0.
    destruct hl' as [|a hl']; [cbn in I1; lia|]. destruct vl' as [|b vl']; [cbn in I2; lia|]. cbn [andb negb].
    assert (K : forall (b : bool) f l, (forall l, Permutation (f l) l) -> Forall (fun p : bool * list (line N) => fst p = b) (f (map (pair b) l)) /\ length (f (map (pair b) l)) = length l).
    { intros c f l Pf. split; [|rewrite (Permutation_length (Pf _)); apply map_length]. apply (Permutation_Forall (Permutation_sym (Pf _))).
      apply Forall_forall. intros p Hp. apply in_map_iff in Hp as (x & <- & _). reflexivity. }
    destruct sh.
    - destruct (K true hs (connected_paths (a :: hl')) P1) as [K1 K2]. destruct (K false vs (connected_paths (b :: vl')) P2) as [K3 K4].
      apply interleave_turns; auto; [rewrite K2|rewrite K4]; assumption.
    - destruct (K true (fun l => l) (connected_paths (a :: hl')) (fun l => Permutation_refl l)) as [K1 K2].
      destruct (K false (fun l => l) (connected_paths (b :: vl')) (fun l => Permutation_refl l)) as [K3 K4].
      apply interleave_turns; auto; [rewrite K2|rewrite K4]; assumption.
  Qed.
End Order.
