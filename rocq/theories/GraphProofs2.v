(** * GraphProofs2: culling (C51), path building (C52) *)
From Coq Require Import List Bool Arith Lia Permutation.
From Verif Require Import Graph GraphSpec GraphProofs.
Import ListNotations.

Section Proofs.
  Context {V : Type} (G : geo V).
  Notation E := (V * V)%type.
  Local Notation adj := (adj G). Local Notation degree := (degree G). Local Notation gwf := (gwf G). Local Notation wf := (wf G).

  (** ** removing a batch of edges *)
  Definition one_way (l : list E) := NoDup l /\ forall u v, In (u, v) l -> ~ In (v, u) l.
  Lemma removed_In (es : list E) p1 p2 e : (forall u v, In (u, v) es -> ~ In (v, u) es) -> In (p1, p2) es ->
    (In e (filter (fun f => negb (eqe G (p1, p2) f)) es) <-> In e es /\ e <> (p1, p2)).
  Proof.
    intros F I. rewrite filter_In, negb_true_iff, <- not_true_iff_false, eqe_true. unfold same_edge. cbn. split.
    - intros [X Y]. split; auto.
    - intros [X Y]. split; auto. intros [->| ->]; auto. eapply F; eauto.
  Qed.
  Lemma remove_batch l : forall g, gwf g -> NoDup l -> incl l (edges g) ->
    exists g', fold_op (remove_edge G) g l = (g', true) /\ gwf g' /\ bottom g' = bottom g /\
      (forall e, In e (edges g') <-> In e (edges g) /\ ~ In e l).
  Proof.
    induction l as [|[p1 p2] r IH]; intros g W N I.
    - exists g. cbn. split; [auto|split; [auto|split; [auto|intros; tauto]]].
    - inversion N; subst. assert (I1 : In (p1, p2) (edges g)) by (apply I; left; auto).
      destruct (remove_edge_present G g p1 p2 W) as [m [Q W']]; [left; auto|].
      set (es' := filter _ _) in *. cbn [fold_op]. rewrite Q.
      assert (EI : forall e, In e es' <-> In e (edges g) /\ e <> (p1, p2)) by (intros; apply removed_In; auto; apply (w_one_dir _ _ _ W)).
      destruct (IH (mkg es' m (bottom g) true)) as [g' [Q' [W2 [B X]]]]; auto.
      + intros e Ie. cbn. apply EI. split; [apply I; right; auto|]. intros ->; auto.
      + exists g'. split; [auto|split; [auto|split; [auto|]]]. intros e. rewrite X. cbn. rewrite EI. intuition.
  Qed.
  Lemma wf_incident_le es m (s : list E) u : wf es m -> NoDup s -> incl s es -> length (incident G s u) <= degree m u.
  Proof.
    intros W N I. rewrite (degree_incident G es m u W). apply NoDup_incl_length.
    - apply NoDup_filter; auto.
    - intros e X. apply filter_In in X. apply filter_In. split; [apply I|]; tauto.
  Qed.
  Lemma incident_pos (s : list E) e u : In e s -> touches u e -> 1 <= length (incident G s u).
  Proof.
    intros I T. assert (X : In e (incident G s u)). { apply filter_In. split; auto. destruct (touches_dec G u e); auto. }
    destruct (incident G s u); [destruct X|cbn; lia].
  Qed.
  Lemma is_open_true m e : is_open G m e = true -> exists u, touches u e /\ degree m u = 1.
  Proof.
    unfold is_open. rewrite orb_true_iff, !Nat.eqb_eq. unfold touches. intros [X|X]; eauto.
  Qed.
  Lemma NoDup_length_lt (a b : list E) x : NoDup a -> incl a b -> In x b -> ~ In x a -> length a < length b.
  Proof.
    intros N I J K. assert (L : length (x :: a) <= length b). { apply NoDup_incl_length; [constructor; auto|]. intros y [->|Y]; auto. }
    cbn in L. lia.
  Qed.
  Lemma cull_loop_ok perm : (forall l, Permutation (perm l) l) -> forall n g, gwf g -> length (edges g) < n ->
    exists g', cull_loop G perm n g = Some (g', true) /\ gwf g' /\ incl (edges g') (edges g) /\
      (forall u, degree (nodes g') u <> 1) /\
      (forall s, NoDup s -> incl s (edges g) -> no_dead_ends G s -> incl s (edges g')).
  Proof.
    intros Hp. induction n as [|n IH]; intros g W L; [lia|]. cbn [cull_loop].
    destruct (filter (is_open G (nodes g)) (perm (edges g))) as [|e0 op] eqn:Q.
    - exists g. split; [auto|split; [auto|split; [apply incl_refl|split; [|auto]]]].
      intros u D. rewrite (degree_incident G _ _ u W) in D. destruct (incident G (edges g) u) as [|e l] eqn:QI; [discriminate|].
      assert (Ie : In e (incident G (edges g) u)) by (rewrite QI; left; auto). apply filter_In in Ie. destruct Ie as [Ie T].
      destruct (touches_dec G u e) as [T'|]; [|discriminate].
      assert (X : In e (filter (is_open G (nodes g)) (perm (edges g)))); [|rewrite Q in X; destruct X].
      apply filter_In. split; [eapply Permutation_in; [symmetry; apply Hp|auto]|].
      unfold is_open. rewrite orb_true_iff, !Nat.eqb_eq. unfold touches in T'.
      assert (DU : degree (nodes g) u = 1) by (rewrite (degree_incident G _ _ u W), QI; auto).
      destruct T' as [->| ->]; auto.
    - assert (O : forall e, In e (e0 :: op) <-> In e (edges g) /\ is_open G (nodes g) e = true).
      { intros e. rewrite <- Q, filter_In. split; intros [X Y]; split; auto; eapply Permutation_in; try eassumption; [apply Hp|symmetry; apply Hp]. }
      destruct (remove_batch (e0 :: op) g W) as [g1 [Q1 [W1 [B1 X1]]]].
      + rewrite <- Q. apply NoDup_filter. eapply Permutation_NoDup; [symmetry; apply Hp|apply (w_nodup_edges _ _ _ W)].
      + intros e X. apply O in X. tauto.
      + rewrite Q1. destruct (IH g1 W1) as [g2 [Q2 [W2 [I2 [D2 S2]]]]].
        { assert (X : length (edges g1) < length (edges g)); [|lia]. apply NoDup_length_lt with e0.
          - apply (w_nodup_edges _ _ _ W1).
          - intros e X. apply X1 in X. tauto.
          - apply O. left; auto.
          - intros X. apply X1 in X. destruct X as [_ X]. apply X. left; auto. }
        exists g2. split; [auto|split; [auto|split; [|split; [auto|]]]].
        * intros e X. apply I2 in X. apply X1 in X. tauto.
        * intros s N I ND. apply S2; auto. intros e X. apply X1. split; auto. intros Y. apply O in Y. destruct Y as [_ Y].
          apply is_open_true in Y. destruct Y as [u [T D]]. apply (ND u).
          pose proof (wf_incident_le _ _ s u W N I). pose proof (incident_pos s e u X T). lia.
  Qed.

  (** the lowest node *)
  Definition y_total := forall a b c, ylt G a b = false -> ylt G b c = false -> ylt G a c = false.
  Lemma find_bottom_ok vs : (forall a b c, ylt G a b = false -> ylt G b c = false -> ylt G a c = false) ->
    (forall a b, ylt G a b = true -> ylt G b a = false) ->
    match find_bottom G vs with
    | BNode b => In b vs /\ forall v, In v vs -> ylt G v b = false
    | BNone => vs = []
    | BMax => False
    end.
  Proof.
    intros T A. destruct vs as [|v r]; cbn; auto.
    assert (Ir : forall a, ylt G a a = false) by (intros a; destruct (ylt G a a) eqn:Q; auto; rewrite (A _ _ Q) in Q; auto).
    revert v. induction r as [|w r IH]; intros v; cbn.
    - split; auto. intros x [->|[]]. auto.
    - destruct (IH (if ylt G w v then w else v)) as [I M]. split.
      + destruct (ylt G w v), I as [<-|I]; auto.
      + intros x X. destruct (ylt G w v) eqn:Q.
        * destruct X as [<-|[<-|X]]; [|apply M; left; auto|apply M; right; auto].
          eapply T; [apply A, Q|apply M; left; auto].
        * destruct X as [<-|[<-|X]]; [apply M; left; auto| |apply M; right; auto].
          eapply T; [apply Q|apply M; left; auto].
  Qed.

  (** ** Paths *)
  Lemma uses_app e (a b : list E) : uses G e (a ++ b) = uses G e a + uses G e b.
  Proof. unfold uses. rewrite filter_app, app_length. auto. Qed.
  Lemma uses_cons e f (b : list E) : uses G e (f :: b) = uses G e [f] + uses G e b.
  Proof. apply (uses_app e [f] b). Qed.
  Lemma uses_one e f : uses G e [f] = if same_edge_dec G e f then 1 else 0.
  Proof. unfold uses. cbn. destruct (same_edge_dec G e f); auto. Qed.
  Lemma same_edge_swap (e f : E) : same_edge e (snd f, fst f) <-> same_edge e f.
  Proof.
    destruct e, f. unfold same_edge. cbn. split; (intros [Q|Q]; injection Q; intros; subst; auto).
  Qed.
  Lemma same_edge_sym (e f : E) : same_edge e f -> same_edge f e.
  Proof. destruct e, f. unfold same_edge. cbn. intros [Q|Q]; injection Q; intros; subst; auto. Qed.
  Lemma uses_swap e a b : uses G e [(a, b)] = uses G e [(b, a)].
  Proof.
    rewrite !uses_one. pose proof (same_edge_swap e (a, b)) as S. cbn in S.
    destruct (same_edge_dec G e (a, b)), (same_edge_dec G e (b, a)); tauto.
  Qed.
  Lemma uses_zero e (l : list E) : uses G e l = 0 <-> ~ joins l (fst e) (snd e).
  Proof.
    unfold uses, joins. split.
    - intros Q X. apply length_zero_iff_nil in Q. destruct e as [a b]. cbn in X.
      assert (Y : exists f, In f (filter (fun f : V * V => if same_edge_dec G (a, b) f then true else false) l)).
      { destruct X as [X|X]; eexists; apply filter_In; (split; [exact X|]).
        - destruct (same_edge_dec G (a, b) (a, b)); auto. exfalso; apply n; left; auto.
        - destruct (same_edge_dec G (a, b) (b, a)); auto. exfalso; apply n; right; auto. }
      destruct Y as [f Y]. rewrite Q in Y. destruct Y.
    - intros X. destruct (filter _ l) as [|f r] eqn:Q; auto. exfalso. assert (Y : In f (f :: r)) by (left; auto). rewrite <- Q in Y.
      apply filter_In in Y. destruct Y as [Y Z]. destruct (same_edge_dec G e f) as [S|]; [|discriminate]. apply X. destruct e as [a b]. cbn.
      destruct S as [->| ->]; auto.
  Qed.
  Lemma uses_pos e (l : list E) : 1 <= uses G e l <-> joins l (fst e) (snd e).
  Proof.
    pose proof (uses_zero e l). destruct (mem_e G e l) eqn:M.
    - apply mem_e_true in M. intuition. destruct (uses G e l); [tauto|lia].
    - apply mem_e_false in M. intuition. lia.
  Qed.
  Lemma joins_same (l : list E) e f : same_edge e f -> joins l (fst e) (snd e) -> joins l (fst f) (snd f).
  Proof. destruct e as [a b]. intros [->| ->]; cbn; auto. apply joins_sym. Qed.

  Lemma add_set_uses c (vis : list E) e : uses G e (add_set G c vis) = if mem_e G c vis then uses G e vis else uses G e vis + uses G e [c].
  Proof. unfold add_set. destruct (mem_e G c vis); auto. apply uses_app. Qed.
  Lemma add_set_joins c (vis : list E) u v : joins (add_set G c vis) u v <-> joins vis u v \/ joins [c] u v.
  Proof.
    unfold add_set. destruct (mem_e G c vis) eqn:M; [|apply joins_app]. apply mem_e_true in M. split; auto. intros [X|X]; auto.
    destruct c as [a b]. apply joins_one in X. destruct X as [[-> ->]|[-> ->]]; auto. apply joins_sym; auto.
  Qed.
  Lemma choice_In {A} rs k (l : list A) d : l <> [] -> In (choice rs k l d) l.
  Proof. intros N. unfold choice. apply nth_In. apply Nat.mod_upper_bound. destruct l; [contradiction|discriminate]. Qed.
  Lemma last_In {A} (l : list A) d : l <> [] -> In (last l d) l.
  Proof. intros N. pattern l at 2. rewrite (app_removelast_last d N). apply in_app_iff. right. left. auto. Qed.
  Lemma exit_node_In m st rs k prev curr vis x k' : exit_node G m st rs k prev curr vis = (Some x, k') ->
    In x (adj m curr) /\ x <> prev /\ ~ joins vis curr x.
  Proof.
    unfold exit_node. destruct (degree m curr =? 1); [discriminate|].
    destruct (sort (turn_lt G prev curr) (exits G m prev curr vis)) as [|y r] eqn:Q; [discriminate|].
    intros H. assert (I : In x (y :: r)).
    { destruct st; injection H; intros; subst; clear H.
      - left; auto.
      - apply (last_In (y :: r) y). discriminate.
      - apply choice_In. discriminate.
      - assert (X : In (choice rs k (firstn 3 (y :: y :: r)) y) (firstn 3 (y :: y :: r))) by (apply choice_In; discriminate).
        assert (Y : forall z, In z (firstn 3 (y :: y :: r)) -> In z (y :: r)); [|apply Y, X].
        cbn [firstn]. intros z [->|[->|Z]]; try (left; auto; fail). right. destruct r; cbn in Z; [destruct Z|]. destruct Z as [->|[]]. left; auto. }
    rewrite <- Q in I. eapply Permutation_in in I; [|apply sort_perm]. unfold exits in I. apply filter_In in I.
    destruct I as [I J]. apply andb_true_iff in J. rewrite !negb_true_iff in J. destruct J as [J1 J2].
    apply eqv_false in J1. apply mem_e_false in J2. cbn in J2. auto.
  Qed.

  Definition unseen (es vis : list E) (c : E) : nat := length (filter (fun e => negb (mem_e G e vis) && negb (eqe G e c)) es).
  Lemma filter_length_lt {A} (f h : A -> bool) l x : In x l -> h x = true -> f x = false -> (forall y, f y = true -> h y = true) ->
    length (filter f l) < length (filter h l).
  Proof.
    intros I Hh Hf M. assert (LE : forall l, length (filter f l) <= length (filter h l)).
    { induction l0 as [|y r IH]; cbn; auto. destruct (f y) eqn:Q; [rewrite (M _ Q); cbn; lia|]. destruct (h y); cbn; lia. }
    induction l as [|y r IH]; [destruct I|]. cbn. destruct I as [->|I].
    - rewrite Hh, Hf. cbn. specialize (LE r). lia.
    - specialize (IH I). destruct (f y) eqn:Q; [rewrite (M _ Q); cbn; lia|]. destruct (h y); cbn; lia.
  Qed.
  Lemma eqe_refl_false e f : eqe G e f = false <-> ~ same_edge e f.
  Proof. rewrite <- not_true_iff_false, eqe_true. tauto. Qed.
  Lemma unseen_lt es vis prev curr x : joins es curr x -> x <> prev -> ~ joins vis curr x -> prev <> curr ->
    unseen es (add_set G (prev, curr) vis) (curr, x) < unseen es vis (prev, curr).
  Proof.
    intros J N U PC. unfold unseen.
    assert (X : exists e, In e es /\ same_edge (curr, x) e). { destruct J as [J|J]; eexists; (split; [exact J|]); unfold same_edge; auto. }
    destruct X as [e [I S]]. eapply filter_length_lt with (x := e); auto.
    - apply andb_true_iff. rewrite !negb_true_iff. split.
      + apply mem_e_false. intros Q. apply U. apply (joins_same _ e (curr, x)); auto. apply same_edge_sym; auto.
      + apply eqe_refl_false. intros Q. destruct S as [->| ->], Q as [Q|Q]; cbn in Q; injection Q; intros; subst; auto.
    - apply andb_false_iff. right. apply negb_false_iff, eqe_true, same_edge_sym, S.
    - intros f. rewrite !andb_true_iff, !negb_true_iff. intros [A B].
      apply mem_e_false in A. rewrite add_set_joins in A. split; [apply mem_e_false; tauto|].
      apply eqe_refl_false. intros Q. apply A. right. destruct f as [a b]. cbn. apply joins_one.
      destruct Q as [Q|Q]; cbn in Q; injection Q; intros; subst; auto.
  Qed.

  Lemma forward_ok es m st rs : wf es m -> forall n k prev curr vis, joins es prev curr ->
    (forall u v, joins vis u v -> joins es u v) -> (forall e, uses G e vis <= 1) -> unseen es vis (prev, curr) < n ->
    exists q vis' k', forward G m st rs n k prev curr vis = Some (curr :: q, vis', k') /\
      (forall u v, In (u, v) (steps (curr :: q)) -> joins es u v) /\
      (forall e, uses G e vis' = uses G e (add_set G (prev, curr) vis) + uses G e (steps (curr :: q))) /\
      (forall u v, joins vis' u v -> joins es u v) /\ (forall e, uses G e vis' <= 1).
  Proof.
    intros W. assert (NL : forall u v, joins es u v -> u <> v) by (intros u v J ->; apply (w_noloop _ _ _ W v); auto).
    induction n as [|n IH]; intros k prev curr vis J SV U L; [lia|]. cbn [forward].
    assert (SV' : forall u v, joins (add_set G (prev, curr) vis) u v -> joins es u v).
    { intros u v. rewrite add_set_joins. intros [X|X]; auto. apply joins_one in X. destruct X as [[-> ->]|[-> ->]]; auto. apply joins_sym; auto. }
    assert (U' : forall e, uses G e (add_set G (prev, curr) vis) <= 1).
    { intros e. rewrite add_set_uses. destruct (mem_e G (prev, curr) vis) eqn:M; auto. rewrite uses_one.
      destruct (same_edge_dec G e (prev, curr)) as [S|]; [|specialize (U e); lia].
      apply mem_e_false in M. assert (uses G e vis = 0); [|lia]. apply uses_zero. intros Q. apply M. apply (joins_same _ e); auto. }
    destruct (exit_node G m st rs k prev curr vis) as [[x|] k1] eqn:Q.
    - apply exit_node_In in Q. destruct Q as [Q1 [Q2 Q3]]. apply (w_sym _ _ _ W) in Q1.
      destruct (IH k1 curr x (add_set G (prev, curr) vis)) as [q [vis' [k' [F [S1 [S2 [S3 S4]]]]]]]; auto.
      { pose proof (unseen_lt es vis prev curr x Q1 Q2 Q3 (NL _ _ J)). lia. }
      rewrite F. exists (x :: q), vis', k'. split; [auto|]. split; [|split; [|split; auto]].
      + intros u v [X|X]; [injection X; intros; subst; auto|apply S1; auto].
      + intros e. rewrite S2, add_set_uses.
        assert (M : mem_e G (curr, x) (add_set G (prev, curr) vis) = false).
        { apply mem_e_false. cbn. rewrite add_set_joins, joins_one. intuition. apply (NL _ _ J); auto. }
        rewrite M. change (steps (curr :: x :: q)) with ((curr, x) :: steps (x :: q)). rewrite (uses_cons e (curr, x) (steps (x :: q))). lia.
    - exists [], (add_set G (prev, curr) vis), k1. split; [auto|]. cbn [steps]. split; [intros u v []|split; [|split; auto]].
      intros e. unfold uses at 3. cbn. lia.
  Qed.

  Lemma steps_cat (l q : list V) a : steps (l ++ a :: q) = steps (l ++ [a]) ++ steps (a :: q).
  Proof.
    induction l as [|x l IH]; cbn [app]; auto. destruct l as [|y l]; [reflexivity|]. cbn [app] in *.
    change (steps (x :: y :: l ++ a :: q)) with ((x, y) :: steps (y :: l ++ a :: q)).
    change (steps (x :: y :: l ++ [a])) with ((x, y) :: steps (y :: l ++ [a])). rewrite IH. auto.
  Qed.
  Lemma uses_rev_steps e (l : list V) : uses G e (steps (rev l)) = uses G e (steps l).
  Proof.
    induction l as [|a l IH]; auto. cbn [rev]. destruct l as [|b l]; auto.
    change (steps (a :: b :: l)) with ((a, b) :: steps (b :: l)). rewrite uses_cons, <- IH.
    cbn [rev]. rewrite <- app_assoc. cbn [app]. rewrite steps_cat, uses_app. cbn [steps]. rewrite (uses_swap e b a). lia.
  Qed.
  Lemma steps_rev_In (l : list V) u v : In (u, v) (steps (rev l)) -> In (v, u) (steps l).
  Proof.
    induction l as [|a l IH]; cbn; auto. destruct l as [|b l]; cbn; auto. cbn [rev]. rewrite <- app_assoc. cbn [app].
    rewrite steps_cat, in_app_iff. intros [X|X]; [right; apply IH; cbn; auto|]. cbn in X. destruct X as [X|[]]. injection X; intros; subst; auto.
  Qed.

  Definition path_ok (es : list E) (p : list V) := 2 <= length p /\ forall u v, In (u, v) (steps p) -> joins es u v.
  Lemma unseen_le es vis c : unseen es vis c <= length es.
  Proof. unfold unseen. induction es as [|e r IH]; cbn; auto. destruct (_ && _); cbn; lia. Qed.
  Lemma build_path_ok g st rs k a b vis : gwf g -> joins (edges g) a b -> (forall u v, joins vis u v -> joins (edges g) u v) ->
    (forall e, uses G e vis <= 1) -> ~ joins vis a b ->
    exists p vis' k', build_path G g st rs k (a, b) vis = Some (p, vis', k') /\ path_ok (edges g) p /\
      (forall e, uses G e vis' = uses G e vis + uses G e (steps p)) /\
      (forall u v, joins vis' u v -> joins (edges g) u v) /\ (forall e, uses G e vis' <= 1) /\ joins (steps p) a b.
  Proof.
    intros W J SV U NV. unfold build_path. unfold size.
    destruct (forward_ok (edges g) (nodes g) st rs W (S (length (edges g))) k a b vis J SV U) as [q [v1 [k1 [F1 [A1 [B1 [C1 D1]]]]]]];
      [pose proof (unseen_le (edges g) vis (a, b)); lia|].
    rewrite F1.
    destruct (forward_ok (edges g) (nodes g) st rs W (S (length (edges g))) k1 b a v1 (joins_sym _ _ _ J) C1 D1) as [q2 [v2 [k2 [F2 [A2 [B2 [C2 D2]]]]]]];
      [pose proof (unseen_le (edges g) v1 (b, a)); lia|].
    rewrite F2. eexists _, v2, k2. split; [reflexivity|].
    assert (M1 : mem_e G (a, b) vis = false) by (apply mem_e_false; auto).
    assert (M2 : mem_e G (b, a) v1 = true).
    { apply mem_e_true. apply (uses_pos (b, a)). rewrite B1, add_set_uses, M1. rewrite (uses_swap (b, a) a b), uses_one.
      destruct (same_edge_dec G (b, a) (b, a)); [lia|]. exfalso; apply n; left; auto. }
    assert (B3 : forall e, uses G e v2 = uses G e vis + uses G e (steps (a :: b :: q)) + uses G e (steps (a :: q2))).
    { intros e. rewrite B2, add_set_uses, M2, B1, add_set_uses, M1. change (steps (a :: b :: q)) with ((a, b) :: steps (b :: q)).
      rewrite (uses_cons e (a, b) (steps (b :: q))). lia. }
    assert (P1 : forall u v, In (u, v) (steps (a :: b :: q)) -> joins (edges g) u v).
    { intros u v [X|X]; [injection X; intros; subst; auto|auto]. }
    destruct q2 as [|z q2]; cbn [length Nat.ltb Nat.leb].
    - split; [split; [cbn; lia|auto]|]. split; [|split; [auto|split; [auto|left; left; auto]]].
      intros e. rewrite B3. unfold uses at 3. cbn. lia.
    - cbn [skipn].
      assert (R : rev (a :: b :: q) = rev (b :: q) ++ [a]) by reflexivity.
      assert (R2 : rev (a :: b :: q) ++ z :: q2 = rev (b :: q) ++ a :: z :: q2) by (rewrite R, <- app_assoc; auto).
      assert (ST : steps (rev (a :: b :: q) ++ z :: q2) = steps (rev (a :: b :: q)) ++ steps (a :: z :: q2)).
      { rewrite R2, steps_cat. rewrite R. auto. }
      split; [split|split; [|split; [auto|split; [auto|]]]].
      + rewrite app_length, rev_length. cbn. lia.
      + intros u v. rewrite ST, in_app_iff. intros [X|X]; [|auto]. apply steps_rev_In in X. apply joins_sym; auto.
      + intros e. rewrite B3, ST, uses_app, uses_rev_steps. lia.
      + rewrite ST, joins_app. left. apply (uses_pos (a, b)). rewrite uses_rev_steps. apply uses_pos. left; left; auto.
  Qed.

  Lemma paths_loop_ok g st rs : gwf g -> forall n k start free vis, (forall u v, joins vis u v -> joins (edges g) u v) ->
    (forall e, uses G e vis <= 1) -> free = filter (fun e => negb (mem_e G e vis)) (edges g) ->
    (free <> [] -> joins (edges g) (fst start) (snd start) /\ ~ joins vis (fst start) (snd start)) -> length free < n ->
    exists ps, paths_loop G g st rs n k start free vis = Some ps /\
      (forall p, In p ps -> path_ok (edges g) p) /\
      (forall e, In e (edges g) -> uses G e vis + uses G e (flat_map steps ps) = 1).
  Proof.
    intros W. induction n as [|n IH]; intros k start free vis SV U FR ST L; [lia|]. cbn [paths_loop].
    destruct free as [|e0 r0].
    - exists []. split; auto. split; [intros p []|]. intros e I. cbn [flat_map]. rewrite (proj2 (uses_zero e [])) by (unfold joins; cbn; tauto).
      assert (J : joins vis (fst e) (snd e)).
      { apply mem_e_true with (G := G). destruct (mem_e G e vis) eqn:M; auto. exfalso.
        assert (X : In e []) by (rewrite FR; apply filter_In; rewrite M; auto). destruct X. }
      apply uses_pos in J. specialize (U e). lia.
    - destruct ST as [J NV]; [discriminate|]. destruct start as [a b]. cbn in J, NV.
      destruct (build_path_ok g st rs k a b vis W J SV U NV) as [p [v2 [k2 [Q [PO [UE [SV2 [U2 JP]]]]]]]].
      rewrite Q. set (free0 := e0 :: r0) in *.
      assert (FF : filter (fun e => negb (mem_e G e v2)) free0 = filter (fun e => negb (mem_e G e v2)) (edges g)).
      { rewrite FR. clear - UE. induction (edges g) as [|e l IHl]; cbn; auto. destruct (mem_e G e vis) eqn:M; cbn; rewrite IHl; auto.
        assert (X : mem_e G e v2 = true); [|rewrite X; auto]. apply mem_e_true. apply uses_pos. rewrite UE. apply mem_e_true in M. apply uses_pos in M. lia. }
      assert (LT : length (filter (fun e => negb (mem_e G e v2)) free0) < length free0).
      { assert (X : exists e, In e free0 /\ same_edge (a, b) e).
        { assert (Y : exists e, In e (edges g) /\ same_edge (a, b) e).
          { destruct J as [J|J]; eexists; (split; [exact J|]); unfold same_edge; auto. }
          destruct Y as [e [I S]]. exists e. split; auto. rewrite FR. apply filter_In. split; auto. apply negb_true_iff, mem_e_false.
          intros Z. apply NV. apply (joins_same _ e (a, b)); auto. apply same_edge_sym; auto. }
        destruct X as [e [I S]].
        replace (length free0) with (length (filter (fun _ => true) free0)).
        - apply filter_length_lt with (x := e); auto. apply negb_false_iff, mem_e_true, uses_pos. rewrite UE.
          apply (joins_same _ (a, b) e) in JP; auto. apply uses_pos in JP. lia.
        - clear. induction free0; cbn; auto. }
      destruct (filter (fun e => negb (mem_e G e v2)) free0) as [|e1 r1] eqn:QF.
      + exists [p]. split; auto. split; [intros p' [<-|[]]; auto|]. intros e I. cbn [flat_map]. rewrite app_nil_r, <- UE.
        assert (X : joins v2 (fst e) (snd e)).
        { apply mem_e_true with (G := G). destruct (mem_e G e v2) eqn:M; auto. exfalso.
          assert (Y : In e []) by (rewrite FF; apply filter_In; rewrite M; auto). destruct Y. }
        apply uses_pos in X. specialize (U2 e). lia.
      + destruct (IH (S k2) (choice rs k2 (e1 :: r1) e1) (e1 :: r1) v2) as [ps [Q2 [A B]]]; auto.
        * intros _. assert (X : In (choice rs k2 (e1 :: r1) e1) (e1 :: r1)) by (apply choice_In; discriminate).
          set (e2 := choice rs k2 (e1 :: r1) e1) in *. clearbody e2. rewrite FF in X. apply filter_In in X. destruct X as [X Y]. split.
          -- left. destruct e2; auto.
          -- apply negb_true_iff, mem_e_false in Y. auto.
        * lia.
        * rewrite Q2. exists (p :: ps). split; auto. split; [intros p' [<-|X]; auto|].
          intros e I. cbn [flat_map]. rewrite uses_app. specialize (B e I). rewrite UE in B. lia.
  Qed.
  Lemma uses_perm e (a b : list (list V)) : Permutation a b -> uses G e (flat_map steps a) = uses G e (flat_map steps b).
  Proof.
    induction 1; cbn [flat_map]; auto; rewrite ?uses_app; lia.
  Qed.
  Lemma build_paths_ok g st rs s : gwf g ->
    match s with Some e => joins (edges g) (fst e) (snd e) | None => edges g <> [] end ->
    exists ps, build_paths G g st rs s = Some ps /\ (forall p, In p ps -> path_ok (edges g) p) /\
      (forall e, In e (edges g) -> uses G e (flat_map steps ps) = 1).
  Proof.
    intros W H. unfold build_paths.
    assert (X : forall k s', (edges g <> [] -> joins (edges g) (fst s') (snd s')) ->
      exists ps, option_map (sort (fun p q : list V => length p <? length q)) (paths_loop G g st rs (S (size g)) k s' (edges g) []) = Some ps /\
       (forall p, In p ps -> path_ok (edges g) p) /\ (forall e, In e (edges g) -> uses G e (flat_map steps ps) = 1)).
    { intros k s' J. destruct (paths_loop_ok g st rs W (S (size g)) k s' (edges g) []) as [ps [Q [A B]]].
      - unfold joins; cbn; tauto.
      - intros e. unfold uses. cbn. lia.
      - cbn. clear. induction (edges g) as [|e l IHl]; cbn; auto. f_equal. auto.
      - intros N. split; [auto|]. unfold joins; cbn; tauto.
      - unfold size. lia.
      - rewrite Q. cbn [option_map]. eexists. split; [reflexivity|]. split.
        + intros p I. apply A. eapply Permutation_in; [apply sort_perm|exact I].
        + intros e I. specialize (B e I). erewrite uses_perm; [|apply sort_perm]. exact B. }
    destruct s as [s|]; [apply X; auto|]. destruct (edges g) as [|e r] eqn:Q; [contradiction|]. apply X. intros _. left.
    rewrite <- surjective_pairing. apply choice_In. discriminate.
  Qed.
  (** the sort by length *)
  Fixpoint desc (l : list (list V)) : Prop :=
    match l with [] => True | p :: r => (forall q, In q r -> length q <= length p) /\ desc r end.
  Lemma insert_desc' (p : list V) l : desc l -> desc (insert (fun p q : list V => length p <? length q) p l).
  Proof.
    induction l as [|q r IH]; cbn [insert desc]; [intros; split; auto; intros ? []|]. intros [A B]. destruct (length q <? length p) eqn:Q.
    - apply Nat.ltb_lt in Q. cbn. split; [|split; auto]. intros x [->|X]; [lia|]. specialize (A x X). lia.
    - apply Nat.ltb_ge in Q. cbn. split; [|auto]. intros x X. eapply Permutation_in in X; [|apply insert_perm].
      destruct X as [->|X]; auto.
  Qed.
  Lemma sort_desc l : desc (sort (fun p q : list V => length p <? length q) l).
  Proof.
    unfold sort. assert (H : forall l acc, desc acc -> desc (fold_left (fun acc x => insert (fun p q : list V => length p <? length q) x acc) l acc)).
    { induction l0; cbn; auto. intros. apply IHl0, insert_desc'; auto. }
    apply H. cbn. auto.
  Qed.
  Lemma build_paths_desc g st rs s ps : build_paths G g st rs s = Some ps -> desc ps.
  Proof.
    unfold build_paths. assert (X : forall o, option_map (sort (fun p q : list V => length p <? length q)) o = Some ps -> desc ps).
    { intros [l|]; cbn; [|discriminate]. intros Q. injection Q; intros <-. apply sort_desc. }
    destruct s; [apply X|]. destruct (edges g); [discriminate|apply X].
  Qed.
End Proofs.
