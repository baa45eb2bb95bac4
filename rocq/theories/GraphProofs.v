(** * GraphProofs: bookkeeping (C50) and culling (C51) *)
From Coq Require Import List Bool Arith Lia Permutation.
From Verif Require Import Graph GraphSpec.
Import ListNotations.

Section Proofs.
  Context {V : Type} (G : geo V).
  Notation E := (V * V)%type.
  Local Notation get := (get G). Local Notation set := (set G). Local Notation del := (del G).
  Local Notation adj := (adj G). Local Notation degree := (degree G).
  Ltac dv := match goal with
    | |- context [veq G ?a ?b] => destruct (veq G a b)
    | H : context [veq G ?a ?b] |- _ => destruct (veq G a b)
    end.
  Lemma eqv_true a b : eqv G a b = true <-> a = b.
  Proof. unfold eqv. dv; split; auto; discriminate. Qed.
  Lemma eqv_false a b : eqv G a b = false <-> a <> b.
  Proof. unfold eqv. dv; split; auto; try discriminate. contradiction. Qed.
  Lemma eqe_true e f : eqe G e f = true <-> same_edge e f.
  Proof.
    destruct e as [a b], f as [c d]. unfold eqe, same_edge. cbn. rewrite orb_true_iff, !andb_true_iff, !eqv_true.
    split; [intros [[-> ->]|[-> ->]]|intros [Q|Q]; injection Q; intros -> ->]; auto.
  Qed.
  Lemma mem_e_true e l : mem_e G e l = true <-> joins l (fst e) (snd e).
  Proof.
    unfold mem_e. rewrite existsb_exists. destruct e as [a b]. unfold joins. cbn. split.
    - intros [f [I Q]]. apply eqe_true in Q. destruct Q as [->| ->]; auto.
    - intros [I|I]; [exists (a, b)|exists (b, a)]; split; auto; apply eqe_true; unfold same_edge; auto.
  Qed.
  Lemma mem_e_false e l : mem_e G e l = false <-> ~ joins l (fst e) (snd e).
  Proof. rewrite <- not_true_iff_false, mem_e_true. tauto. Qed.
  Lemma joins_sym (l : list E) u v : joins l u v -> joins l v u. Proof. unfold joins; tauto. Qed.
  Lemma joins_app (l1 l2 : list E) u v : joins (l1 ++ l2) u v <-> joins l1 u v \/ joins l2 u v.
  Proof. unfold joins. rewrite !in_app_iff. tauto. Qed.
  Lemma joins_one (a b u v : V) : joins [(a, b)] u v <-> (u = a /\ v = b) \/ (u = b /\ v = a).
  Proof.
    unfold joins. cbn. split.
    - intros [[Q|[]]|[Q|[]]]; injection Q; auto.
    - intros [[-> ->]|[-> ->]]; auto.
  Qed.

  (** ** dict laws *)
  Lemma get_set_eq m v x : get (set m v x) v = Some x.
  Proof.
    induction m as [|[k y] r IH]; cbn; [destruct (veq G v v); congruence|]. destruct (veq G k v) eqn:Q; cbn; rewrite Q; auto.
  Qed.
  Lemma get_set_ne m v x u : u <> v -> get (set m v x) u = get m u.
  Proof.
    intros N. induction m as [|[k y] r IH]; cbn; [destruct (veq G v u); congruence|]. destruct (veq G k v) eqn:Q; cbn.
    - subst. destruct (veq G v u); congruence.
    - destruct (veq G k u); auto.
  Qed.
  Lemma get_del_eq m v : get (del m v) v = None.
  Proof.
    unfold Graph.del. induction m as [|[k y] r IH]; cbn; auto. destruct (eqv G k v) eqn:Q; cbn; auto. apply eqv_false in Q.
    destruct (veq G k v); congruence.
  Qed.
  Lemma get_del_ne m v u : u <> v -> get (del m v) u = get m u.
  Proof.
    intros N. unfold Graph.del. induction m as [|[k y] r IH]; cbn; auto. destruct (eqv G k v) eqn:Q; cbn.
    - apply eqv_true in Q. destruct (veq G k u); congruence.
    - destruct (veq G k u); congruence.
  Qed.
  Lemma get_In m u : get m u <> None <-> In u (map fst m).
  Proof.
    induction m as [|[k y] r IH]; cbn; [tauto|]. dv; [subst; intuition discriminate|]. rewrite IH. intuition.
  Qed.
  Lemma set_keys m v x u : In u (map fst (set m v x)) <-> In u (map fst m) \/ u = v.
  Proof.
    rewrite <- !get_In. destruct (veq G u v) as [->|N].
    - rewrite get_set_eq. intuition discriminate.
    - rewrite get_set_ne by auto. intuition.
  Qed.
  Lemma set_NoDup m v x : NoDup (map fst m) -> NoDup (map fst (set m v x)).
  Proof.
    induction m as [|[k y] r IH]; cbn; intros H; [constructor; auto|]. inversion H; subst.
    dv; cbn; constructor; auto. rewrite set_keys. intuition.
  Qed.
  Lemma del_NoDup m v : NoDup (map fst m) -> NoDup (map fst (del m v)).
  Proof.
    induction m as [|[k y] r IH]; cbn; intros H; [constructor; auto|]. inversion H; subst.
    destruct (eqv G k v) eqn:Q; cbn; auto. constructor; auto. rewrite <- get_In. apply eqv_false in Q. fold (del r v).
    rewrite get_del_ne by auto. rewrite get_In. auto.
  Qed.
  Lemma adj_set_eq m v x : adj (set m v x) v = x. Proof. unfold Graph.adj. rewrite get_set_eq. auto. Qed.
  Lemma adj_set_ne m v x u : u <> v -> adj (set m v x) u = adj m u.
  Proof. intros. unfold Graph.adj. rewrite get_set_ne by auto. auto. Qed.
  Lemma adj_del_ne m v u : u <> v -> adj (del m v) u = adj m u.
  Proof. intros. unfold Graph.adj. rewrite get_del_ne by auto. auto. Qed.
  Lemma adj_del_eq m v : adj (del m v) v = [].
  Proof. unfold Graph.adj. rewrite get_del_eq. auto. Qed.

  Lemma lremove_spec x l : match lremove G x l with
    | Some l' => exists l1 l2, l = l1 ++ x :: l2 /\ l' = l1 ++ l2
    | None => ~ In x l end.
  Proof.
    induction l as [|y r IH]; cbn; auto. dv; [subst; exists [], r; auto|].
    destruct (lremove G x r) as [l'|]; cbn.
    - destruct IH as [l1 [l2 [-> ->]]]. exists (y :: l1), l2. auto.
    - intuition.
  Qed.

  (** internal invariant: [consistent] plus non-empty adjacency lists *)
  Record wf (es : list E) (m : nodemap) : Prop := {
    w_sym : forall u v, In v (adj m u) <-> joins es u v;
    w_noloop : forall u, ~ joins es u u;
    w_nodup_adj : forall u, NoDup (adj m u);
    w_nodup_edges : NoDup es;
    w_one_dir : forall u v, In (u, v) es -> ~ In (v, u) es;
    w_keys : NoDup (map fst m);
    w_nonempty : forall u, get m u <> Some []
  }.
  Lemma wf_consistent g : wf (edges g) (nodes g) -> consistent G g.
  Proof.
    intros [A B C D F H I]. constructor; auto. intros u. unfold vertices. rewrite <- get_In. split.
    - intros N. destruct (get (nodes g) u) as [[|v l]|] eqn:Q; [exfalso; eapply I; eauto| |congruence].
      exists v. apply A. unfold Graph.adj. rewrite Q. left; auto.
    - intros [v J]. apply A in J. unfold Graph.adj in J. destruct (get (nodes g) u); [discriminate|destruct J].
  Qed.
  Lemma wf_empty : wf [] []. Proof. constructor; cbn; unfold joins; cbn; intros; try constructor; tauto || discriminate. Qed.

  Lemma adj_ensure m v u : adj (ensure G m v) u = adj m u.
  Proof.
    unfold ensure. destruct (get m v) eqn:Q; auto. destruct (veq G u v) as [->|N].
    - rewrite adj_set_eq. unfold Graph.adj. rewrite Q. auto.
    - rewrite adj_set_ne; auto.
  Qed.
  Lemma get_ensure m v u : get (ensure G m v) u = get m u \/ get (ensure G m v) u = Some [] /\ u = v /\ get m u = None.
  Proof.
    unfold ensure. destruct (get m v) eqn:Q; auto. destruct (veq G u v) as [->|N].
    - right. rewrite get_set_eq; auto.
    - left. rewrite get_set_ne; auto.
  Qed.
  Lemma ensure_NoDup m v : NoDup (map fst m) -> NoDup (map fst (ensure G m v)).
  Proof. unfold ensure. destruct (get m v); auto. apply set_NoDup. Qed.
  Lemma NoDup_snoc {A} (l : list A) x : NoDup l -> ~ In x l -> NoDup (l ++ [x]).
  Proof.
    intros. rewrite <- (rev_involutive (l ++ [x])). apply NoDup_rev. rewrite rev_app_distr. cbn.
    constructor; [rewrite <- in_rev; auto|apply NoDup_rev; auto].
  Qed.
  Definition add_nodes m p1 p2 := link G (link G (ensure G (ensure G m p1) p2) p1 p2) p2 p1.
  Lemma add_nodes_adj m p1 p2 u : p1 <> p2 ->
    adj (add_nodes m p1 p2) u = if veq G u p1 then adj m u ++ [p2] else if veq G u p2 then adj m u ++ [p1] else adj m u.
  Proof.
    intros N. unfold add_nodes, link. destruct (veq G u p1) as [->|N1].
    - rewrite adj_set_ne, adj_set_eq, !adj_ensure by auto. auto.
    - destruct (veq G u p2) as [->|N2].
      + rewrite adj_set_eq, adj_set_ne, !adj_ensure by auto. auto.
      + rewrite !adj_set_ne, !adj_ensure by auto. auto.
  Qed.
  Lemma add_edge_wf es m p1 p2 : wf es m -> p1 <> p2 -> ~ joins es p1 p2 -> wf (es ++ [(p1, p2)]) (add_nodes m p1 p2).
  Proof.
    intros W N J. destruct W as [A B C D F H I]. constructor.
    - intros u v. rewrite add_nodes_adj, joins_app, joins_one by auto.
      destruct (veq G u p1) as [->|N1]; [|destruct (veq G u p2) as [->|N2]].
      + rewrite in_app_iff, A. cbn. intuition congruence.
      + rewrite in_app_iff, A. cbn. intuition congruence.
      + rewrite A. intuition congruence.
    - intros u. rewrite joins_app, joins_one. intros [Q|Q]; [eapply B; eauto|intuition congruence].
    - intros u. rewrite add_nodes_adj by auto. destruct (veq G u p1) as [->|N1]; [|destruct (veq G u p2) as [->|N2]]; auto;
        apply NoDup_snoc; auto; rewrite A; auto. intros Q; apply J, joins_sym, Q.
    - apply NoDup_snoc; auto. intros Q. apply J. left; auto.
    - intros u v. rewrite !in_app_iff. cbn. intros [Q|[Q|[]]] [Q'|[Q'|[]]].
      + eapply F; eauto.
      + injection Q'; intros; subst. apply J. right; auto.
      + injection Q; intros; subst. apply J. right; auto.
      + congruence.
    - unfold add_nodes, link. repeat (apply set_NoDup || apply ensure_NoDup); auto.
    - intros u. unfold add_nodes, link. destruct (veq G u p2) as [->|N2].
      + rewrite get_set_eq. intros Q. injection Q; intros X. destruct (app_cons_not_nil _ _ _ (eq_sym X)).
      + rewrite get_set_ne by auto. destruct (veq G u p1) as [->|N1].
        * rewrite get_set_eq. intros Q. injection Q; intros X. destruct (app_cons_not_nil _ _ _ (eq_sym X)).
        * rewrite get_set_ne by auto. destruct (get_ensure (ensure G m p1) p2 u) as [->|[_ [-> _]]]; [|congruence].
          destruct (get_ensure m p1 u) as [->|[_ [-> _]]]; [auto|congruence].
  Qed.

  (** the edge set after add_edge, whatever the outcome *)
  Lemma add_edge_cases g p1 p2 :
    (fst (add_edge G g (p1, p2)) = g /\ snd (add_edge G g (p1, p2)) = true /\ (p1 = p2 \/ joins (edges g) p1 p2)) \/
    (p1 <> p2 /\ ~ joins (edges g) p1 p2 /\ edges (fst (add_edge G g (p1, p2))) = edges g ++ [(p1, p2)] /\
     nodes (fst (add_edge G g (p1, p2))) = add_nodes (nodes g) p1 p2 /\
     (snd (add_edge G g (p1, p2)) = false <-> bottom g = BNone)).
  Proof.
    unfold add_edge. destruct (veq G p1 p2) as [->|N]; [left; auto|].
    destruct (mem_e G (p1, p2) (edges g)) eqn:M.
    - left. apply mem_e_true in M. cbn in *. auto.
    - right. apply mem_e_false in M. cbn in M. fold (add_nodes (nodes g) p1 p2).
      destruct (bottom g) as [|w|]; cbn.
      + repeat split; auto; discriminate.
      + destruct (ylt G p1 w); cbn; repeat split; auto; discriminate.
      + repeat split; auto; discriminate.
  Qed.
  Definition gwf (g : graph) := wf (edges g) (nodes g).
  Lemma add_edge_gwf g e : gwf g -> gwf (fst (add_edge G g e)).
  Proof.
    destruct e as [p1 p2]. intros W. destruct (add_edge_cases g p1 p2) as [[-> _]|[N [J [Q1 [Q2 _]]]]]; auto.
    unfold gwf. rewrite Q1, Q2. apply add_edge_wf; auto.
  Qed.
  Lemma fold_op_inv (Pr : graph -> Prop) f l : (forall g e, In e l -> Pr g -> Pr (fst (f g e))) ->
    forall g : @graph V, Pr g -> Pr (fst (fold_op f g l)).
  Proof.
    induction l as [|e r IH]; intros H g W; cbn; auto. destruct (f g e) as [g' ok] eqn:Q.
    assert (P' : Pr g') by (specialize (H g e (or_introl eq_refl) W); rewrite Q in H; auto).
    destruct ok; auto. apply IH; auto. intros; apply H; auto. right; auto.
  Qed.
  Lemma add_poly_gwf g vs c : gwf g -> gwf (fst (add_poly G g vs c)).
  Proof.
    intros W. destruct vs; cbn [add_poly]; auto. apply fold_op_inv; auto. intros; apply add_edge_gwf; auto.
  Qed.

  (** ** remove_edge *)
  Definition del_nodes m p1 p2 l1 l2 := drop_if_isolated G (drop_if_isolated G (set (set m p1 l1) p2 l2) p1) p2.
  Lemma adj_drop m v u : adj (drop_if_isolated G m v) u = adj m u.
  Proof.
    unfold drop_if_isolated. destruct (adj m v) eqn:Q; auto. destruct (veq G u v) as [->|N].
    - rewrite adj_del_eq; auto.
    - rewrite adj_del_ne; auto.
  Qed.
  Lemma drop_NoDup m v : NoDup (map fst m) -> NoDup (map fst (drop_if_isolated G m v)).
  Proof. unfold drop_if_isolated. destruct (adj m v); auto. apply del_NoDup. Qed.
  Lemma get_drop m v u : get (drop_if_isolated G m v) u = Some [] -> get m u = Some [] /\ u <> v.
  Proof.
    unfold drop_if_isolated. destruct (adj m v) eqn:Q.
    - destruct (veq G u v) as [->|N]; [rewrite get_del_eq; discriminate|rewrite get_del_ne by auto; auto].
    - intros X. split; auto. intros ->. unfold Graph.adj in Q. rewrite X in Q. discriminate.
  Qed.
  Lemma wf_get es m u : wf es m -> (exists v, joins es u v) -> exists l, get m u = Some l.
  Proof.
    intros W [v J]. apply (w_sym _ _ W) in J. unfold Graph.adj in J. destruct (get m u) as [l|]; [eauto|destruct J].
  Qed.
  Lemma mid_in {A} (l1 l2 : list A) x v : NoDup (l1 ++ x :: l2) -> (In v (l1 ++ l2) <-> In v (l1 ++ x :: l2) /\ v <> x).
  Proof.
    intros N. split.
    - intros I. split; [rewrite in_app_iff in *; cbn; tauto|]. intros ->. apply NoDup_remove_2 in N. auto.
    - intros [I X]. rewrite in_app_iff in *. cbn in I. intuition congruence.
  Qed.
  Lemma remove_edge_missing g p1 p2 : gwf g -> ~ joins (edges g) p1 p2 ->
    remove_edge G g (p1, p2) = (mkg (edges g) (nodes g) (bottom g) true, false).
  Proof.
    intros W J. unfold remove_edge. destruct (get (nodes g) p1) as [l1|] eqn:Q1; auto. destruct (get (nodes g) p2) as [l2|]; auto.
    pose proof (lremove_spec p2 l1) as S. destruct (lremove G p2 l1); auto. exfalso. destruct S as [a [b [-> _]]].
    apply J. apply (w_sym _ _ W). unfold Graph.adj. rewrite Q1. rewrite in_app_iff; cbn; auto.
  Qed.
  Lemma remove_edge_present g p1 p2 : gwf g -> joins (edges g) p1 p2 ->
    exists m, remove_edge G g (p1, p2) = (mkg (filter (fun f => negb (eqe G (p1, p2) f)) (edges g)) m (bottom g) true, true) /\
              wf (filter (fun f => negb (eqe G (p1, p2) f)) (edges g)) m.
  Proof.
    intros W J. pose proof W as [A B C D F H I].
    assert (N : p1 <> p2) by (intros ->; apply (B p2); auto).
    unfold remove_edge. destruct (wf_get _ _ p1 W) as [l1 Q1]; [eauto|]. destruct (wf_get _ _ p2 W) as [l2 Q2]; [exists p1; apply joins_sym; auto|].
    rewrite Q1, Q2. pose proof (lremove_spec p2 l1) as S1. pose proof (lremove_spec p1 l2) as S2.
    assert (A1 : adj (nodes g) p1 = l1) by (unfold Graph.adj; rewrite Q1; auto).
    assert (A2 : adj (nodes g) p2 = l2) by (unfold Graph.adj; rewrite Q2; auto).
    destruct (lremove G p2 l1) as [l1'|]; [|exfalso; apply S1; rewrite <- A1; apply A; auto].
    destruct (lremove G p1 l2) as [l2'|]; [|exfalso; apply S2; rewrite <- A2; apply A, joins_sym; auto].
    destruct S1 as [a1 [b1 [E1 E1']]], S2 as [a2 [b2 [E2 E2']]].
    assert (M : mem_e G (p1, p2) (edges g) = true) by (apply mem_e_true; auto). rewrite M.
    fold (del_nodes (nodes g) p1 p2 l1' l2'). eexists. split; [reflexivity|].
    set (es' := filter _ _). 
    assert (J' : forall u v, joins es' u v <-> joins (edges g) u v /\ ~ (u = p1 /\ v = p2) /\ ~ (u = p2 /\ v = p1)).
    { intros u v. unfold es', joins. rewrite !filter_In, !negb_true_iff. rewrite <- !not_true_iff_false, !eqe_true. unfold same_edge. cbn.
      split.
      - intros [[X Y]|[X Y]]; (split; [auto|]); split; intros [-> ->]; apply Y; auto.
      - intros [[X|X] [Y Z]]; [left|right]; split; auto; intros [Q|Q]; injection Q; intros; subst; auto. }
    assert (AD : forall u, adj (del_nodes (nodes g) p1 p2 l1' l2') u = if veq G u p1 then l1' else if veq G u p2 then l2' else adj (nodes g) u).
    { intros u. unfold del_nodes. rewrite !adj_drop. destruct (veq G u p1) as [->|].
      - rewrite adj_set_ne, adj_set_eq by auto. auto.
      - destruct (veq G u p2) as [->|]; [rewrite adj_set_eq; auto|rewrite !adj_set_ne by auto; auto]. }
    assert (C1 := C p1). rewrite A1 in C1. assert (C2 := C p2). rewrite A2 in C2.
    constructor.
    - intros u v. rewrite AD, J'. destruct (veq G u p1) as [->|]; [|destruct (veq G u p2) as [->|]].
      + rewrite E1'. rewrite mid_in by (rewrite <- E1; auto). rewrite <- E1, <- A1, A. intuition congruence.
      + rewrite E2'. rewrite mid_in by (rewrite <- E2; auto). rewrite <- E2, <- A2, A. intuition congruence.
      + rewrite A. intuition congruence.
    - intros u X. apply J' in X. apply (B u); tauto.
    - intros u. rewrite AD. destruct (veq G u p1) as [->|]; [|destruct (veq G u p2) as [->|]]; auto.
      + rewrite E1 in C1. apply NoDup_remove_1 in C1. subst; auto.
      + rewrite E2 in C2. apply NoDup_remove_1 in C2. subst; auto.
    - apply NoDup_filter; auto.
    - intros u v X Y. unfold es' in X, Y. apply filter_In in X, Y. eapply F; [apply X|apply Y].
    - unfold del_nodes. repeat (apply drop_NoDup || apply set_NoDup); auto.
    - intros u X. unfold del_nodes in X. apply get_drop in X. destruct X as [X N2]. apply get_drop in X. destruct X as [X N1].
      rewrite !get_set_ne in X by auto. apply (I u X).
  Qed.
  Lemma remove_edge_gwf g e : gwf g -> gwf (fst (remove_edge G g e)).
  Proof.
    destruct e as [p1 p2]. intros W. destruct (mem_e G (p1, p2) (edges g)) eqn:M.
    - apply mem_e_true in M. destruct (remove_edge_present g p1 p2 W M) as [m [-> W']]. exact W'.
    - apply mem_e_false in M. rewrite remove_edge_missing by auto. exact W.
  Qed.

  (** ** sorting keeps the graph *)
  Lemma insert_perm {A} gt (x : A) l : Permutation (insert gt x l) (x :: l).
  Proof. induction l as [|y r IH]; cbn; auto. destruct (gt y x); auto. rewrite IH. apply perm_swap. Qed.
  Lemma sort_perm {A} gt (l : list A) : Permutation (sort gt l) l.
  Proof.
    unfold sort. assert (H : forall l acc, Permutation (fold_left (fun acc x => insert gt x acc) l acc) (acc ++ l)).
    { induction l0 as [|x r IH]; intros acc; cbn; [rewrite app_nil_r; auto|]. rewrite IH, insert_perm. cbn. apply Permutation_middle. }
    rewrite H. auto.
  Qed.
  Lemma sorted_get m u : get (map (fun p => (fst p, sort_edges G (fst p) (snd p))) m) u = option_map (sort_edges G u) (get m u).
  Proof. induction m as [|[k y] r IH]; cbn; auto. dv; subst; auto. Qed.
  Lemma sorted_adj m u : adj (map (fun p => (fst p, sort_edges G (fst p) (snd p))) m) u = sort_edges G u (adj m u).
  Proof. unfold Graph.adj. rewrite sorted_get. destruct (get m u); auto. Qed.
  Lemma sort_edges_perm u l : Permutation (sort_edges G u l) l. Proof. apply sort_perm. Qed.
  Lemma check_modified_gwf g : gwf g -> gwf (check_modified G g).
  Proof.
    unfold check_modified. destruct (modified g); auto. intros [A B C D F H I]. constructor; cbn; auto.
    - intros u v. rewrite sorted_adj. rewrite <- A. pose proof (sort_edges_perm u (adj (nodes g) u)) as P.
      split; apply Permutation_in; [auto|symmetry; auto].
    - intros u. rewrite sorted_adj. eapply Permutation_NoDup; [symmetry; apply sort_edges_perm|auto].
    - rewrite map_map. cbn. auto.
    - intros u. rewrite sorted_get. destruct (get (nodes g) u) as [l|] eqn:Q; [|discriminate]. cbn. intros X. injection X; intros Y.
      apply (I u). rewrite Q. f_equal. apply Permutation_nil. rewrite <- Y. apply sort_edges_perm.
  Qed.
  Lemma check_modified_edges g : edges (check_modified G g) = edges g.
  Proof. unfold check_modified. destruct (modified g); auto. Qed.

  (** ** degrees *)
  Definition other (u : V) (e : E) : V := if veq G (fst e) u then snd e else fst e.
  Lemma degree_incident es m u : wf es m -> degree m u = length (incident G es u).
  Proof.
    intros [A B C D F H I]. unfold Graph.degree. rewrite <- (map_length (other u)). apply Permutation_length.
    apply NoDup_Permutation; auto.
    - assert (N : forall l, (forall e, In e l -> In e es /\ touches u e) -> NoDup l -> NoDup (map (other u) l)).
      { induction l as [|e r IH]; cbn; intros X Y; constructor.
        - intros Z. apply in_map_iff in Z. destruct Z as [f [Q In']]. inversion Y; subst.
          assert (e = f); [|subst; auto].
          destruct (X e (or_introl eq_refl)) as [Ie Te]. destruct (X f (or_intror In')) as [If Tf].
          destruct e as [a b], f as [c d]. unfold other, touches in *. cbn in *. destruct (veq G c u), (veq G a u); subst.
          + congruence.
          + destruct Te; [contradiction|subst]. exfalso. eapply F; eauto.
          + destruct Tf; [contradiction|subst]. exfalso. eapply F; eauto.
          + intuition congruence.
        - inversion Y; subst. apply IH; auto. }
      apply N; [|apply NoDup_filter; auto]. intros e X. unfold incident in X. apply filter_In in X. destruct X as [X Y]. split; auto.
      destruct (touches_dec G u e); [auto|discriminate].
    - intros v. rewrite A, in_map_iff. unfold incident. split.
      + intros [J|J]; [exists (u, v)|exists (v, u)]; rewrite filter_In; unfold other; cbn.
        * destruct (veq G u u); [|contradiction]. split; auto. split; auto. destruct (touches_dec G u (u, v)); auto. exfalso; apply n; left; auto.
        * destruct (veq G v u) as [->|]; [exfalso; eapply B; left; eauto|]. split; auto. split; auto.
          destruct (touches_dec G u (v, u)); auto. exfalso; apply n0; right; auto.
      + intros [[a b] [Q X]]. apply filter_In in X. destruct X as [X Y]. destruct (touches_dec G u (a, b)) as [T|]; [|discriminate].
        unfold other, touches in *. cbn in *. destruct (veq G a u) as [->|]; subst; [left; auto|]. destruct T; [contradiction|subst]. right; auto.
  Qed.
  Definition darts (m : @nodemap V) : list E := flat_map (fun p => map (pair (fst p)) (snd p)) m.
  Lemma darts_count m : length (darts m) = dart_count m.
  Proof. unfold darts, dart_count. induction m as [|[k l] r IH]; cbn; auto. rewrite app_length, map_length. lia. Qed.
  Lemma darts_In m u v : NoDup (map fst m) -> (In (u, v) (darts m) <-> In v (adj m u)).
  Proof.
    unfold Graph.adj. induction m as [|[k l] r IH]; cbn; [tauto|]. intros N. inversion N; subst. unfold darts in *. cbn. rewrite in_app_iff.
    rewrite in_map_iff. rewrite IH by auto. dv.
    - subst. split.
      + intros [[x [Q X]]|X]; [injection Q; intros; subst; auto|]. exfalso. destruct (get r u) eqn:Q; [|destruct X].
        apply H1. apply get_In. congruence.
      + intros X. left. exists v; auto.
    - split; [|auto]. intros [[x [Q X]]|X]; [congruence|auto].
  Qed.
  Lemma NoDup_app' {A} (a b : list A) : NoDup a -> NoDup b -> (forall x, In x a -> ~ In x b) -> NoDup (a ++ b).
  Proof.
    induction a; cbn; intros; auto. inversion H; subst. constructor.
    - rewrite in_app_iff. intros [X|X]; auto. apply (H1 a); auto.
    - apply IHa; auto.
  Qed.
  Lemma darts_NoDup m : NoDup (map fst m) -> (forall u, NoDup (adj m u)) -> NoDup (darts m).
  Proof.
    induction m as [|[k l] r IH]; cbn; intros N A; [constructor|]. inversion N; subst. unfold darts in *. cbn.
    assert (L : NoDup l). { specialize (A k). unfold Graph.adj in A. cbn in A. destruct (veq G k k); [auto|contradiction]. }
    apply NoDup_app'.
    - clear - L. induction L; cbn; constructor; auto. rewrite in_map_iff. intros [y [Q Y]]. injection Q; intros; subst; auto.
    - apply IH; auto. intros u. destruct (veq G u k) as [->|N'].
      + unfold Graph.adj. destruct (get r k) eqn:Q; [|constructor]. exfalso. apply H1, get_In. congruence.
      + specialize (A u). unfold Graph.adj in *. cbn in A. destruct (veq G k u); [congruence|auto].
    - intros [a b] Q1 Q2. apply in_map_iff in Q1. destruct Q1 as [x [Q _]]. injection Q; intros; subst.
      apply H1. apply in_flat_map in Q2. destruct Q2 as [[k' l'] [Q3 Q4]]. apply in_map_iff in Q4. destruct Q4 as [x [Q5 _]]. cbn in Q5.
      injection Q5; intros; subst. apply in_map_iff. exists (a, l'). auto.
  Qed.
  Definition swap (e : E) : E := (snd e, fst e).
  Lemma handshake es m : wf es m -> dart_count m = 2 * length es.
  Proof.
    intros [A B C D F H I]. rewrite <- darts_count.
    rewrite (Permutation_length (l' := es ++ map swap es)); [rewrite app_length, map_length; lia|].
    assert (SW : forall u v, In (u, v) (map swap es) <-> In (v, u) es).
    { intros u v. rewrite in_map_iff. split; [intros [[a b] [Q X]]; cbn in Q; injection Q; intros; subst; auto|intros; exists (v, u); auto]. }
    apply NoDup_Permutation.
    - apply darts_NoDup; auto.
    - apply NoDup_app'; auto.
      + clear - D. induction D as [|[a b] l]; cbn; constructor; auto. rewrite in_map_iff. intros [[c d] [Q Y]]. cbn in Q. injection Q; intros; subst; auto.
      + intros [u v] X Y. apply SW in Y. eapply F; eauto.
    - intros [u v]. rewrite darts_In, A, in_app_iff, SW by auto. reflexivity.
  Qed.
  Lemma degree_zero es m u : wf es m -> (degree m u = 0 <-> ~ In u (map fst m)).
  Proof.
    intros W. rewrite <- get_In. unfold Graph.degree, Graph.adj. destruct (get m u) as [l|] eqn:Q; cbn.
    - split; [|intros X; exfalso; apply X; discriminate]. destruct l; [intros _; exfalso; eapply (w_nonempty _ _ W); eauto|discriminate].
    - tauto.
  Qed.

End Proofs.
