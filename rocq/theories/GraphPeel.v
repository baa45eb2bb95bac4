(** * GraphPeel: boundary walks and peeling *)
From Coq Require Import List Bool Arith Lia Permutation.
From Verif Require Import Graph GraphSpec GraphProofs GraphProofs2 GraphFaces.
Import ListNotations.

Section Proofs.
  Context {V : Type} (G : geo V).
  Notation E := (V * V)%type.
  Local Notation get := (get G). Local Notation set := (set G). Local Notation del := (del G).
  Local Notation adj := (adj G). Local Notation degree := (degree G). Local Notation gwf := (gwf G). Local Notation wf := (wf G).

  (** a symmetric node map *)
  Record net (m : @nodemap V) : Prop := {
    n_sym : forall u v, In v (adj m u) -> In u (adj m v);
    n_nodup : forall u, NoDup (adj m u);
    n_keys : NoDup (map fst m);
    n_noloop : forall u, ~ In u (adj m u)
  }.
  Lemma wf_net es m : wf es m -> net m.
  Proof.
    intros [A B C D F H I]. constructor; auto.
    - intros u v. rewrite !A. apply joins_sym.
    - intros u. rewrite A. auto.
  Qed.
  Lemma adj_key m u v : In v (adj m u) -> In u (map fst m).
  Proof. rewrite <- (get_In G). unfold Graph.adj. destruct (get m u); [discriminate|intros []]. Qed.
  Lemma net_key m u v : net m -> In v (adj m u) -> In v (map fst m).
  Proof. intros N I. apply (n_sym _ N) in I. eapply adj_key; eauto. Qed.

  (** ** boundary walk *)
  Lemma ccw_live m v u : (forall x, In x (adj m v) -> degree m x <> 1) -> In u (adj m v) -> ccw_edge_node G m v u true = ccw_edge_node G m v u false.
  Proof.
    intros D I. unfold ccw_edge_node. pose proof (index_spec G u (adj m v)) as S. destruct (index G u (adj m v)) as [i|]; auto.
    destruct (before i (adj m v)) as [|y r] eqn:Q; auto. cbn.
    assert (Y : In y (adj m v)).
    { assert (X : In y (before i (adj m v))) by (rewrite Q; left; auto). unfold before in X. rewrite in_app_iff, <- !in_rev in X.
      rewrite <- (firstn_skipn i (adj m v)), in_app_iff. tauto. }
    assert (E1 : degree m y =? 1 = false) by (apply Nat.eqb_neq, D; auto). rewrite E1. auto.
  Qed.
  Definition live (m : @nodemap V) := forall u, In u (map fst m) -> 2 <= degree m u.
  Lemma live_degree m u : net m -> live m -> forall x, In x (adj m u) -> 2 <= degree m x.
  Proof. intros N L x I. apply L. eapply net_key; eauto. Qed.
  Lemma last_default {A} (l : list A) : forall x d d', last (x :: l) d = last (x :: l) d'.
  Proof. induction l as [|y l IH]; intros x d d'; auto. exact (IH y d d'). Qed.
  Lemma boundary_walk_ok m s : net m -> live m -> forall n prev curr, In prev (adj m curr) ->
    exists l, boundary_walk G m n s prev curr = Some l /\ length l <= n /\ chained G m ((prev, curr) :: steps (curr :: l)) /\
      (forall v, In v l -> In v (map fst m)) /\ (forall u v, In (u, v) (steps (curr :: l)) -> In v (adj m u)) /\
      (length l < n -> last (curr :: l) curr = s) /\ (0 < n -> l <> []).
  Proof.
    intros N L. induction n as [|n IH]; intros prev curr I; cbn [boundary_walk].
    - exists []. split; [auto|split; [auto|split; [cbn; auto|split; [intros ? []|split; [intros ? ? []|split; intros; lia]]]]].
    - assert (LD := live_degree m curr N L). rewrite ccw_live by (auto; intros x X; specialize (LD x X); lia).
      destruct (ccw_exists G m curr prev I) as [x [Q X]]. rewrite Q.
      assert (DX := LD x X). replace (degree m x <=? 1) with false by (symmetry; apply Nat.leb_gt; lia).
      assert (TR : turn_rule G m (prev, curr) (curr, x)) by (split; cbn; auto; apply ccw_spec; auto; apply (n_nodup _ N)).
      destruct (eqv G x s) eqn:QS.
      + apply eqv_true in QS. exists [x]. split; [auto|]. cbn. split; [lia|]. split; [auto|]. split; [intros v [<-|[]]; eapply net_key; eauto|].
        split; [intros u v [Y|[]]; injection Y; intros; subst; auto|]. split; [auto|discriminate].
      + destruct (IH curr x) as [l [Q2 [Ln [C [K [A [Z _]]]]]]]; [apply (n_sym _ N); auto|]. rewrite Q2. exists (x :: l). split; [auto|].
        cbn [length]. split; [lia|]. split; [split; [auto|exact C]|]. split.
        { intros v [<-|Y]; [eapply net_key; eauto|auto]. }
        split. { intros u v [Y|Y]; [injection Y; intros; subst; auto|auto]. }
        split; [|discriminate]. intros LT.
        assert (LL : forall d, last (curr :: x :: l) d = last (x :: l) d) by reflexivity.
        rewrite LL. rewrite <- Z by lia. apply last_default.
  Qed.
  Lemma build_boundary_live m s n : net m -> live m -> In s (map fst m) -> exists l, build_boundary G m s n = BOk (s :: l) /\ length l <= n /\
      chained G m (steps (s :: l)) /\ (forall v, In v (s :: l) -> In v (map fst m)) /\
      (forall u v, In (u, v) (steps (s :: l)) -> In v (adj m u)) /\ (length l < n -> last (s :: l) s = s) /\ (0 < n -> l <> []).
  Proof.
    intros N L I. pose proof (L s I) as D. unfold build_boundary. replace (degree m s =? 1) with false by (symmetry; apply Nat.eqb_neq; lia).
    unfold Graph.degree in D. destruct (adj m s) as [|p r] eqn:Q; [cbn in D; lia|].
    destruct (boundary_walk_ok m s N L n p s) as [l [Q2 [Ln [C [K [A [Z NE]]]]]]]; [rewrite Q; left; auto|].
    rewrite Q2. exists l. split; [auto|]. split; [auto|]. split.
    - destruct l; [cbn; auto|]. apply C.
    - split; [intros v [<-|X]; auto|]. auto.
  Qed.

  (** ** removing nodes from a net *)
  Definition cut (v : V) (l : list V) : list V := filter (fun x => negb (eqv G x v)) l.
  Lemma cut_In v l x : In x (cut v l) <-> In x l /\ x <> v.
  Proof. unfold cut. rewrite filter_In, negb_true_iff, eqv_false. tauto. Qed.
  Lemma lremove_cut v l : NoDup l -> In v l -> lremove G v l = Some (cut v l).
  Proof.
    induction l as [|y r IH]; intros N I; [destruct I|]. inversion N; subst. cbn. destruct (veq G y v) as [->|Ne].
    - rewrite (proj2 (eqv_true G v v)) by auto. cbn. f_equal. unfold cut. clear - H1. induction r as [|z r IH]; cbn; auto.
      destruct (eqv G z v) eqn:Q; [apply eqv_true in Q; subst; exfalso; apply H1; left; auto|]. cbn. f_equal. apply IH. intros X; apply H1; right; auto.
    - rewrite (proj2 (eqv_false G y v)) by auto. cbn. destruct I as [->|I]; [contradiction|]. rewrite IH by auto. auto.
  Qed.
  (** m' is m with the link w-v cut at w *)
  Lemma unlink_one_ok v m w : NoDup (adj m w) -> In v (adj m w) -> exists m', unlink_one G v m w = Some m' /\
    (forall u, adj m' u = if veq G u w then cut v (adj m u) else adj m u) /\
    (forall u, In u (map fst m') -> In u (map fst m)) /\
    (forall u, In u (map fst m) -> In u (map fst m') \/ (u = w /\ cut v (adj m w) = [])) /\
    (NoDup (map fst m) -> NoDup (map fst m')).
  Proof.
    intros N I. unfold unlink_one. assert (Q : get m w = Some (adj m w)).
    { unfold Graph.adj in *. destruct (get m w); [auto|destruct I]. }
    rewrite Q, lremove_cut by auto. destruct (cut v (adj m w)) as [|y r] eqn:QC.
    - exists (del m w). split; auto. split; [|split; [|split]].
      + intros u. destruct (veq G u w) as [->|]; [rewrite adj_del_eq; auto|rewrite adj_del_ne; auto].
      + intros u. rewrite <- !(get_In G). destruct (veq G u w) as [->|]; [rewrite get_del_eq; congruence|rewrite get_del_ne; auto].
      + intros u X. destruct (veq G u w) as [->|]; auto. left. rewrite <- !(get_In G) in *. rewrite get_del_ne; auto.
      + apply del_NoDup.
    - exists (set m w (y :: r)). split; [reflexivity|]. split; [|split; [|split]].
      + intros u. destruct (veq G u w) as [->|]; [rewrite adj_set_eq; auto|rewrite adj_set_ne; auto].
      + intros u. rewrite set_keys. intros [X| ->]; auto. eapply adj_key; eauto.
      + intros u X. left. apply set_keys. auto.
      + apply set_NoDup.
  Qed.
  Lemma unlink_all_ok v ws : forall m, NoDup ws -> (forall u, NoDup (adj m u)) -> (forall w, In w ws -> In v (adj m w)) ->
    exists m', unlink_all G v ws m = Some m' /\
    (forall u, adj m' u = if in_dec (veq G) u ws then cut v (adj m u) else adj m u) /\
    (forall u, In u (map fst m') -> In u (map fst m)) /\
    (forall u, In u (map fst m) -> In u (map fst m') \/ adj m' u = []) /\
    (NoDup (map fst m) -> NoDup (map fst m')).
  Proof.
    induction ws as [|w r IH]; intros m Nw NA H; cbn [unlink_all].
    - exists m. cbn. auto 10.
    - inversion Nw; subst. destruct (unlink_one_ok v m w (NA w)) as [m1 [Q1 [A1 [B1 [C1 D1]]]]]; [apply H; left; auto|]. rewrite Q1.
      destruct (IH m1) as [m2 [Q2 [A2 [B2 [C2 D2]]]]]; auto.
      + intros u. rewrite A1. destruct (veq G u w); auto. apply NoDup_filter; auto.
      + intros x X. rewrite A1. destruct (veq G x w) as [->|]; [contradiction|]. apply H; right; auto.
      + exists m2. split; auto. split; [|split; [auto|split; [|auto]]].
        * intros u. rewrite A2, A1. destruct (in_dec (veq G) u (w :: r)) as [Y|Y], (in_dec (veq G) u r) as [X|X], (veq G u w) as [Qu|Qu]; auto;
            exfalso; cbn in Y; try (apply Y; auto; fail); try (destruct Y; congruence).
        * intros u X. destruct (C1 u X) as [Y|[-> Z]]; [apply C2; auto|]. right. rewrite A2, A1.
          destruct (in_dec (veq G) w r); [contradiction|]. destruct (veq G w w); [auto|contradiction].
  Qed.
  Lemma remove_node_ok m v : net m -> exists m', remove_node G m v = Some m' /\ net m' /\
    (forall u, adj m' u = if veq G u v then [] else cut v (adj m u)) /\
    (forall u, In u (map fst m') -> In u (map fst m) /\ u <> v) /\
    (forall u, In u (map fst m) -> u <> v -> In u (map fst m') \/ adj m' u = []).
  Proof.
    intros N. unfold remove_node. destruct (get m v) as [l|] eqn:Q.
    - assert (QA : adj m v = l) by (unfold Graph.adj; rewrite Q; auto).
      destruct (unlink_all_ok v l m) as [m1 [Q1 [A1 [B1 [C1 D1]]]]].
      + rewrite <- QA. apply (n_nodup _ N).
      + apply (n_nodup _ N).
      + intros w X. apply (n_sym _ N). rewrite QA. auto.
      + rewrite Q1. cbn [option_map]. exists (del m1 v).
        assert (AD : forall u, adj (del m1 v) u = if veq G u v then [] else cut v (adj m u)).
        { intros u. destruct (veq G u v) as [->|Ne]; [apply adj_del_eq|]. rewrite adj_del_ne, A1 by auto. destruct (in_dec (veq G) u l) as [X|X]; auto.
          symmetry. unfold cut. assert (NV : ~ In v (adj m u)) by (intros Y; apply (n_sym _ N) in Y; rewrite QA in Y; auto).
          clear - NV. induction (adj m u) as [|z r IH]; cbn; auto. destruct (eqv G z v) eqn:QZ; [apply eqv_true in QZ; subst; exfalso; apply NV; left; auto|].
          cbn. f_equal. apply IH. intros X; apply NV; right; auto. }
        split; [auto|]. split; [|split; [auto|split]].
        * constructor.
          -- intros u w. rewrite !AD. destruct (veq G u v) as [->|Nu]; [intros []|]. rewrite cut_In. intros [X Y]. destruct (veq G w v); [contradiction|].
             apply cut_In. split; auto. apply (n_sym _ N); auto.
          -- intros u. rewrite AD. destruct (veq G u v); [constructor|apply NoDup_filter, (n_nodup _ N)].
          -- apply del_NoDup, D1, (n_keys _ N).
          -- intros u. rewrite AD. destruct (veq G u v); [intros []|]. rewrite cut_In. intros [X _]. eapply (n_noloop _ N); eauto.
        * intros u. rewrite <- (get_In G). destruct (veq G u v) as [->|Ne]; [rewrite get_del_eq; congruence|]. rewrite get_del_ne by auto.
          rewrite (get_In G). auto.
        * intros u X Ne. rewrite <- (get_In G). rewrite get_del_ne by auto. rewrite (get_In G). rewrite adj_del_ne by auto. auto.
    - exists m. assert (NV : adj m v = []) by (unfold Graph.adj; rewrite Q; auto). split; auto. split; auto. split; [|split].
      + intros u. destruct (veq G u v) as [->|Ne]; auto. unfold cut.
        assert (NV' : ~ In v (adj m u)) by (intros Y; apply (n_sym _ N) in Y; rewrite NV in Y; destruct Y).
        symmetry. clear - NV'. induction (adj m u) as [|z r IH]; cbn; auto. destruct (eqv G z v) eqn:QZ; [apply eqv_true in QZ; subst; exfalso; apply NV'; left; auto|].
        cbn. f_equal. apply IH. intros X; apply NV'; right; auto.
      + intros u X. split; auto. intros ->. apply (get_In G) in X. congruence.
      + auto.
  Qed.
  Lemma remove_nodes_ok vs : forall m, net m -> exists m', remove_nodes G m vs = Some m' /\ net m' /\
    (forall u, In u (map fst m') -> In u (map fst m) /\ ~ In u vs) /\
    (forall u w, In w (adj m' u) -> In w (adj m u)).
  Proof.
    induction vs as [|v r IH]; intros m N; cbn [remove_nodes]; [exists m; cbn; split; [auto|split; [auto|split; auto]]|].
    destruct (remove_node_ok m v N) as [m1 [Q1 [N1 [A1 [B1 _]]]]]. rewrite Q1.
    destruct (IH m1 N1) as [m2 [Q2 [N2 [B2 A2]]]]. exists m2. split; auto. split; auto. split.
    - intros u X. apply B2 in X. destruct X as [X Y]. apply B1 in X. destruct X as [X Z]. split; auto. intros [->|W]; auto.
    - intros u w X. apply A2 in X. rewrite A1 in X. destruct (veq G u v); [destruct X|]. apply cut_In in X. tauto.
  Qed.
  Definition sub_net (m' m : @nodemap V) := (forall u, In u (map fst m') -> In u (map fst m)) /\ (forall u w, In w (adj m' u) -> In w (adj m u)).
  Lemma prune_spikes_ok n : forall m, net m -> length m < n -> exists m', prune_spikes G n m = Some m' /\ net m' /\ live m' /\ sub_net m' m.
  Proof.
    induction n as [|n IH]; intros m N L; [lia|]. cbn [prune_spikes].
    destruct (filter (fun v => degree m v <? 2) (map fst m)) as [|v vs] eqn:Q.
    - exists m. split; auto. split; auto. split; [|split; auto]. intros u I.
      destruct (degree m u <? 2) eqn:QD; [|apply Nat.ltb_ge in QD; auto]. exfalso.
      assert (X : In u (filter (fun v => degree m v <? 2) (map fst m))) by (apply filter_In; auto). rewrite Q in X. destruct X.
    - destruct (remove_nodes_ok (v :: vs) m N) as [m1 [Q1 [N1 [B1 A1]]]]. rewrite Q1.
      destruct (IH m1 N1) as [m2 [Q2 [N2 [L2 [S2 T2]]]]].
      + assert (X : length (map fst m1) < length (map fst m)); [|rewrite !map_length in X; lia].
        assert (IV : In v (map fst m)). { assert (Y : In v (v :: vs)) by (left; auto). rewrite <- Q in Y. apply filter_In in Y. tauto. }
        assert (Y : length (v :: map fst m1) <= length (map fst m)); [|cbn in Y; lia]. apply NoDup_incl_length.
        * constructor; [|apply (n_keys _ N1)]. intros Z. apply B1 in Z. destruct Z as [_ Z]. apply Z; left; auto.
        * intros u [<-|Z]; auto. apply B1 in Z. tauto.
      + exists m2. split; auto. split; auto. split; auto. split; [intros u X; apply S2, B1 in X; tauto|auto].
  Qed.
  Lemma prune_nodes_ok m poly : net m -> exists m', prune_nodes G m poly = Some m' /\ net m' /\ live m' /\ sub_net m' m /\
    (forall u, In u (map fst m') -> ~ In u poly) /\ (poly <> [] -> forall u, In u (map fst m') -> inside G poly u = true).
  Proof.
    intros N. unfold prune_nodes. destruct poly as [|p r].
    - destruct (prune_spikes_ok (S (length m)) m N) as [m' [Q [N' [L' S']]]]; [lia|]. exists m'. split; [auto|]. split; [auto|]. split; [auto|]. split; [auto|].
      split; [intros u X []|intros X; contradiction].
    - set (poly := p :: r) in *.
      destruct (remove_nodes_ok (filter (fun v => negb (inside G poly v)) (map fst m)) m N) as [m1 [Q1 [N1 [B1 A1]]]]. rewrite Q1.
      destruct (remove_nodes_ok poly m1 N1) as [m2 [Q2 [N2 [B2 A2]]]]. rewrite Q2.
      destruct (prune_spikes_ok (S (length m2)) m2 N2) as [m' [Q [N' [L' [S' T']]]]]; [lia|]. exists m'. split; auto. split; auto. split; auto.
      split; [split|split].
      + intros u X. apply S', B2 in X. destruct X as [X _]. apply B1 in X. tauto.
      + intros u w X. apply A1, A2, T', X.
      + intros u X. apply S', B2 in X. tauto.
      + intros _ u X. apply S', B2 in X. destruct X as [X _]. apply B1 in X. destruct X as [X Y].
        destruct (inside G poly u) eqn:QI; auto. exfalso. apply Y. apply filter_In. rewrite QI. auto.
  Qed.
  (** polygons that are pairwise vertex-disjoint, avoid [avoid], with vertices in K and edges in the adjacency of m *)
  Fixpoint disjoint_polys (ps : list (list V)) : Prop :=
    match ps with [] => True | p :: r => (forall q v, In q r -> In v p -> ~ In v q) /\ disjoint_polys r end.
  Definition poly_in (m : @nodemap V) (p : list V) := 2 < length p /\ (forall v, In v p -> In v (map fst m)) /\ (forall u v, In (u, v) (steps p) -> In v (adj m u)).
  Lemma peel_loop_ok n : forall m poly, net m -> live m -> length m < n ->
    exists ps, peel_loop G n m poly = Some ps /\ Forall (poly_in m) ps /\ disjoint_polys ps.
  Proof.
    induction n as [|n IH]; intros m poly N L Ln; [lia|]. cbn [peel_loop].
    destruct ((3 <? length m) && (3 <? length poly)) eqn:Q; [|exists []; cbn; auto].
    apply andb_true_iff in Q. destruct Q as [Q1 Q2]. apply Nat.ltb_lt in Q1.
    assert (FB : exists b, find_bottom G (map fst m) = BNode b /\ In b (map fst m)).
    { unfold find_bottom. destruct (map fst m) as [|v r] eqn:QM; [destruct m; [cbn in Q1; lia|discriminate]|]. eexists. split; [reflexivity|].
      clear. revert v. induction r as [|w r IH]; intros v; cbn; auto. destruct (IH (if ylt G w v then w else v)) as [X|X]; [|auto].
      rewrite <- X. destruct (ylt G w v); auto. }
    destruct FB as [b [QB IB]]. rewrite QB.
    destruct (build_boundary_live m b (length m) N L IB) as [l [QL [LL [C [K [A [Z NE]]]]]]]. rewrite QL.
    destruct (prune_nodes_ok m (b :: l) N) as [m' [QP [N' [L' [[S1 S2] [AV _]]]]]]. rewrite QP.
    destruct (IH m' (b :: l) N' L') as [ps [QR [F D]]].
    - assert (X : length (b :: map fst m') <= length (map fst m)); [|cbn in X; rewrite !map_length in X; lia]. apply NoDup_incl_length.
      + constructor; [|apply (n_keys _ N')]. intros Y. apply (AV b Y). left; auto.
      + intros u [<-|Y]; auto.
    - rewrite QR. cbn [option_map]. eexists. split; [reflexivity|].
      assert (FM : Forall (poly_in m) ps).
      { eapply Forall_impl; [|exact F]. intros p [A1 [A2 A3]]. split; auto. }
      destruct (2 <? length (b :: l)) eqn:Q3; [|auto]. apply Nat.ltb_lt in Q3. split.
      + constructor; auto. split; auto.
      + cbn [disjoint_polys]. split; [|auto]. intros q v Iq Iv Jv. rewrite Forall_forall in F. destruct (F q Iq) as [_ [F2 _]].
        apply (AV v); auto.
  Qed.
  Lemma peel_ok g poly : gwf g -> exists ps, snd (peel_boundary_polygon G g poly) = Some ps /\
    Forall (fun p => poly_in (nodes (check_modified G g)) p /\ (forall v, In v p -> ~ In v poly /\ (poly <> [] -> inside G poly v = true))) ps /\ disjoint_polys ps.
  Proof.
    intros W. unfold peel_boundary_polygon. cbn [snd]. apply check_modified_gwf, wf_net in W. set (m := nodes (check_modified G g)) in *.
    destruct (prune_nodes_ok m poly W) as [m1 [Q1 [N1 [L1 [[S1 S2] [AV IN]]]]]]. rewrite Q1.
    destruct (peel_loop_ok (S (length m1)) m1 poly N1 L1) as [ps [Q2 [F D]]]; [lia|]. rewrite Q2. exists ps. split; auto. split; auto.
    eapply Forall_impl; [|exact F]. intros p [A1 [A2 A3]]. split; [split; auto|]. intros v X. split; auto.
  Qed.
End Proofs.
