(** * PropsGraph: the planar graph properties (C50-C52, C77-C81), for every vertex type and every [geo] record.
    Specification: [GraphSpec].  Concrete cases on the integer grid: [GraphZ]. *)
From Coq Require Import ZArith List Bool Arith Lia Permutation.
From Verif Require Import Graph GraphSpec GraphProofs GraphProofs2 GraphFaces GraphPeel GraphZ.
Import ListNotations.

Section Gen.
  Context {V : Type} (G : geo V).
  Notation E := (V * V)%type.

  Lemma reach_gwf g : reachable G g -> gwf G g.
  Proof.
    intros [h [H <-]]. unfold run. assert (X : forall h g, Forall orders_ok h -> gwf G g -> gwf G (fold_left (step G) h g)).
    { induction h0 as [|o r IH]; intros g W F; cbn; auto. inversion W; subst. apply IH; auto. destruct o; cbn [step].
      - apply add_edge_gwf; auto.
      - apply add_poly_gwf; auto.
      - apply remove_edge_gwf; auto.
      - destruct H2 as [Pe Pv]. unfold cull_open_edges. destruct (cull_loop_ok G pe Pe (S (size g)) g F) as [g' [Q [W' _]]]; [unfold size; lia|].
        rewrite Q. exact W'.
      - apply check_modified_gwf; auto.
      - apply check_modified_gwf; auto.
      - apply check_modified_gwf; auto. }
    apply X; auto. apply wf_empty.
  Qed.

  (** ** C50: bookkeeping *)
  Theorem C50_consistent g : reachable G g -> consistent G g.
  Proof. intros R. apply wf_consistent, reach_gwf, R. Qed.
  Lemma sum_degrees (m : @nodemap V) : NoDup (map fst m) -> fold_right plus 0 (map (degree G m) (map fst m)) = dart_count m.
  Proof.
    assert (X : forall r m, NoDup (map fst r) -> (forall k l, In (k, l) r -> get G m k = Some l) -> fold_right plus 0 (map (degree G m) (map fst r)) = dart_count r).
    { induction r as [|[k l] r IH]; intros m0 N H; cbn; auto. inversion N; subst. rewrite IH; auto.
      - f_equal. unfold degree, adj. rewrite (H k l) by (left; auto). auto.
      - intros; apply H; right; auto. }
    intros N. apply X; auto. clear X. intros k l. induction m as [|[k' l'] r IH]; cbn; [intros []|]. inversion N; subst.
    intros [Q|I]; [injection Q; intros; subst; destruct (veq G k k); [auto|contradiction]|].
    destruct (veq G k' k) as [->|]; auto. exfalso. apply H1. apply in_map_iff. exists (k, l). auto.
  Qed.
  (** degree, size and order count what they should; the degrees sum to twice the number of edges *)
  Theorem C50_counts g : reachable G g ->
    (forall u, degree G (nodes g) u = length (incident G (edges g) u)) /\
    (size g = length (edges g)) /\ (order g = length (vertices g)) /\
    fold_right plus 0 (map (degree G (nodes g)) (vertices g)) = 2 * size g.
  Proof.
    intros R. pose proof (reach_gwf g R) as W. split; [intros; apply degree_incident; auto|]. split; auto. split; [unfold order, vertices; rewrite map_length; auto|].
    unfold vertices. rewrite sum_degrees by apply (w_keys _ _ _ W). apply handshake with (1 := W).
  Qed.
  Theorem C50_add_edge g a b u v : reachable G g ->
    joins (edges (fst (add_edge G g (a, b)))) u v <-> joins (edges g) u v \/ (a <> b /\ ((u = a /\ v = b) \/ (u = b /\ v = a))).
  Proof.
    intros R. destruct (add_edge_cases G g a b) as [[-> [_ [X|X]]]|[N [J [Q _]]]].
    - split; auto. intros [Y|[Y _]]; auto. contradiction.
    - split; auto. intros [Y|[_ [[-> ->]|[-> ->]]]]; auto. apply joins_sym; auto.
    - rewrite Q, joins_app, joins_one. intuition.
  Qed.
  (** a polyline or polygon that is added without an exception contributes exactly its sides *)
  Lemma add_list l : forall g u v, snd (fold_op (add_edge G) g l) = true ->
    (joins (edges (fst (fold_op (add_edge G) g l))) u v <-> joins (edges g) u v \/ (u <> v /\ joins l u v)).
  Proof.
    induction l as [|[a b] r IH]; intros g u v; cbn [fold_op].
    - intros _. cbn. unfold joins at 3. cbn. tauto.
    - destruct (add_edge G g (a, b)) as [g' ok] eqn:Q. destruct ok; [|discriminate]. intros S. rewrite IH by auto.
      assert (X : joins (edges g') u v <-> joins (edges g) u v \/ (a <> b /\ ((u = a /\ v = b) \/ (u = b /\ v = a)))).
      { pose proof (add_edge_cases G g a b) as C. rewrite Q in C. cbn in C. destruct C as [[-> [_ [X|X]]]|[N [J [Q1 _]]]].
        - split; auto. intros [Y|[Y _]]; auto. contradiction.
        - split; auto. intros [Y|[_ [[-> ->]|[-> ->]]]]; auto. apply joins_sym; auto.
        - rewrite Q1, joins_app, joins_one. intuition. }
      rewrite X. assert (JC : joins ((a, b) :: r) u v <-> ((u = a /\ v = b) \/ (u = b /\ v = a)) \/ joins r u v).
      { change ((a, b) :: r) with ([(a, b)] ++ r). rewrite joins_app, joins_one. tauto. }
      rewrite JC. destruct (veq G u v) as [->|]; [intuition congruence|]. intuition congruence.
  Qed.
  Theorem C50_add_poly g p r close u v : snd (add_poly G g (p :: r) close) = true ->
    joins (edges (fst (add_poly G g (p :: r) close))) u v <->
    joins (edges g) u v \/ (u <> v /\ (joins (steps (p :: r)) u v \/ (close = true /\ joins [(last (p :: r) p, p)] u v))).
  Proof.
    unfold add_poly. intros S. rewrite add_list by exact S. rewrite joins_app.
    assert (SG : segs p r = steps (p :: r)). { clear. revert p. induction r as [|q r IH]; intros p; auto. cbn [segs]. rewrite IH. auto. }
    rewrite SG. destruct close; cbn [andb].
    - destruct (eqv G p (last (p :: r) p)) eqn:Q; cbn [negb].
      + apply eqv_true in Q. rewrite <- Q. rewrite joins_one. assert (N : ~ joins (@nil E) u v) by (unfold joins; cbn; tauto).
        intuition congruence.
      + intuition.
    - assert (N : ~ joins (@nil E) u v) by (unfold joins; cbn; tauto). intuition congruence.
  Qed.
  (** removing an edge that is there removes it and nothing else; otherwise the call raises and changes nothing *)
  Theorem C50_remove_edge g a b : reachable G g ->
    (joins (edges g) a b -> snd (remove_edge G g (a, b)) = true /\
       forall u v, joins (edges (fst (remove_edge G g (a, b)))) u v <-> joins (edges g) u v /\ ~ ((u = a /\ v = b) \/ (u = b /\ v = a))) /\
    (~ joins (edges g) a b -> snd (remove_edge G g (a, b)) = false /\
       edges (fst (remove_edge G g (a, b))) = edges g /\ nodes (fst (remove_edge G g (a, b))) = nodes g).
  Proof.
    intros R. pose proof (reach_gwf g R) as W. split; intros J.
    - destruct (remove_edge_present G g a b W J) as [m [Q _]]. rewrite Q. cbn. split; auto. intros u v.
      unfold joins. rewrite !filter_In, !negb_true_iff, <- !not_true_iff_false, !eqe_true. unfold same_edge. cbn.
      split.
      + intros [[X Y]|[X Y]]; (split; [auto|]); intros [[-> ->]|[-> ->]]; apply Y; auto.
      + intros [[X|X] Y]; [left|right]; split; auto; intros [Q'|Q']; injection Q'; intros; subst; auto.
    - rewrite remove_edge_missing by auto. cbn. auto.
  Qed.

  (** ** C51: culling *)
  Theorem C51_cull g pe pv : reachable G g -> (forall l, Permutation (pe l) l) -> (forall l, Permutation (pv l) l) ->
    exists g', cull_open_edges G pe pv g = Some (g', true) /\
      incl (edges g') (edges g) /\ no_dead_ends G (edges g') /\
      (forall s, NoDup s -> incl s (edges g) -> no_dead_ends G s -> incl s (edges g')).
  Proof.
    intros R Pe Pv. pose proof (reach_gwf g R) as W. unfold cull_open_edges.
    destruct (cull_loop_ok G pe Pe (S (size g)) g W) as [g' [Q [W' [I [D S]]]]]; [unfold size; lia|]. rewrite Q. eexists. split; [reflexivity|].
    cbn. split; auto. split; [|auto]. intros u. rewrite <- (degree_incident G _ _ u W'). apply D.
  Qed.
  (** the edges left do not depend on the iteration order *)
  Theorem C51_order_independent g pe pv pe' pv' g1 g2 : reachable G g ->
    (forall l, Permutation (pe l) l) -> (forall l, Permutation (pv l) l) -> (forall l, Permutation (pe' l) l) -> (forall l, Permutation (pv' l) l) ->
    cull_open_edges G pe pv g = Some (g1, true) -> cull_open_edges G pe' pv' g = Some (g2, true) ->
    forall e, In e (edges g1) <-> In e (edges g2).
  Proof.
    intros R A B C D Q1 Q2.
    assert (N : forall pe pv g', (forall l, Permutation (pe l) l) -> (forall l, Permutation (pv l) l) -> cull_open_edges G pe pv g = Some (g', true) -> NoDup (edges g')).
    { intros p1 p2 g' P1 P2 Q. destruct R as [h [H <-]].
      assert (R' : reachable G g').
      { exists (h ++ [Cull p1 p2]). split; [apply Forall_app; split; auto; constructor; [split; auto|constructor]|].
        unfold run in *. rewrite fold_left_app. cbn. rewrite Q. auto. }
      apply (C50_consistent _ R'). }
    destruct (C51_cull g pe pv R A B) as [h1 [E1 [I1 [D1 S1]]]]. rewrite E1 in Q1. injection Q1; intros <-.
    destruct (C51_cull g pe' pv' R C D) as [h2 [E2 [I2 [D2 S2]]]]. rewrite E2 in Q2. injection Q2; intros <-.
    intros e. split; [apply S2|apply S1]; auto; eapply N; [| |eauto| | |eauto]; eauto.
  Qed.

  (** ** C52: path building *)
  Definition start_ok (g : graph) (s : option E) : Prop :=
    match s with Some e => joins (edges g) (fst e) (snd e) | None => edges g <> [] end.
  Theorem C52_paths g st rs s : reachable G g -> start_ok g s ->
    exists ps, build_paths G g st rs s = Some ps /\
      (forall p, In p ps -> 2 <= length p /\ forall u v, In (u, v) (steps p) -> joins (edges g) u v) /\
      (forall e, In e (edges g) -> uses G e (flat_map steps ps) = 1).
  Proof. intros R. apply build_paths_ok, reach_gwf, R. Qed.
  Theorem C52_longest_first g st rs s ps i : build_paths G g st rs s = Some ps -> S i < length ps -> length (nth (S i) ps []) <= length (nth i ps []).
  Proof.
    intros Q. apply build_paths_desc in Q. revert i. induction ps as [|p r IH]; intros i L; [cbn in L; lia|]. destruct Q as [A B].
    destruct i as [|i]; cbn [nth].
    - apply A. apply nth_In. cbn in L. lia.
    - apply IH; auto. cbn in L. lia.
  Qed.
  (** without a start edge an empty graph raises *)
  Theorem C52_empty_raises g st rs : edges g = [] -> build_paths G g st rs None = None.
  Proof. intros Q. unfold build_paths. rewrite Q. auto. Qed.

  (** ** C81: build_longest_paths *)
  Lemma longest_ok g st rs es : gwf G g -> incl es (edges g) -> forall k, exists ps, longest_loop G g st rs k es = Some ps /\
    length ps = length es /\ Forall (fun p => path_ok (edges g) p /\ forall e, uses G e (steps p) <= 1) ps.
  Proof.
    intros W. induction es as [|[a b] r IH]; intros I k; cbn [longest_loop]; [exists []; auto|].
    destruct (build_path_ok G g st rs k a b [] W) as [p [v [k' [Q [PO [U [_ [U1 _]]]]]]]].
    - left. apply I; left; auto.
    - unfold joins; cbn; tauto.
    - intros e. unfold uses. cbn. lia.
    - unfold joins; cbn; tauto.
    - rewrite Q. destruct (IH (fun x X => I x (or_intror X)) k') as [ps [Q2 [L F]]]. rewrite Q2. exists (p :: ps). split; auto. split; [cbn; lia|].
      constructor; auto. split; auto. intros e. specialize (U e). specialize (U1 e). lia.
  Qed.
  Lemma dedupe_incl p l : forall q, In q (dedupe_from G p l) -> In q l.
  Proof. revert p. induction l as [|x l IH]; intros p q; cbn [dedupe_from]; auto. destruct (differ G p x); cbn [In]; [intros [->|X]|intros X]; auto; right; eapply IH; eauto. Qed.
  Theorem C81_longest_paths g st rs perm : reachable G g -> (forall l, Permutation (perm l) l) -> edges g <> [] ->
    exists p ps, build_longest_paths G g st rs perm = Some (p :: ps) /\
      (forall q, In q (p :: ps) -> (2 <= length q /\ forall u v, In (u, v) (steps q) -> joins (edges g) u v) /\
                                   (forall e, uses G e (steps q) <= 1) /\ length q <= length p).
  Proof.
    intros R P NE. pose proof (reach_gwf g R) as W. unfold build_longest_paths.
    destruct (longest_ok g st rs (perm (edges g)) W) with (k := 0) as [l [Q [L F]]].
    { intros e X. eapply Permutation_in; [apply P|exact X]. }
    rewrite Q. set (gt := fun p q : list V => length p <? length q).
    assert (SP : Permutation (sort gt l) l) by apply sort_perm. pose proof (sort_desc l) as SD. fold gt in SD.
    destruct (sort gt l) as [|p r] eqn:QS.
    - exfalso. apply Permutation_nil in SP. subst l. rewrite (Permutation_length (P (edges g))) in L. destruct (edges g); [auto|discriminate].
    - cbn [dedupe]. exists p, (dedupe_from G p r). split; auto. intros q X.
      assert (Y : In q (p :: r)) by (destruct X as [->|X]; [left; auto|right; eapply dedupe_incl; eauto]).
      rewrite Forall_forall in F. destruct (F q) as [A B]; [eapply Permutation_in; eauto|]. split; [exact A|]. split; auto.
      destruct SD as [SD _]. destruct Y as [->|Y]; auto.
  Qed.
  Theorem C81_empty_raises g st rs perm : edges g = [] -> perm [] = [] -> build_longest_paths G g st rs perm = None.
  Proof. intros Q Qp. unfold build_longest_paths. rewrite Q, Qp. auto. Qed.

  (** ** C77: the lowest vertex *)
  Definition lowest (g : @graph V) : Prop :=
    match bottom g with
    | BNode b => In b (vertices g) /\ forall v, In v (vertices g) -> ylt G v b = false
    | _ => vertices g = []
    end.
  Definition y_order : Prop := (forall a b c, ylt G a b = false -> ylt G b c = false -> ylt G a c = false) /\ (forall a b, ylt G a b = true -> ylt G b a = false).
  Definition insertion (o : @op V) : bool := match o with Add _ | AddPoly _ _ => true | _ => false end.
  Lemma add_lowest g a b : y_order -> gwf G g -> lowest g -> bottom g <> BNone -> lowest (fst (add_edge G g (a, b))) /\ bottom (fst (add_edge G g (a, b))) <> BNone.
  Proof.
    intros [T A] W L NB. destruct (add_edge_cases G g a b) as [[-> _]|[N [J [Q1 [Q2 _]]]]]; auto.
    assert (W' : gwf G (fst (add_edge G g (a, b)))) by (apply add_edge_gwf; auto).
    assert (K : forall u, In u (vertices (fst (add_edge G g (a, b)))) <-> In u (vertices g) \/ u = a \/ u = b).
    { intros u. rewrite (c_vertices _ _ (wf_consistent G _ W')), (c_vertices _ _ (wf_consistent G _ W)), Q1.
      split.
      - intros [v X]. rewrite joins_app, joins_one in X. destruct X as [X|[[-> _]|[-> _]]]; eauto.
      - intros [[v X]|[->| ->]]; [exists v|exists b|exists a]; rewrite joins_app, joins_one; auto. }
    assert (Ir : forall x, ylt G x x = false) by (intros x; destruct (ylt G x x) eqn:Q; auto; rewrite (A _ _ Q) in Q; auto).
    unfold lowest in *.
    assert (QB : bottom (fst (add_edge G g (a, b))) =
      match bottom g with
      | BMax => BNode (if ylt G b a then b else a)
      | BNode w => BNode (let w' := if ylt G a w then a else w in if ylt G b w' then b else w')
      | BNone => BNone end).
    { unfold add_edge. destruct (veq G a b); [contradiction|]. rewrite (proj2 (mem_e_false G (a, b) (edges g))) by auto.
      destruct (bottom g) as [|w|]; cbn; [destruct (ylt G b a); auto| |auto]. destruct (ylt G a w); cbn; [destruct (ylt G b a)|destruct (ylt G b w)]; auto. }
    rewrite QB. destruct (bottom g) as [|w|]; [| |congruence]; (split; [|discriminate]).
    - split; [rewrite K; destruct (ylt G b a); auto|]. intros v. rewrite K, L. intros [[]|[->| ->]]; destruct (ylt G b a) eqn:Q; auto.
    - destruct L as [Iw M]. cbn zeta. split.
      + rewrite K. destruct (ylt G a w); [destruct (ylt G b a)|destruct (ylt G b w)]; auto.
      + intros v. rewrite K. destruct (ylt G a w) eqn:QA; [destruct (ylt G b a) eqn:QBA|destruct (ylt G b w) eqn:QBW];
          (intros [X|[->| ->]]; [specialize (M v X)| |]); auto; eauto.
  Qed.
  Theorem C77_lowest_after_insertions_partial h : y_order -> forallb insertion h = true -> lowest (run G h).
  Proof.
    intros Y. unfold run.
    assert (X : forall h g, forallb insertion h = true -> gwf G g -> lowest g /\ bottom g <> BNone -> lowest (fold_left (step G) h g)).
    { induction h0 as [|o r IH]; intros g H W [L NB]; cbn; auto. cbn in H. apply andb_true_iff in H. destruct H as [Ho Hr]. apply IH; auto.
      - destruct o; try discriminate; [apply add_edge_gwf|apply add_poly_gwf]; auto.
      - destruct o as [[a b]|vs close| | | | |]; try discriminate; cbn [step].
        + apply add_lowest; auto.
        + destruct vs as [|p q]; [cbn; auto|]. cbn [add_poly].
          enough (Z : gwf G (fst (fold_op (add_edge G) g (segs p q ++ (if close && negb (eqv G p (last (p :: q) p)) then [(last (p :: q) p, p)] else [])))) /\
            lowest (fst (fold_op (add_edge G) g (segs p q ++ (if close && negb (eqv G p (last (p :: q) p)) then [(last (p :: q) p, p)] else [])))) /\
            bottom (fst (fold_op (add_edge G) g (segs p q ++ (if close && negb (eqv G p (last (p :: q) p)) then [(last (p :: q) p, p)] else [])))) <> BNone) by tauto.
          apply (fold_op_inv (fun g => gwf G g /\ lowest g /\ bottom g <> BNone)); auto.
          intros g0 [a b] _ [W0 [L0 B0]]. split; [apply add_edge_gwf; auto|]. apply add_lowest; auto. }
    intros H. apply X; auto; [apply wf_empty|]. split; [reflexivity|discriminate].
  Qed.
  Theorem C77_lowest_after_cull g pe pv g' : y_order -> reachable G g -> (forall l, Permutation (pe l) l) -> (forall l, Permutation (pv l) l) ->
    cull_open_edges G pe pv g = Some (g', true) -> lowest g'.
  Proof.
    intros [T A] R Pe Pv. unfold cull_open_edges. destruct (cull_loop G pe (S (size g)) g) as [[g1 [|]]|]; try discriminate. intros Q. injection Q; intros <-.
    unfold lowest. cbn. pose proof (find_bottom_ok G (pv (vertices g1)) T A) as F. destruct (find_bottom G (pv (vertices g1))) as [|b|]; [destruct F| |].
    - destruct F as [I M]. split; [eapply Permutation_in; [apply Pv|exact I]|]. intros v X. apply M. eapply Permutation_in; [symmetry; apply Pv|exact X].
    - unfold vertices in *. cbn. apply Permutation_nil. rewrite <- F. apply Pv.
  Qed.
  (** after culling everything away, adding an edge raises (AttributeError), although the edge is stored *)
  Theorem C77_add_after_empty_cull_raises g a b : bottom g = BNone -> a <> b -> ~ joins (edges g) a b -> snd (add_edge G g (a, b)) = false.
  Proof.
    intros Q N J. destruct (add_edge_cases G g a b) as [[_ [_ [X|X]]]|[_ [_ [_ [_ [_ X]]]]]]; [contradiction|contradiction|auto].
  Qed.

  (** ** C78: faces *)
  Theorem C78_terminates g pv : reachable G g -> exists fs, snd (get_face_polygons G pv g) = Some fs.
  Proof.
    intros R. unfold get_face_polygons. cbn [snd]. pose proof (check_modified_gwf G g (reach_gwf g R)) as W.
    destruct (faces_from_terminates G _ _ W (pv (vertices (check_modified G g))) []) as [[fs mk] Q]. rewrite Q. exists fs. auto.
  Qed.
  (** In a graph without dead ends: there are closed walks, each obeying the turn rule, which together use each side of
      each edge exactly once, and the polygons returned are those of the walks that do not have positive [area]. *)
  Theorem C78_faces g pv : reachable G g -> no_dead_ends G (edges g) -> (forall l, Permutation (pv l) l) ->
    exists ws, snd (get_face_polygons G pv g) = Some (filter (fun p => negb (area_pos G p)) ws) /\
      Forall (face_circuit G (nodes (fst (get_face_polygons G pv g)))) ws /\
      Permutation (flat_map steps ws) (sides (edges g)).
  Proof.
    intros R ND P. unfold get_face_polygons. cbn [fst snd]. pose proof (check_modified_gwf G g (reach_gwf g R)) as W.
    set (g1 := check_modified G g) in *. assert (EQ : edges g1 = edges g) by apply check_modified_edges.
    assert (D : forall u, degree G (nodes g1) u <> 1). { intros u. rewrite (degree_incident G _ _ u W), EQ. apply ND. }
    destruct (faces_from_live G _ _ W D (pv (vertices g1)) [] []) as [ws [mk [Q [F [N [I [M A]]]]]]].
    - intros e [].
    - constructor.
    - intros d d' [].
    - tauto.
    - rewrite Q. exists ws. split; auto. split; auto. rewrite app_nil_r in *.
      assert (SW : forall u v, In (u, v) (map (fun e : V * V => (snd e, fst e)) (edges g)) <-> In (v, u) (edges g)).
      { intros u v. rewrite in_map_iff. split; [intros [[a b] [X Y]]; cbn in X; injection X; intros; subst; auto|intros; exists (v, u); auto]. }
      unfold GraphProofs.gwf in W. rewrite EQ in W.
      assert (DI : forall u v, In (u, v) (darts (nodes g1)) <-> joins (edges g) u v).
      { intros u v. rewrite (darts_In G) by apply (w_keys _ _ _ W). apply (w_sym _ _ _ W). }
      apply NoDup_Permutation; auto.
      + apply NoDup_app'; [apply (w_nodup_edges _ _ _ W)| |].
        * apply FinFun.Injective_map_NoDup; [|apply (w_nodup_edges _ _ _ W)]. intros [a b] [c d] X. cbn in X. injection X; intros; subst; auto.
        * intros [u v] X Y. apply SW in Y. eapply (w_one_dir _ _ _ W); eauto.
      + intros [u v]. unfold sides. rewrite in_app_iff, SW. change (In (u, v) (edges g) \/ In (v, u) (edges g)) with (joins (edges g) u v). rewrite <- DI. split.
        * apply I.
        * intros X. apply A; [|apply (darts_In G) in X; auto; apply (w_keys _ _ _ W)].
          eapply Permutation_in; [symmetry; apply P|]. apply (c_vertices _ _ (wf_consistent G g1 ltac:(unfold gwf; rewrite EQ; exact W))).
          exists v. rewrite EQ. apply DI; auto.
  Qed.

  (** ** C79: the boundary polygon *)
  Theorem C79_boundary_partial g b : reachable G g -> no_dead_ends G (edges g) -> bottom g = BNode b -> In b (vertices g) ->
    exists l, snd (boundary_polygon G g) = BOk (b :: l) /\ l <> [] /\ length l <= order g /\
      (forall u v, In (u, v) (steps (b :: l)) -> joins (edges g) u v) /\
      chained G (nodes (fst (boundary_polygon G g))) (steps (b :: l)) /\
      (length l < order g -> last (b :: l) b = b).
  Proof.
    intros R ND QB IB. unfold boundary_polygon. cbn [fst snd]. pose proof (check_modified_gwf G g (reach_gwf g R)) as W.
    set (g1 := check_modified G g) in *. assert (EQ : edges g1 = edges g) by apply check_modified_edges.
    assert (BQ : bottom g1 = bottom g) by (unfold g1, check_modified; destruct (modified g); auto).
    assert (VQ : vertices g1 = vertices g).
    { unfold g1, check_modified, vertices. destruct (modified g); auto. cbn. rewrite map_map. auto. }
    assert (OQ : order g1 = order g). { unfold order. rewrite <- !(map_length fst). fold (vertices g1). rewrite VQ. auto. }
    rewrite BQ, QB.
    assert (L : live G (nodes g1)).
    { intros u I. assert (degree G (nodes g1) u <> 0) by (intros X; apply (degree_zero G _ _ u W) in X; auto).
      assert (degree G (nodes g1) u <> 1) by (rewrite (degree_incident G _ _ u W), EQ; apply ND). lia. }
    destruct (build_boundary_live G (nodes g1) b (order g1) (wf_net G _ _ W) L) as [l [Q [Ln [C [K [A [Z NE]]]]]]].
    { fold (vertices g1). rewrite VQ. auto. }
    rewrite Q. exists l. rewrite <- OQ. split; auto. split; [|split; [auto|split; [|split; auto]]].
    - apply NE. unfold order. assert (X : In b (map fst (nodes g1))) by (fold (vertices g1); rewrite VQ; auto). destruct (nodes g1); [destruct X|cbn; lia].
    - intros u v X. rewrite <- EQ. apply (w_sym _ _ _ W). auto.
  Qed.

  (** ** C80: peeling *)
  Fixpoint vertex_disjoint (ps : list (list V)) : Prop :=
    match ps with [] => True | p :: r => (forall q v, In q r -> In v p -> ~ In v q) /\ vertex_disjoint r end.
  Theorem C80_peel g poly : reachable G g ->
    edges (fst (peel_boundary_polygon G g poly)) = edges g /\
    exists ps, snd (peel_boundary_polygon G g poly) = Some ps /\ vertex_disjoint ps /\
      forall p, In p ps -> 2 < length p /\ (forall v, In v p -> ~ In v poly) /\
        (poly <> [] -> forall v, In v p -> inside G poly v = true) /\ forall u v, In (u, v) (steps p) -> joins (edges g) u v.
  Proof.
    intros R. split; [apply check_modified_edges|]. destruct (peel_ok G g poly (reach_gwf g R)) as [ps [Q [F D]]]. exists ps. split; auto. split; [exact D|].
    rewrite Forall_forall in F. intros p I. destruct (F p I) as [[A [B C]] X]. split; auto. split; [|split].
    - intros v Y. apply (X v Y).
    - intros N v Y. apply (X v Y); auto.
    - intros u v Y. pose proof (check_modified_gwf G g (reach_gwf g R)) as W. rewrite <- (check_modified_edges G g). apply (w_sym _ _ _ W). auto.
  Qed.
End Gen.

(** ** Concrete cases *)
Local Open Scope Z_scope.
Definition hist (l : list (zpt * zpt)) : list (@op zpt) := map Add l.
Definition of_edges (l : list (zpt * zpt)) : graph := run zgeo (hist l).
Lemma of_edges_reachable l : reachable zgeo (of_edges l).
Proof. exists (hist l). split; auto. unfold hist. induction l; cbn; constructor; cbn; auto. Qed.
Lemma zgeo_order : y_order zgeo.
Proof.
  split; cbn; intros *; rewrite ?Z.ltb_ge, ?Z.ltb_lt; lia.
Qed.
(** square with a diagonal and a dangling edge *)
Definition sq_diag : list (zpt * zpt) := [((0,0),(2,0)); ((2,0),(2,2)); ((2,2),(0,2)); ((0,2),(0,0)); ((0,0),(2,2)); ((2,2),(5,5))].
Theorem C50_example : reachable zgeo (of_edges sq_diag) /\ size (of_edges sq_diag) = 6%nat /\ order (of_edges sq_diag) = 5%nat /\
  degree zgeo (nodes (of_edges sq_diag)) (2, 2) = 4%nat.
Proof. split; [apply of_edges_reachable|]. vm_compute. auto. Qed.
Theorem C51_example : exists g', cull_open_edges zgeo (fun l => l) (fun l => l) (of_edges sq_diag) = Some (g', true) /\
  edges g' = [((0,0),(2,0)); ((2,0),(2,2)); ((2,2),(0,2)); ((0,2),(0,0)); ((0,0),(2,2))].
Proof. eexists. split; vm_compute; reflexivity. Qed.

Theorem C52_example : start_ok (of_edges sq_diag) (Some ((2,2),(0,0))) /\
  build_paths zgeo (of_edges sq_diag) STRAIGHTEST (fun n => n) (Some ((2,2),(0,0))) <> None.
Proof. split; vm_compute; [auto 10|discriminate]. Qed.
Theorem C81_example : edges (of_edges sq_diag) <> [] /\ build_longest_paths zgeo (of_edges sq_diag) STRAIGHTEST (fun n => n) (fun l => l) <> None.
Proof. split; vm_compute; discriminate. Qed.

(** C77: removing the lowest edge leaves a stale lowest node; culling to nothing makes the next insertion raise *)
Definition path3 : list (zpt * zpt) := [((0,0),(1,1)); ((1,1),(2,2))].
Theorem C77_stale_after_removal_refuted : exists g, reachable zgeo g /\ ~ lowest zgeo g /\ vertices g <> [].
Proof.
  exists (run zgeo (hist path3 ++ [Remove ((0,0),(1,1))])). split; [|split].
  - exists (hist path3 ++ [Remove ((0,0),(1,1))]). split; auto. repeat constructor.
  - unfold lowest. vm_compute. intros [[X|[X|[]]] _]; discriminate.
  - vm_compute. discriminate.
Qed.
Theorem C77_raise_refuted : exists g e, reachable zgeo g /\ fst e <> snd e /\ snd (add_edge zgeo g e) = false.
Proof.
  exists (run zgeo (hist path3 ++ [Cull (fun l => l) (fun l => l)])), ((0,0),(1,1)). split; [|split].
  - exists (hist path3 ++ [Cull (fun l => l) (fun l => l)]). split; auto. repeat constructor; auto.
  - discriminate.
  - vm_compute. reflexivity.
Qed.
Theorem C77_example : lowest zgeo (of_edges sq_diag) /\ bottom (of_edges sq_diag) = BNode (0, 0).
Proof. split; [apply C77_lowest_after_insertions_partial; [apply zgeo_order|reflexivity]|reflexivity]. Qed.

(** C78: the square with a diagonal: two triangles (the outer walk is discarded) *)
Definition sq_diag0 : list (zpt * zpt) := [((0,0),(2,0)); ((2,0),(2,2)); ((2,2),(0,2)); ((0,2),(0,0)); ((0,0),(2,2))].
Lemma no_dead_ends_check g : reachable zgeo g -> forallb (fun v => negb (Nat.eqb (degree zgeo (nodes g) v) 1)) (vertices g) = true -> no_dead_ends zgeo (edges g).
Proof.
  intros R F u. rewrite <- (proj1 (C50_counts zgeo g R) u). intros H. rewrite forallb_forall in F.
  assert (I : In u (vertices g)).
  { destruct (in_dec zpt_eq u (vertices g)) as [J|N]; [exact J|]. exfalso.
    apply (degree_zero zgeo _ _ u (reach_gwf zgeo g R)) in N. rewrite N in H. discriminate. }
  specialize (F u I). rewrite H in F. discriminate.
Qed.
Lemma sq_live : no_dead_ends zgeo (edges (of_edges sq_diag0)).
Proof. apply no_dead_ends_check; [apply of_edges_reachable|vm_compute; reflexivity]. Qed.
Theorem C78_example : reachable zgeo (of_edges sq_diag0) /\ no_dead_ends zgeo (edges (of_edges sq_diag0)) /\
  snd (get_face_polygons zgeo (fun l => l) (of_edges sq_diag0)) = Some [[(0,0);(2,0);(2,2);(0,0)]; [(0,0);(2,2);(0,2);(0,0)]].
Proof. split; [apply of_edges_reachable|split; [apply sq_live|vm_compute; reflexivity]]. Qed.
(** with a dead end inside a face, the face may be returned twice, depending on the order of the node map *)
Definition sq_spike : list (zpt * zpt) := [((0,0),(4,0)); ((4,0),(4,4)); ((4,4),(0,4)); ((0,4),(0,0)); ((0,0),(2,2))].
Theorem C78_dead_end_refuted : exists g fs, reachable zgeo g /\ snd (get_face_polygons zgeo (fun l => l) g) = Some fs /\
  ~ NoDup (flat_map steps fs).
Proof.
  exists (of_edges sq_spike), [[(0,0);(4,0);(4,4);(0,4);(0,0)]; [(2,2);(0,0);(4,0);(4,4);(0,4);(0,0)]]. split; [apply of_edges_reachable|].
  split; [vm_compute; reflexivity|]. cbn. intros N. inversion N; subst. apply H1. right. right. right. right. left. auto.
Qed.

(** C79: the number of steps is limited by the number of nodes, so a boundary that passes a vertex twice is cut short;
    a dangling edge of length two at the bottom raises TypeError. *)
Definition tri_chain : list (zpt * zpt) :=
  [((0,0),(4,1)); ((4,1),(2,3)); ((2,3),(0,0)); ((2,3),(4,6)); ((4,6),(0,6)); ((0,6),(2,3)); ((4,6),(9,6)); ((9,6),(6,9)); ((6,9),(4,6))].
Lemma tri_chain_live : no_dead_ends zgeo (edges (of_edges tri_chain)).
Proof. apply no_dead_ends_check; [apply of_edges_reachable|vm_compute; reflexivity]. Qed.
Theorem C79_closed_refuted : exists g b l, reachable zgeo g /\ no_dead_ends zgeo (edges g) /\ bottom g = BNode b /\
  snd (boundary_polygon zgeo g) = BOk (b :: l) /\ last (b :: l) b <> b /\
  (* the corner (4,1) of the outer boundary is missing *) In (4, 1) (vertices g) /\ ~ In (4, 1) (b :: l).
Proof.
  exists (of_edges tri_chain), (0,0), [(2,3);(0,6);(4,6);(6,9);(9,6);(4,6);(2,3)].
  split; [apply of_edges_reachable|]. split; [apply tri_chain_live|]. split; [reflexivity|]. split; [vm_compute; reflexivity|].
  split; [cbn; discriminate|]. split; [vm_compute; auto|]. cbn. intros X. repeat (destruct X as [X|X]; [discriminate|]). destruct X.
Qed.
Definition lollipop : list (zpt * zpt) := [((0,0),(0,1)); ((0,1),(0,2)); ((0,2),(1,3)); ((1,3),(-1,3)); ((-1,3),(0,2))].
Theorem C79_dangling_refuted : exists g, reachable zgeo g /\ snd (boundary_polygon zgeo g) = BTypeError.
Proof. exists (of_edges lollipop). split; [apply of_edges_reachable|vm_compute; reflexivity]. Qed.
(** a star: every leg ends loosely; the boundary that is returned is only its middle *)
Definition star3 : list (zpt * zpt) := [((0,0),(0,1)); ((0,1),(1,2)); ((0,1),(-1,2))].
Theorem C79_star_refuted : exists g, reachable zgeo g /\ order g = 4%nat /\ snd (boundary_polygon zgeo g) = BOk [(0,1);(0,1)].
Proof. exists (of_edges star3). split; [apply of_edges_reachable|vm_compute; auto]. Qed.
Theorem C79_example : bottom (of_edges sq_diag0) = BNode (0,0) /\ In (0,0) (vertices (of_edges sq_diag0)) /\
  snd (boundary_polygon zgeo (of_edges sq_diag0)) = BOk [(0,0);(0,2);(2,2);(2,0);(0,0)].
Proof. vm_compute. auto. Qed.
(** C80: a square inside a square *)
Definition nested : list (zpt * zpt) := [((0,0),(9,0)); ((9,0),(9,9)); ((9,9),(0,9)); ((0,9),(0,0)); ((0,0),(3,3)); ((3,3),(6,3)); ((6,3),(6,6)); ((6,6),(3,6)); ((3,6),(3,3)); ((9,9),(6,6))].
Theorem C80_example : snd (peel_boundary_polygon zgeo (of_edges nested) [(0,0);(9,0);(9,9);(0,9);(0,0)]) = Some [[(3,3);(3,6);(6,6);(6,3);(3,3)]].
Proof. vm_compute. reflexivity. Qed.
