(** * PropsGraph2: path strategies (C117), similar paths (C81), dead ends on the boundary (C79). *)
From Coq Require Import ZArith List Bool Arith Lia Permutation.
From Verif Require Import Graph GraphSpec GraphProofs GraphProofs2 GraphFaces GraphPeel GraphZ PropsGraph.
Import ListNotations.

Section Spec.
  Context {V : Type} (G : geo V).
  Notation E := (V * V)%type.
  (** the ways on from v, coming from u: edges not used so far, not back to u *)
  Definition way_on (es used : list E) (u v x : V) : Prop := joins es v x /\ x <> u /\ ~ joins used v x.
  (** what a strategy asks of the vertex w chosen: the straightest way on makes the greatest angle with the edge back *)
  Definition chosen (st : strategy) (ways : V -> Prop) (u v w : V) : Prop :=
    match st with
    | STRAIGHTEST => forall x, ways x -> turn_lt G u v w x = false
    | SQUIGGLY => forall x, ways x -> turn_lt G u v x w = false
    | RANDOM => True
    | RANDOM2 => forall x y, ways x -> ways y -> turn_lt G u v w x = true -> turn_lt G u v w y = true -> x = y
    end.
  (** [trail st es used u v p]: coming from u, the path goes on by p = v, ..., choosing by the strategy at every vertex, and
      ends where there is no way on *)
  Inductive trail (st : strategy) (es : list E) : list E -> V -> V -> list V -> Prop :=
  | trail_end used u v : (forall x, ~ way_on es used u v x) -> trail st es used u v [v]
  | trail_on used u v w p : way_on es used u v w -> chosen st (way_on es used u v) u v w ->
      trail st es ((u, v) :: used) v w p -> trail st es used u v (v :: p).
  (** a path through the edge a-b: a trail from it in both directions, glued together *)
  Definition through (st : strategy) (es used : list E) (a b : V) (p : list V) : Prop :=
    joins es a b /\ ~ joins used a b /\ exists f r, trail st es used a b f /\ trail st es (steps (a :: f) ++ used) b a (a :: r) /\
      (p = rev (a :: f) ++ r \/ r = [] /\ p = a :: f).
  Inductive all_through (st : strategy) (es : list E) : list E -> list (list V) -> Prop :=
  | at_nil used : (forall u v, joins es u v -> joins used u v) -> all_through st es used []
  | at_cons used a b p ps : through st es used a b p -> all_through st es (steps p ++ used) ps -> all_through st es used (p :: ps).
  (** comparing angles is comparing numbers *)
  Definition turn_order : Prop := forall u v, (forall a b, turn_lt G u v a b = true -> turn_lt G u v b a = false) /\
    (forall a b c, turn_lt G u v a b = true -> turn_lt G u v b c = true -> turn_lt G u v a c = true).

  (** paths are left out if all but at most two vertices of their predecessor lie on them *)
  Definition two_more_vertices (prev p : list V) : Prop :=
    exists a b c, a <> b /\ a <> c /\ b <> c /\ (forall v, v = a \/ v = b \/ v = c -> In v prev /\ ~ In v p).
  Inductive thinned : list V -> list (list V) -> list (list V) -> Prop :=
  | th_nil prev : thinned prev [] []
  | th_keep prev p l r : two_more_vertices prev p -> thinned p l r -> thinned prev (p :: l) (p :: r)
  | th_drop prev p l r : ~ two_more_vertices prev p -> thinned p l r -> thinned prev (p :: l) r.
End Spec.

Section Proofs.
  Context {V : Type} (G : geo V).
  Notation E := (V * V)%type.

  Lemma insert_sorted {A} (gt : A -> A -> bool) (x : A) l : (forall a b, gt a b = true -> gt b a = false) ->
    (forall a b c, gt a b = true -> gt b c = true -> gt a c = true) ->
    ForallOrdPairs (fun a b => gt a b = false) l -> ForallOrdPairs (fun a b => gt a b = false) (insert gt x l).
  Proof.
    intros AS TR. induction 1 as [|y r F S IH]; cbn [insert]; [constructor; constructor|]. destruct (gt y x) eqn:Q.
    - constructor; [|constructor; auto]. constructor; [apply AS; auto|]. eapply Forall_impl; [|exact F]. intros z Hz. cbn in Hz.
      destruct (gt x z) eqn:Z; auto. rewrite (TR y x z) in Hz; auto.
    - constructor; auto. rewrite Forall_forall in *. intros z Z. eapply Permutation_in in Z; [|apply insert_perm]. destruct Z as [<-|Z]; auto.
  Qed.
  Lemma sort_sorted {A} (gt : A -> A -> bool) (l : list A) : (forall a b, gt a b = true -> gt b a = false) ->
    (forall a b c, gt a b = true -> gt b c = true -> gt a c = true) -> ForallOrdPairs (fun a b => gt a b = false) (sort gt l).
  Proof.
    intros AS TR. unfold sort. assert (H : forall l acc, ForallOrdPairs (fun a b => gt a b = false) acc ->
      ForallOrdPairs (fun a b => gt a b = false) (fold_left (fun acc x => insert gt x acc) l acc)).
    { induction l0; cbn; auto. intros. apply IHl0, insert_sorted; auto. }
    apply H. constructor.
  Qed.
  Lemma exits_way es m u v vis x : wf G es m -> In x (exits G m u v vis) <-> way_on es vis u v x.
  Proof.
    intros W. unfold exits, way_on. rewrite filter_In, andb_true_iff, !negb_true_iff, eqv_false, mem_e_false. cbn [fst snd].
    rewrite (w_sym _ _ _ W). tauto.
  Qed.
  Lemma exit_spec es m st rs k u v vis : turn_order G -> wf G es m -> joins es u v ->
    match exit_node G m st rs k u v vis with
    | (Some w, _) => way_on es vis u v w /\ chosen G st (way_on es vis u v) u v w
    | (None, _) => forall x, ~ way_on es vis u v x
    end.
  Proof.
    intros TO W J. destruct (exit_node G m st rs k u v vis) as [[w|] k'] eqn:Q.
    - split.
      + apply exit_node_In in Q. destruct Q as (A & B & C). apply (w_sym _ _ _ W) in A. split; auto.
      + revert Q. unfold exit_node. destruct (degree G m v =? 1); [discriminate|].
        destruct (TO u v) as [AS TR]. pose proof (sort_sorted (turn_lt G u v) (exits G m u v vis) AS TR) as S.
        assert (I : forall x, way_on es vis u v x -> In x (sort (turn_lt G u v) (exits G m u v vis))).
        { intros x X. apply (exits_way es m) in X; auto. eapply Permutation_in; [symmetry; apply sort_perm|exact X]. }
        assert (RF : forall x, turn_lt G u v x x = false) by (intros x; destruct (turn_lt G u v x x) eqn:Z; auto; specialize (AS _ _ Z); congruence).
        destruct (sort (turn_lt G u v) (exits G m u v vis)) as [|y r]; [discriminate|].
        destruct st; intros Q; cbn [chosen]; auto; injection Q; intros _ QW; clear Q.
        * subst y. intros x X. apply I in X. inversion S as [|? ? F _]; subst. rewrite Forall_forall in F. destruct X as [<-|X]; auto.
        * intros x X. apply I in X. destruct (exists_last (l := y :: r)) as (l & z & E); [discriminate|]. assert (QL : last (y :: r) y = w) by exact QW. rewrite E in QL, S, X. rewrite last_last in QL. subst z.
          apply in_app_iff in X. destruct X as [X|[<-|[]]]; auto. clear - S X. induction l as [|c l IH]; [destruct X|].
          cbn [app] in S. inversion S as [|? ? F S']; subst. destruct X as [->|X]; [|auto]. rewrite Forall_forall in F. apply F. apply in_or_app. right; left; auto.
        * assert (C : w = y \/ exists z t, r = z :: t /\ w = z).
          { assert (X : In w (firstn 3 (y :: y :: r))) by (rewrite <- QW; apply choice_In; discriminate).
            cbn [firstn] in X. destruct X as [->|[->|X]]; auto. destruct r as [|z t]; cbn in X; [destruct X|]. destruct X as [->|[]]. right. eauto. }
          clear QW. intros a b A B LA LB. apply I in A, B. inversion S as [|? ? F S']; subst. rewrite Forall_forall in F.
          assert (K : forall c, In c (y :: r) -> turn_lt G u v w c = true -> c = y).
          { intros c [<-|X] L; auto. exfalso. destruct C as [->|(z & t & -> & ->)]; [rewrite (F c X) in L; discriminate|].
            inversion S' as [|? ? F' _]; subst. rewrite Forall_forall in F'. destruct X as [<-|X]; [rewrite RF in L|rewrite (F' c X) in L]; discriminate. }
          rewrite (K a A LA), (K b B LB). auto.
    - intros x X. revert Q. unfold exit_node. destruct (degree G m v =? 1) eqn:D.
      + intros _. apply Nat.eqb_eq in D. unfold degree in D. destruct X as (X1 & X2 & _).
        assert (A1 : In x (adj G m v)) by (apply (w_sym _ _ _ W); auto). assert (A2 : In u (adj G m v)) by (apply (w_sym _ _ _ W), joins_sym; auto).
        destruct (adj G m v) as [|c [|]]; try discriminate. destruct A1 as [<-|[]]. destruct A2 as [<-|[]]. auto.
      + apply (exits_way es m) in X; auto. eapply Permutation_in in X; [|symmetry; apply (sort_perm (turn_lt G u v))].
        destruct (sort (turn_lt G u v) (exits G m u v vis)); [destruct X|destruct st; discriminate].
  Qed.
  Lemma trail_ext st es p : forall used used' u v, (forall x y, joins used x y <-> joins used' x y) -> trail G st es used u v p -> trail G st es used' u v p.
  Proof.
    induction p as [|y p IH]; intros used used' u v H T1; [inversion T1|].
    assert (WO : forall a b x, way_on es used a b x <-> way_on es used' a b x) by (intros; unfold way_on; rewrite H; tauto).
    inversion T1 as [? ? ? N|? ? ? w ? A B C]; subst.
    - apply trail_end. intros x X. apply (N x). apply WO; auto.
    - apply trail_on with (w := w).
      + apply WO; auto.
      + destruct st; cbn [chosen] in *; intros; auto; first [apply B; auto; apply WO; auto | idtac]; auto.
      + eapply IH; [|exact C]. intros a b. unfold joins in *. cbn [In]. specialize (H a b). tauto.
  Qed.
  Lemma forward_trail es m st rs : turn_order G -> wf G es m -> forall n k u v vis p vis' k', joins es u v ->
    forward G m st rs n k u v vis = Some (p, vis', k') ->
    trail G st es vis u v p /\ (forall x y, joins vis' x y <-> joins vis x y \/ joins (steps (u :: p)) x y) /\ exists q, p = v :: q.
  Proof.
    intros TO W. induction n as [|n IH]; intros k u v vis p vis' k' J; cbn [forward]; [discriminate|].
    pose proof (exit_spec es m st rs k u v vis TO W J) as X. destruct (exit_node G m st rs k u v vis) as [[w|] k1].
    - destruct X as [X1 X2]. destruct (forward G m st rs n k1 v w (add_set G (u, v) vis)) as [[[q v2] k2]|] eqn:F; [|discriminate].
      intros Q. injection Q; intros; subst. clear Q. apply IH in F; [|apply X1]. destruct F as (F1 & F2 & q0 & ->).
      split; [|split; [|eauto]].
      + apply trail_on with (w := w); auto. eapply trail_ext; [|exact F1]. intros x y. rewrite add_set_joins. unfold joins. cbn [In]. tauto.
      + intros x y. rewrite F2, add_set_joins. change (steps (u :: v :: w :: q0)) with ((u, v) :: steps (v :: w :: q0)). unfold joins. cbn [In]. tauto.
    - intros Q. injection Q; intros; subst. split; [apply trail_end; auto|]. split; [|eauto]. intros x y. rewrite add_set_joins. cbn [steps]. tauto.
  Qed.
  Lemma build_path_through g st rs k a b vis p vis' k' : turn_order G -> gwf G g -> joins (edges g) a b -> ~ joins vis a b ->
    build_path G g st rs k (a, b) vis = Some (p, vis', k') ->
    through G st (edges g) vis a b p /\ (forall x y, joins vis' x y <-> joins vis x y \/ joins (steps p) x y).
  Proof.
    intros TO W J NV. unfold build_path. destruct (forward G (nodes g) st rs (S (size g)) k a b vis) as [[[f v1] k1]|] eqn:F1; [|discriminate].
    destruct (forward G (nodes g) st rs (S (size g)) k1 b a v1) as [[[r v2] k2]|] eqn:F2; [|discriminate].
    intros Q. injection Q; intros _ QV QP. clear Q.
    apply (forward_trail (edges g)) in F1; auto. apply (forward_trail (edges g)) in F2; auto using joins_sym.
    destruct F1 as (T1 & V1 & f0 & ->). destruct F2 as (T2 & V2 & r0 & ->).
    assert (T3 : trail G st (edges g) (steps (a :: b :: f0) ++ vis) b a (a :: r0)).
    { eapply trail_ext; [|exact T2]. intros x y. rewrite joins_app, V1. tauto. }
    assert (JR : forall (l : list V) (x y : V), joins (steps (rev l)) x y <-> joins (steps l) x y).
    { assert (K : forall (l : list V) (x y : V), joins (steps (rev l)) x y -> joins (steps l) x y) by (intros l x y [X|X]; apply steps_rev_In in X; unfold joins; auto).
      intros l x y. split; [apply K|]. intros X. rewrite <- (rev_involutive l) in X. apply K in X. exact X. }
    assert (PC : p = rev (a :: b :: f0) ++ r0 \/ r0 = [] /\ p = a :: b :: f0) by (destruct r0 as [|z r0]; cbn [length Nat.ltb Nat.leb skipn] in QP; auto).
    split; [split; [auto|split; [auto|]]; exists (b :: f0), r0; auto|].
    intros x y. rewrite <- QV, V2, V1.
    assert (SB : joins (steps (b :: a :: r0)) x y <-> joins (steps [a; b]) x y \/ joins (steps (a :: r0)) x y).
    { change (steps (b :: a :: r0)) with ((b, a) :: steps (a :: r0)). unfold joins. cbn [In steps]. intuition congruence. }
    assert (SA : joins (steps [a; b]) x y -> joins (steps (a :: b :: f0)) x y).
    { change (steps (a :: b :: f0)) with ((a, b) :: steps (b :: f0)). unfold joins. cbn [In steps]. tauto. }
    rewrite SB. destruct PC as [->|(-> & ->)].
    - assert (R : rev (a :: b :: f0) = rev (b :: f0) ++ [a]) by reflexivity.
      assert (ST : steps (rev (a :: b :: f0) ++ r0) = steps (rev (a :: b :: f0)) ++ steps (a :: r0)) by (rewrite R, <- app_assoc; cbn [app]; apply steps_cat).
      rewrite ST, joins_app, JR. tauto.
    - cbn [steps] in SB. assert (N : joins (steps [a]) x y -> False) by (unfold joins; cbn; tauto). tauto.
  Qed.
  Lemma through_ext st es used used' a b p : (forall x y, joins used x y <-> joins used' x y) -> through G st es used a b p -> through G st es used' a b p.
  Proof.
    intros H (A & B & f & r & C & D & X). split; [auto|]. split; [rewrite <- H; auto|]. exists f, r. split; [eapply trail_ext; [exact H|exact C]|]. split; [|auto].
    eapply trail_ext; [|exact D]. intros x y. rewrite !joins_app, H. tauto.
  Qed.
  Lemma all_through_ext st es ps : forall used used', (forall x y, joins used x y <-> joins used' x y) -> all_through G st es used ps -> all_through G st es used' ps.
  Proof.
    induction ps as [|p ps IH]; intros used used' H T1; inversion T1 as [? N|? a b ? ? A B]; subst.
    - constructor. intros u v J. rewrite <- H. auto.
    - apply at_cons with (a := a) (b := b); [eapply through_ext; eauto|]. eapply IH; [|exact B]. intros x y. rewrite !joins_app, H. tauto.
  Qed.
  Lemma paths_loop_through g st rs : turn_order G -> gwf G g -> forall n k start free vis ps,
    free = filter (fun e => negb (mem_e G e vis)) (edges g) ->
    (free <> [] -> joins (edges g) (fst start) (snd start) /\ ~ joins vis (fst start) (snd start)) ->
    paths_loop G g st rs n k start free vis = Some ps -> all_through G st (edges g) vis ps.
  Proof.
    intros TO W. induction n as [|n IH]; intros k start free vis ps FR ST; cbn [paths_loop]; [discriminate|].
    assert (DONE : forall vis, filter (fun e => negb (mem_e G e vis)) (edges g) = [] -> forall u v, joins (edges g) u v -> joins vis u v).
    { intros vi N u v J. assert (K : forall e, In e (edges g) -> joins vi (fst e) (snd e)).
      { intros e I. apply mem_e_true with (G := G). destruct (mem_e G e vi) eqn:M; auto. exfalso.
        assert (X : In e []) by (rewrite <- N; apply filter_In; rewrite M; auto). destruct X. }
      destruct J as [J|J]; apply K in J; cbn in J; auto. apply joins_sym; auto. }
    destruct free as [|e0 r0]; [intros Q; injection Q; intros <-; constructor; apply DONE; auto|].
    destruct ST as [J NV]; [discriminate|]. destruct start as [a b]. cbn in J, NV.
    destruct (build_path G g st rs k (a, b) vis) as [[[p v2] k2]|] eqn:Q; [|discriminate].
    destruct (build_path_through g st rs k a b vis p v2 k2 TO W J NV Q) as [TH V2].
    set (free0 := e0 :: r0) in *.
    assert (FF : filter (fun e => negb (mem_e G e v2)) free0 = filter (fun e => negb (mem_e G e v2)) (edges g)).
    { rewrite FR. clear - V2. induction (edges g) as [|e l IHl]; cbn; auto. destruct (mem_e G e vis) eqn:M; cbn; rewrite IHl; auto.
      assert (X : mem_e G e v2 = true); [|rewrite X; auto]. apply mem_e_true. rewrite V2. left. apply mem_e_true in M. auto. }
    assert (EX : forall ps, all_through G st (edges g) v2 ps -> all_through G st (edges g) vis (p :: ps)).
    { intros l H. apply at_cons with (a := a) (b := b); auto. eapply all_through_ext; [|exact H]. intros x y. rewrite joins_app, V2. tauto. }
    destruct (filter (fun e => negb (mem_e G e v2)) free0) as [|e1 r1] eqn:QF.
    - intros X. injection X; intros <-. apply EX. constructor. apply DONE. auto.
    - destruct (paths_loop G g st rs n (S k2) (choice rs k2 (e1 :: r1) e1) (e1 :: r1) v2) as [l|] eqn:QL; [|discriminate].
      intros X. injection X; intros <-. apply EX. eapply IH; [exact FF| |exact QL].
      intros _. assert (Y : In (choice rs k2 (e1 :: r1) e1) (e1 :: r1)) by (apply choice_In; discriminate).
      set (e2 := choice rs k2 (e1 :: r1) e1) in *. clearbody e2. rewrite FF in Y. apply filter_In in Y. destruct Y as [Y Z]. split.
      + left. destruct e2; auto.
      + apply negb_true_iff, mem_e_false in Z. auto.
  Qed.

  (** ** C117: path strategies *)
  (** build_paths: in the order in which they were drawn, every path is a trail of the strategy in both directions from an
      edge not used before, and in the end every edge is used; the paths returned are these, longest first. *)
  Theorem C117_build_paths g st rs s ps : turn_order G -> reachable G g -> start_ok g s -> build_paths G g st rs s = Some ps ->
    exists ps0, Permutation ps0 ps /\ all_through G st (edges g) [] ps0.
  Proof.
    intros TO R. pose proof (reach_gwf G g R) as W. unfold build_paths, start_ok.
    assert (X : forall k s', (edges g <> [] -> joins (edges g) (fst s') (snd s')) ->
      option_map (sort (fun p q : list V => length p <? length q)) (paths_loop G g st rs (S (size g)) k s' (edges g) []) = Some ps ->
      exists ps0, Permutation ps0 ps /\ all_through G st (edges g) [] ps0).
    { intros k s' J. destruct (paths_loop G g st rs (S (size g)) k s' (edges g) []) as [l|] eqn:Q; [|discriminate].
      cbn. intros Y. injection Y; intros <-. exists l. split; [symmetry; apply sort_perm|].
      eapply paths_loop_through; [exact TO|exact W| | |exact Q].
      - cbn. clear. induction (edges g) as [|e r IHl]; cbn; auto. f_equal. auto.
      - intros N. split; [auto|]. unfold joins; cbn; tauto. }
    destruct s as [s|]; [intros J; apply X; auto|]. destruct (edges g) as [|e r] eqn:Q; [contradiction|]. intros _. apply X. intros _. left.
    rewrite <- surjective_pairing. apply choice_In. discriminate.
  Qed.
  Lemma differ_spec p q : differ G p q = true <-> two_more_vertices p q.
  Proof.
    unfold differ, vset. rewrite Nat.ltb_lt. set (l := filter _ _).
    assert (IL : forall v, In v l <-> In v p /\ ~ In v q).
    { intros v. unfold l. rewrite filter_In, nodup_In, negb_true_iff. unfold mem_v. split; intros [A B]; split; auto.
      - intros I. assert (existsb (eqv G v) q = true); [|congruence]. apply existsb_exists. exists v. split; auto. apply eqv_true. auto.
      - destruct (existsb (eqv G v) q) eqn:X; auto. apply existsb_exists in X. destruct X as (x & X1 & X2). apply eqv_true in X2. subst x. contradiction. }
    assert (ND : NoDup l) by (apply NoDup_filter, NoDup_nodup). clearbody l. split.
    - intros H. destruct l as [|a [|b [|c r]]]; cbn in H; try lia. exists a, b, c.
      inversion ND as [|? ? N1 ND1]; subst. inversion ND1 as [|? ? N2 ND2]; subst. cbn in N1, N2.
      split; [intros ->; tauto|]. split; [intros ->; tauto|]. split; [intros ->; tauto|]. intros v [-> | [-> | ->]]; apply IL; cbn; auto.
    - intros (a & b & c & N1 & N2 & N3 & H). assert (NoDup [a; b; c]) by (repeat constructor; cbn; intuition congruence).
      assert (incl [a; b; c] l) by (intros v Hv; apply IL, H; cbn in Hv; intuition auto). apply (NoDup_incl_length H0) in H1. cbn in H1. lia.
  Qed.
  Lemma dedupe_thinned l : forall prev, thinned prev l (dedupe_from G prev l).
  Proof.
    induction l as [|p l IH]; intros prev; cbn [dedupe_from]; [constructor|]. destruct (differ G prev p) eqn:D.
    - constructor; auto. apply differ_spec; auto.
    - apply th_drop; auto. rewrite <- differ_spec. congruence.
  Qed.
  (** build_longest_paths: one path through every edge, by the strategy; sorted by length, and left out if similar to the one before. *)
  Theorem C117_longest_paths g st rs perm q : turn_order G -> reachable G g -> (forall l, Permutation (perm l) l) ->
    build_longest_paths G g st rs perm = Some q ->
    exists p l r, q = p :: r /\ thinned p l r /\ (forall i, S i < length (p :: l) -> length (nth (S i) (p :: l) []) <= length (nth i (p :: l) [])) /\
      exists es, Permutation es (edges g) /\ exists ps, Permutation ps (p :: l) /\
        Forall2 (fun e p => through G st (edges g) [] (fst e) (snd e) p) es ps.
  Proof.
    intros TO R P. pose proof (reach_gwf G g R) as W. unfold build_longest_paths.
    assert (LL : forall es k l, incl es (edges g) -> longest_loop G g st rs k es = Some l -> Forall2 (fun e p => through G st (edges g) [] (fst e) (snd e) p) es l).
    { induction es as [|[a b] es IH]; intros k l I; cbn [longest_loop]; [intros Q; injection Q; intros <-; constructor|].
      destruct (build_path G g st rs k (a, b) []) as [[[p v] k']|] eqn:Q; [|discriminate].
      destruct (longest_loop G g st rs k' es) as [l'|] eqn:Q2; [|discriminate]. intros X. injection X; intros <-. constructor.
      - apply build_path_through in Q; auto; [apply Q|left; apply I; left; auto|unfold joins; cbn; tauto].
      - eapply IH; [|exact Q2]. intros x X2. apply I. right; auto. }
    destruct (longest_loop G g st rs 0 (perm (edges g))) as [l|] eqn:Q; [|discriminate].
    apply LL in Q; [|intros x X; eapply Permutation_in; [apply P|exact X]].
    pose proof (sort_desc l) as SD. set (gt := fun p q : list V => length p <? length q) in *.
    assert (SP : Permutation (sort gt l) l) by apply sort_perm. destruct (sort gt l) as [|p r]; [discriminate|]. cbn [dedupe]. intros X. injection X; intros <-.
    exists p, r, (dedupe_from G p r). split; [auto|]. split; [apply dedupe_thinned|]. split.
    - clear - SD. revert p SD. induction r as [|x r IH]; intros p SD i L; [cbn in L; lia|]. destruct SD as [A B]. destruct i as [|i]; cbn [nth].
      + apply A. left; auto.
      + apply (IH x B). cbn in *. lia.
    - exists (perm (edges g)). split; [apply P|]. exists l. split; [symmetry; exact SP|exact Q].
  Qed.

  (** ** C79: no dead ends on the boundary, whatever dead ends the graph has *)
  Lemma boundary_walk_spikes m : forall n s prev curr l, boundary_walk G m n s prev curr = Some l -> forall v, In v l -> 2 <= degree G m v.
  Proof.
    induction n as [|n IH]; intros s prev curr l; cbn [boundary_walk]; [intros Q; injection Q; intros <- v []|].
    destruct (ccw_edge_node G m curr prev true) as [x|]; [|discriminate].
    assert (O : forall v, In v (if degree G m x <=? 1 then [] else [x]) -> 2 <= degree G m v).
    { intros v. destruct (degree G m x <=? 1) eqn:D; [intros []|]. apply Nat.leb_gt in D. intros [<-|[]]. lia. }
    destruct (eqv G x s); [intros Q; injection Q; intros <-; exact O|].
    destruct (boundary_walk G m n s curr x) as [l'|] eqn:F; [|discriminate]. cbn. intros Q. injection Q; intros <- v. rewrite in_app_iff. intros [X|X]; [auto|].
    eapply IH; eauto.
  Qed.
  Theorem C79_no_dead_ends g l : reachable G g -> snd (boundary_polygon G g) = BOk l ->
    forall v, In v l -> 2 <= length (incident G (edges g) v).
  Proof.
    intros R Q v I. pose proof (check_modified_gwf G g (reach_gwf G g R)) as W. unfold boundary_polygon in Q. cbn [snd] in Q.
    set (g1 := check_modified G g) in *. assert (EQ : edges g1 = edges g) by apply check_modified_edges.
    rewrite <- EQ, <- (degree_incident G _ _ v W). destruct (bottom g1) as [|b|]; try discriminate. revert Q. unfold build_boundary.
    assert (GO : forall s k, degree G (nodes g1) s <> 1 -> match adj G (nodes g1) s with
        | [] => BFail
        | p :: _ => match boundary_walk G (nodes g1) k s p s with Some l => BOk (s :: l) | None => BFail end
        end = BOk l -> 2 <= degree G (nodes g1) v).
    { intros s k D. destruct (adj G (nodes g1) s) as [|p r] eqn:A; [discriminate|].
      destruct (boundary_walk G (nodes g1) k s p s) as [l'|] eqn:B; [|discriminate]. intros X. injection X; intros <-. destruct I as [<-|I].
      - unfold degree in *. rewrite A in *. cbn in *. lia.
      - eapply boundary_walk_spikes; eauto. }
    destruct (degree G (nodes g1) b =? 1) eqn:D1.
    - destruct (adj G (nodes g1) b) as [|s r]; [discriminate|]. destruct (degree G (nodes g1) s =? 2) eqn:D2; [discriminate|].
      destruct (degree G (nodes g1) s =? 1) eqn:D3; [intros X; injection X; intros <-; destruct I|]. apply GO. apply Nat.eqb_neq; auto.
    - apply GO. apply Nat.eqb_neq; auto.
  Qed.
End Proofs.

(** ** The angles of integer points and of real points are ordered, and a concrete case *)
Open Scope Z_scope.
Lemma zgeo_turns : turn_order zgeo.
Proof.
  intros u v. cbn [zgeo turn_lt]. unfold zturn_lt, sgn_sq.
  assert (N : forall a, 0 <= znorm2 a /\ (forall w, znorm2 a = 0 -> zdot w a = 0)).
  { intros [x y]. unfold znorm2, zdot. cbn. split; [nia|]. intros [a b] H. cbn. assert (x = 0) by nia. assert (y = 0) by nia. subst. lia. }
  split; intros *; rewrite !Z.ltb_lt, ?Z.ltb_ge; [lia|].
  destruct (N (zsub a v)) as [NA ZA], (N (zsub b v)) as [NB ZB], (N (zsub c v)) as [NC ZC].
  specialize (ZA (zsub u v)). specialize (ZB (zsub u v)). specialize (ZC (zsub u v)).
  generalize dependent (zdot (zsub u v) (zsub a v)). generalize dependent (zdot (zsub u v) (zsub b v)). generalize dependent (zdot (zsub u v) (zsub c v)).
  generalize dependent (znorm2 (zsub a v)). generalize dependent (znorm2 (zsub b v)). generalize dependent (znorm2 (zsub c v)).
  intros nc NC nb NB na NA dc ZC db ZB da ZA H1 H2.
  set (sa := Z.sgn da * da * da) in *. set (sb := Z.sgn db * db * db) in *. set (sc := Z.sgn dc * dc * dc) in *.
  assert (B : 0 < nb). { destruct (Z.eq_dec nb 0) as [Q|]; [|lia]. exfalso. subst nb. assert (db = 0) by auto. subst db. unfold sb in *. cbn in *. lia. }
  assert (A : 0 < na). { destruct (Z.eq_dec na 0) as [Q|]; [|lia]. exfalso. subst na. assert (da = 0) by auto. subst da. unfold sa in *. cbn in *. lia. }
  assert (C : 0 < nc). { destruct (Z.eq_dec nc 0) as [Q|]; [|lia]. exfalso. subst nc. assert (dc = 0) by auto. subst dc. unfold sc in *. cbn in *. lia. }
  clearbody sa sb sc. clear - A B C H1 H2.
  assert (X : sc * nb * na < sb * nc * na) by nia. assert (Y : sb * na * nc < sa * nb * nc) by nia. nia.
Qed.
(** four roads from (0,0): coming from (-2,0), straight on is (2,0), the sharpest turn is (-1,1) *)
Definition roads : list (zpt * zpt) := [((-2,0),(0,0)); ((0,0),(2,0)); ((0,0),(0,2)); ((0,0),(-1,1))].
Theorem C117_example : turn_order zgeo /\ reachable zgeo (of_edges roads) /\ start_ok (of_edges roads) (Some ((-2,0),(0,0))) /\
  build_paths zgeo (of_edges roads) STRAIGHTEST (fun n => n) (Some ((-2,0),(0,0))) = Some [[(-2,0);(0,0);(2,0)]; [(0,2);(0,0);(-1,1)]] /\
  build_paths zgeo (of_edges roads) SQUIGGLY (fun n => n) (Some ((-2,0),(0,0))) = Some [[(-2,0);(0,0);(-1,1)]; [(2,0);(0,0);(0,2)]] /\
  build_longest_paths zgeo (of_edges roads) STRAIGHTEST (fun n => n) (fun l => l) = Some [[(-2,0);(0,0);(2,0)]] /\
  way_on (edges (of_edges roads)) [] (-2,0) (0,0) (0,2) /\ turn_lt zgeo (-2,0) (0,0) (0,2) (2,0) = true.
Proof.
  split; [apply zgeo_turns|]. split; [apply of_edges_reachable|]. split; [vm_compute; auto|]. repeat (split; [vm_compute; reflexivity|]).
  split; [|reflexivity]. split; [vm_compute; auto 10|]. split; [discriminate|]. unfold joins. cbn. tauto.
Qed.
Theorem C79_no_dead_ends_example : snd (boundary_polygon zgeo (of_edges sq_diag)) = BOk [(0,0);(0,2);(2,2);(2,0);(0,0)] /\
  length (incident zgeo (edges (of_edges sq_diag)) (5,5)) = 1%nat.
Proof. split; vm_compute; reflexivity. Qed.
