(** * GraphFaces: the face walk (make_face_polygons) *)
From Coq Require Import List Bool Arith Lia Permutation.
From Verif Require Import Graph GraphSpec GraphProofs GraphProofs2.
Import ListNotations.

Section Proofs.
  Context {V : Type} (G : geo V).
  Notation E := (V * V)%type.
  Local Notation adj := (adj G). Local Notation degree := (degree G). Local Notation gwf := (gwf G). Local Notation wf := (wf G).

  Lemma rev_eq {A} (l k : list A) : rev l = k -> l = rev k.
  Proof. intros <-. symmetry. apply rev_involutive. Qed.
  Lemma index_spec x (l : list V) : match index G x l with
    | Some i => i < length l /\ nth_error l i = Some x /\ (forall j, j < i -> nth_error l j <> Some x)
    | None => ~ In x l end.
  Proof.
    induction l as [|y r IH]; cbn; auto. destruct (veq G y x) as [->|N].
    - split; [lia|split; [reflexivity|intros; lia]].
    - destruct (index G x r) as [i|]; cbn.
      + destruct IH as [A [B C]]. split; [lia|split; [auto|]]. intros [|j] L; cbn; [congruence|apply C; lia].
      + intuition.
  Qed.
  Lemma jb_split (l a b : list V) w u : NoDup (a ++ w :: u :: b) -> index G u (a ++ w :: u :: b) = Some (S (length a)).
  Proof.
    intros N. pose proof (index_spec u (a ++ w :: u :: b)) as S.
    assert (U : nth_error (a ++ w :: u :: b) (Datatypes.S (length a)) = Some u).
    { rewrite nth_error_app2 by lia. replace (_ - _) with 1 by lia. auto. }
    destruct (index G u (a ++ w :: u :: b)) as [i|].
    - f_equal. destruct S as [A [B C]]. eapply NoDup_nth_error; eauto. congruence.
    - exfalso. apply S. apply nth_error_In in U. auto.
  Qed.
  Lemma ccw_spec m v u w : NoDup (adj m v) -> (ccw_edge_node G m v u false = Some w <-> just_before (adj m v) w u).
  Proof.
    unfold ccw_edge_node, before. generalize (adj m v). intros l N. split.
    - pose proof (index_spec u l) as S. destruct (index G u l) as [i|]; [|discriminate]. destruct S as [A [B _]].
      apply nth_error_split in B. destruct B as [l1 [l2 [-> <-]]]. rewrite firstn_app, skipn_app, Nat.sub_diag, firstn_all, skipn_all. cbn.
      rewrite app_nil_r. destruct (rev l1) as [|y r] eqn:Q.
      + assert (l1 = []) by (apply (rev_eq _ _ Q)). subst. cbn. destruct (rev l2) as [|z t] eqn:Q2.
        * assert (l2 = []) by (apply (rev_eq _ _ Q2)). subst. cbn. intros X. injection X; intros <-. right. right. auto.
        * cbn. intros X. injection X; intros <-. right. left. exists (rev t). f_equal. apply (rev_eq _ _ Q2).
      + cbn. intros X. injection X; intros <-. left. exists (rev r), l2. rewrite (rev_eq _ _ Q). cbn. rewrite <- app_assoc. auto.
    - intros [[a [b ->]]|[[a ->]|[-> ->]]].
      + rewrite (jb_split []) by auto. replace (a ++ w :: u :: b) with ((a ++ [w]) ++ u :: b) by (rewrite <- app_assoc; auto).
        rewrite firstn_app. replace (S (length a) - length (a ++ [w])) with 0 by (rewrite app_length; cbn [length]; lia). rewrite firstn_O.
        rewrite app_nil_r, firstn_all2 by (rewrite app_length; cbn [length]; lia). rewrite rev_app_distr. auto.
      + cbn. destruct (veq G u u); [|contradiction]. cbn. rewrite rev_app_distr. auto.
      + cbn. destruct (veq G u u); [|contradiction]. cbn. auto.
  Qed.
  Lemma ccw_exists m v u : In u (adj m v) -> exists w, ccw_edge_node G m v u false = Some w /\ In w (adj m v).
  Proof.
    unfold ccw_edge_node. generalize (adj m v). intros l I. pose proof (index_spec u l) as S. destruct (index G u l) as [i|]; [|contradiction].
    unfold before. destruct (rev (firstn i l) ++ rev (skipn i l)) as [|y r] eqn:Q.
    - exfalso. rewrite <- rev_app_distr in Q. assert (X : skipn i l ++ firstn i l = []) by (apply (rev_eq _ _ Q)).
      apply app_eq_nil in X. destruct X as [X Y]. rewrite <- (firstn_skipn i l), X, Y in I. destruct I.
    - exists y. cbn. split; auto. assert (X : In y (y :: r)) by (left; auto). rewrite <- Q in X. rewrite <- (firstn_skipn i l).
      rewrite in_app_iff in *. rewrite <- !in_rev in X. tauto.
  Qed.
  Lemma just_before_inj l (w u u' : V) : NoDup l -> just_before l w u -> just_before l w u' -> u = u'.
  Proof.
    assert (X : forall (a b c d : list V) x y z, NoDup (a ++ x :: y :: b) -> a ++ x :: y :: b = c ++ x :: z :: d -> y = z).
    { induction a as [|h a IH]; intros b c d x y z N Q; cbn in *; inversion N; subst.
      - destruct c as [|h' c]; cbn in Q; [congruence|]. injection Q; intros Q2 <-. exfalso. apply H1. rewrite Q2, in_app_iff; cbn; auto.
      - destruct c as [|h' c]; cbn in Q.
        + injection Q; intros Q2 ->. exfalso. apply H1. rewrite in_app_iff; cbn; auto.
        + injection Q; intros Q2 _. eapply IH; eauto. }
    assert (Y : forall (a b c : list V) x y z, NoDup (a ++ x :: y :: b) -> a ++ x :: y :: b = z :: c ++ [x] -> False).
    { intros a b c x y z N Q. assert (Q2 : rev (a ++ x :: y :: b) = rev (z :: c ++ [x])) by (rewrite Q; auto).
      cbn in Q2. rewrite !rev_app_distr in Q2. cbn in Q2. rewrite <- !app_assoc in Q2. cbn in Q2.
      assert (NR : NoDup (rev b ++ y :: x :: rev a)).
      { replace (rev b ++ y :: x :: rev a) with (rev (a ++ x :: y :: b)); [apply NoDup_rev; auto|]. rewrite rev_app_distr. cbn. rewrite <- !app_assoc. auto. }
      destruct (rev b) as [|h t]; cbn in Q2.
      - injection Q2; intros _ <-. inversion NR; subst. apply H1; left; auto.
      - injection Q2; intros _ <-. inversion NR; subst. apply H1. rewrite in_app_iff; cbn; auto. }
    intros N [[a [b ->]]|[[a ->]|[-> ->]]] [[a' [b' Q]]|[[a' Q]|[Q Q']]].
    - eapply X; eauto.
    - exfalso. eapply Y; eauto.
    - destruct a as [|? [|]]; discriminate.
    - exfalso. symmetry in Q. eapply Y; eauto. rewrite Q; auto.
    - congruence.
    - destruct a; cbn in Q; [congruence|]. destruct a; discriminate.
    - destruct a' as [|? [|]]; discriminate.
    - destruct a'; cbn in Q; [congruence|]. destruct a'; discriminate.
    - congruence.
  Qed.
  Lemma turn_rule_inj m d1 d2 d : (forall u, NoDup (adj m u)) -> turn_rule G m d1 d -> turn_rule G m d2 d -> d1 = d2.
  Proof.
    intros N [A B] [C D]. destruct d1 as [u1 v1], d2 as [u2 v2], d as [x y]. cbn in *. subst.
    f_equal. eapply just_before_inj; eauto.
  Qed.
  Lemma turn_rule_fun m d d1 d2 : (forall u, NoDup (adj m u)) -> turn_rule G m d d1 -> turn_rule G m d d2 -> d1 = d2.
  Proof.
    intros N [A B] [C D]. destruct d as [u v], d1 as [u1 v1], d2 as [u2 v2]. cbn in *. subst. f_equal.
    apply ccw_spec in B, D; auto. congruence.
  Qed.

  (** ** One walk.  The trace [tr] lists the directed edges walked, latest first. *)
  Inductive trail (m : nodemap) (s : V) (d0 : E) : list E -> Prop :=
  | tr_start : fst d0 = s -> trail m s d0 [d0]
  | tr_step d d' tr : trail m s d0 (d :: tr) -> turn_rule G m d d' -> snd d <> s -> trail m s d0 (d' :: d :: tr).
  Lemma trail_last m s d0 tr : trail m s d0 tr -> exists t, tr = t ++ [d0].
  Proof. induction 1 as [|d d' tr H [t IH]]; [exists []; auto|]. exists (d' :: t). rewrite IH. auto. Qed.
  Lemma trail_start m s d0 tr : trail m s d0 tr -> fst d0 = s. Proof. induction 1; auto. Qed.
  Lemma trail_pred m s d0 tr d : trail m s d0 tr -> In d (tl tr) -> exists d', In d' tr /\ turn_rule G m d d' /\ snd d <> s.
  Proof.
    induction 1 as [|a b tr H IH T N]; [intros []|]. intros [->|I].
    - exists b. cbn. auto.
    - destruct IH as [d' [I' T']]; [exact I|]. exists d'. split; [right; auto|auto].
  Qed.
  Lemma trail_back m s d0 tr d : trail m s d0 tr -> In d tr -> d = d0 \/ exists d', In d' (tl tr) /\ turn_rule G m d' d /\ snd d' <> s.
  Proof.
    induction 1 as [|a b tr H IH T N].
    - intros [->|[]]; auto.
    - intros [<-|I].
      + right. exists a. cbn. auto.
      + destruct (IH I) as [->|[d' [I' X]]]; auto. right. exists d'. split; auto. cbn [tl]. destruct tr; [destruct I'|]. right; auto.
  Qed.
  Lemma trail_tail m s d0 tr d : trail m s d0 tr -> In d tr -> fst d = s -> d = d0.
  Proof.
    intros T I Q. destruct (trail_back m s d0 tr d T I) as [X|[d' [I' [[X Y] N]]]]; auto. congruence.
  Qed.
  (** the step taken from the head of a trail is new *)
  Lemma trail_fresh m s d0 d tr d' : (forall u, NoDup (adj m u)) -> trail m s d0 (d :: tr) -> NoDup (d :: tr) -> snd d <> s ->
    turn_rule G m d d' -> ~ In d' (d :: tr).
  Proof.
    intros NA T ND N TR I. destruct (trail_back _ _ _ _ _ T I) as [->|[d2 [I2 [T2 _]]]].
    - apply N. destruct TR as [X _]. rewrite X. apply (trail_start _ _ _ _ T).
    - assert (d = d2) by (eapply turn_rule_inj; eauto). subst. cbn in I2. inversion ND; auto.
  Qed.
  Section W.
  Variables (es : list E) (m : @nodemap V).
  Hypothesis W : wf es m.
  Let NA : forall u, NoDup (adj m u). Proof. apply (w_nodup_adj _ _ _ W). Qed.
  Lemma dart_In u v : In (u, v) (darts m) <-> In v (adj m u).
  Proof. apply darts_In. apply (w_keys _ _ _ W). Qed.
  Lemma adj_sym u v : In v (adj m u) -> In u (adj m v).
  Proof. rewrite !(w_sym _ _ _ W). apply joins_sym. Qed.

  Lemma walk_ok n : forall s d0 prev curr tr mk, trail m s d0 ((prev, curr) :: tr) -> NoDup ((prev, curr) :: tr) -> incl ((prev, curr) :: tr) (darts m) ->
    length (darts m) < n + length tr ->
    exists f z t, face_walk G m n s prev curr mk = Some (f, z, t ++ mk) /\
      trail m s d0 (t ++ (prev, curr) :: tr) /\ NoDup (t ++ (prev, curr) :: tr) /\ incl (t ++ (prev, curr) :: tr) (darts m) /\
      z = snd (hd (prev, curr) t) /\ (z = s \/ degree m z <= 1) /\
      ((forall u, degree m u <> 1) -> f = map snd (rev t)).
  Proof.
    induction n as [|n IH]; intros s d0 prev curr tr mk T ND I L.
    - exfalso. assert (X := NoDup_incl_length ND I). cbn in *. lia.
    - cbn [face_walk]. destruct (eqv G curr s) eqn:Q1; cbn [negb andb].
      + apply eqv_true in Q1. exists [], curr, []. cbn. auto 10.
      + destruct (degree m curr <=? 1) eqn:Q2; cbn [negb].
        * apply Nat.leb_le in Q2. exists [], curr, []. cbn. auto 10.
        * apply eqv_false in Q1. assert (IC : In prev (adj m curr)) by (apply adj_sym, dart_In, I; left; auto).
          destruct (ccw_exists m curr prev IC) as [x [Q X]]. rewrite Q.
          assert (TR : turn_rule G m (prev, curr) (curr, x)) by (split; cbn; [auto|apply ccw_spec; auto]).
          destruct (IH s d0 curr x ((prev, curr) :: tr) (mark mk (curr, x))) as [f [z [t [F [T' [N' [I' [Z [ST FE]]]]]]]]].
          -- constructor; auto.
          -- constructor; auto. eapply trail_fresh; eauto.
          -- intros e [<-|Y]; [apply dart_In; auto|auto].
          -- cbn. lia.
          -- rewrite F. exists (if degree m x =? 1 then f else x :: f), z, (t ++ [(curr, x)]).
             rewrite <- !app_assoc. cbn [app]. split; [reflexivity|]. split; [auto|]. split; [auto|]. split; [auto|].
             split; [rewrite Z; destruct t; auto|]. split; [auto|].
             intros D. destruct (degree m x =? 1) eqn:QD; [apply Nat.eqb_eq in QD; destruct (D x QD)|].
             rewrite rev_app_distr. cbn. f_equal. auto.
  Qed.

  (** ** Marks *)
  Lemma marked_In mk d : marked G mk d = true <-> In d mk.
  Proof.
    unfold marked. rewrite existsb_exists. unfold eqd. split.
    - intros [f [I Q]]. apply andb_true_iff in Q. rewrite !eqv_true in Q. destruct d, f; cbn in *. destruct Q as [-> ->]. auto.
    - intros I. exists d. split; auto. apply andb_true_iff. rewrite !eqv_true. auto.
  Qed.
  Lemma find_free_some s l mk x mk' : find_free G m s l mk = (Some x, mk') -> In x l /\ ~ In (s, x) mk /\ In (s, x) mk' /\ incl mk mk' /\ 1 < degree m x.
  Proof.
    revert mk. induction l as [|y r IH]; intros mk; cbn; [discriminate|].
    destruct (negb (marked G mk (s, y)) && negb (degree m y <=? 1)) eqn:Q.
    - intros H. injection H; intros <- <-. apply andb_true_iff in Q. rewrite !negb_true_iff in Q. destruct Q as [A B]. apply Nat.leb_gt in B.
      split; auto. split; [rewrite <- marked_In; congruence|]. split; [left; auto|]. split; [right; auto|auto].
    - intros H. destruct (IH _ H) as [A [B [C [D E']]]]. unfold mark in *. split; auto. split; [intros X; apply B; right; auto|]. split; auto. split; [|auto].
      intros e X. apply D. right; auto.
  Qed.
  (** with no dead ends the marks are unchanged up to the one found *)
  Lemma find_free_live s l mk : (forall u, degree m u <> 1) -> (forall x, In x l -> degree m x <> 0) ->
    (exists l1 x l2, l = l1 ++ x :: l2 /\ ~ In (s, x) mk /\ (forall y, In y l1 -> In (s, y) mk) /\
       exists mk', find_free G m s l mk = (Some x, mk') /\ forall e, In e mk' <-> e = (s, x) \/ In e mk) \/
    (exists mk', find_free G m s l mk = (None, mk') /\ (forall y, In y l -> In (s, y) mk) /\ forall e, In e mk' <-> In e mk).
  Proof.
    intros D. revert mk. induction l as [|y r IH]; intros mk Z; cbn [find_free].
    - right. exists mk. split; [auto|split; [intros y []|tauto]].
    - destruct (marked G mk (s, y)) eqn:M; cbn [negb andb].
      + apply marked_In in M. destruct (IH (mark mk (s, y))) as [[l1 [x [l2 [-> [A [B [mk' [C E']]]]]]]]|[mk' [A [B C]]]].
        * intros; apply Z; right; auto.
        * left. exists (y :: l1), x, l2. split; auto. split; [intros X; apply A; right; auto|].
          split. { intros z [<-|Y]; auto. destruct (B z Y) as [X|X]; auto. injection X; intros <-; auto. }
          exists mk'. split; auto. intros e. rewrite E'. cbn. split; [intros [X|[<-|X]]|intros [X|X]]; auto.
        * right. exists mk'. split; auto. split.
          { intros z [<-|Y]; auto. destruct (B z Y) as [X|X]; auto. injection X; intros <-; auto. }
          intros e. rewrite C. cbn. split; [intros [<-|X]|]; auto.
      + destruct (degree m y <=? 1) eqn:L; cbn [negb].
        * exfalso. apply Nat.leb_le in L. specialize (D y). specialize (Z y (or_introl eq_refl)). lia.
        * left. exists [], y, r. split; auto. split; [rewrite <- marked_In; congruence|]. split; [intros ? []|].
          exists (mark mk (s, y)). split; auto. intros e. cbn. split; intros [X|X]; auto.
  Qed.

  Lemma adj_degree u v : In v (adj m u) -> degree m v <> 0 /\ degree m u <> 0.
  Proof.
    intros I. pose proof (adj_sym _ _ I) as J. unfold Graph.degree. split; intros Q; apply length_zero_iff_nil in Q.
    - rewrite Q in J. destruct J.
    - rewrite Q in I. destruct I.
  Qed.
  Lemma make_face_ok s x mk : In x (adj m s) -> exists o mk', make_face G m s x mk = Some (o, mk') /\ incl mk mk'.
  Proof.
    intros I. unfold make_face. rewrite <- (darts_count).
    destruct (walk_ok (S (length (darts m))) s (s, x) s x [] mk) as [f [z [t [F _]]]].
    - constructor; auto.
    - constructor; [intros []|constructor].
    - intros e [<-|[]]. apply dart_In; auto.
    - cbn. lia.
    - rewrite F. eexists _, _. split; [reflexivity|]. intros e X. apply in_app_iff; auto.
  Qed.
  Definition unmarked (s : V) (mk : marks) : nat := length (filter (fun x => negb (marked G mk (s, x))) (adj m s)).
  Lemma faces_at_terminates s n : forall mk, unmarked s mk < n -> exists r, faces_at G m n s mk = Some r.
  Proof.
    induction n as [|n IH]; intros mk L; [lia|]. cbn [faces_at].
    destruct (find_free G m s (adj m s) mk) as [[x|] mk'] eqn:Q; [|eauto].
    apply find_free_some in Q. destruct Q as [A [B [C [D _]]]]. destruct (make_face_ok s x mk' A) as [o [mk2 [Q2 I2]]]. rewrite Q2.
    destruct (IH mk2) as [[fs mk3] Q3].
    - assert (X : unmarked s mk2 < unmarked s mk); [|lia]. unfold unmarked. apply filter_length_lt with (x := x); auto.
      + apply negb_true_iff. apply not_true_iff_false. rewrite marked_In. auto.
      + apply negb_false_iff. apply marked_In. auto.
      + intros y. rewrite !negb_true_iff, <- !not_true_iff_false, !marked_In. intros X Y. apply X, I2, D, Y.
    - rewrite Q3. eauto.
  Qed.
  Lemma faces_from_terminates vs : forall mk, exists r, faces_from G m vs mk = Some r.
  Proof.
    induction vs as [|v r IH]; intros mk; cbn [faces_from]; [eauto|].
    destruct (faces_at_terminates v (S (degree m v)) mk) as [[fs mk'] Q].
    - unfold unmarked, Graph.degree. apply Nat.lt_succ_r. clear. generalize (adj m v). induction l; cbn; auto. destruct (negb _); cbn; lia.
    - rewrite Q. destruct (IH mk') as [[fs' mk2] Q']. rewrite Q'. eauto.
  Qed.

  (** ** Without dead ends *)
  Hypothesis D : forall u, degree m u <> 1.
  Lemma trail_chained s d0 tr : trail m s d0 tr -> chained G m (rev tr).
  Proof.
    assert (A : forall l a b, chained G m (l ++ [a]) -> turn_rule G m a b -> chained G m (l ++ [a; b])).
    { induction l as [|x l IH]; intros a b C T; [cbn; auto|]. destruct l as [|y l]; cbn [app] in *.
      - cbn in *. tauto.
      - destruct C as [C1 C2]. split; auto. }
    induction 1 as [|d d' tr H IH T N]; cbn [rev app]; [cbn; auto|]. cbn [rev] in IH. rewrite <- app_assoc. cbn [app]. apply A; auto.
  Qed.
  Lemma chained_steps d l : chained G m (d :: l) -> steps (fst d :: map snd (d :: l)) = d :: l.
  Proof.
    revert d. induction l as [|e l IH]; intros d C.
    - destruct d; auto.
    - destruct C as [[Q _] C]. specialize (IH e C). cbn [map] in *. destruct d as [a b], e as [c f]. cbn [fst snd] in *. subst.
      change (steps (a :: c :: f :: map snd l)) with ((a, c) :: steps (c :: f :: map snd l)). rewrite IH. auto.
  Qed.
  Lemma app_last_eq {A} (a b : list A) x y : a ++ [x] = b ++ [y] -> a = b /\ x = y.
  Proof. apply app_inj_tail. Qed.
  Lemma trail_heads s d0 d tr : trail m s d0 (d :: tr) -> snd d = s -> ~ In s (map snd tr).
  Proof.
    intros T Q I. apply in_map_iff in I. destruct I as [e [Q2 I]]. destruct (trail_pred _ _ _ _ _ T I) as [_ [_ [_ N]]]. auto.
  Qed.
  (** a completed walk *)
  Definition circuit (s : V) (tr : list E) : Prop :=
    exists d0, trail m s d0 tr /\ NoDup tr /\ incl tr (darts m) /\ exists d t, tr = d :: t /\ snd d = s.
  Lemma circuit_face s x t : trail m s (s, x) (t ++ [(s, x)]) -> incl (t ++ [(s, x)]) (darts m) -> snd (hd (s, x) t) = s ->
    face_circuit G m (s :: x :: map snd (rev t)) /\ steps (s :: x :: map snd (rev t)) = rev (t ++ [(s, x)]).
  Proof.
    intros T I Z. pose proof (trail_chained _ _ _ T) as C. rewrite rev_app_distr in *. cbn [rev app] in *.
    pose proof (chained_steps _ _ C) as S. cbn [map snd fst] in S. 
    assert (SX : s <> x). { intros <-. apply (w_noloop _ _ _ W s). apply (w_sym _ _ _ W). apply dart_In. apply I. apply in_app_iff; right; left; auto. }
    destruct t as [|d t]; [cbn in Z; congruence|]. cbn [hd] in Z.
    split; [|exact S]. split; [|split].
    - cbn [length]. rewrite map_length, rev_length. destruct t; cbn; [|lia]. exfalso. cbn in *.
      destruct d as [a b]. cbn in *. subst b. destruct C as [[Q J] _]. cbn in Q, J. subst a.
      assert (AX : NoDup (adj m x)) by auto. apply (D x). unfold Graph.degree. destruct J as [[a [b Q]]|[[a Q]|[Q _]]].
      + exfalso. rewrite Q in AX. apply NoDup_remove_2 in AX. apply AX. rewrite in_app_iff; cbn; auto.
      + exfalso. rewrite Q in AX. inversion AX; subst. apply H1. rewrite in_app_iff; cbn; auto.
      + rewrite Q. auto.
    - exists s, (x :: map snd (rev t)). split.
      + cbn. rewrite map_app. cbn. rewrite Z. auto.
      + cbn [app] in T. pose proof (trail_heads _ _ _ _ T Z) as H. intros X. apply H. rewrite map_app, in_app_iff. cbn.
        destruct X as [<-|X]; [auto|]. left. rewrite map_rev in X. apply in_rev in X. auto.
    - rewrite S. exact C.
  Qed.

  (** marks are closed under the turn rule *)
  Definition closed_marks (mk : marks) := forall d d', In d mk -> In d (darts m) -> turn_rule G m d d' -> In d' mk.
  Lemma turn_rule_exists d : In d (darts m) -> exists d', turn_rule G m d d' /\ In d' (darts m).
  Proof.
    destruct d as [u v]. intros I. apply dart_In, adj_sym in I. destruct (ccw_exists m v u I) as [w [Q J]].
    exists (v, w). split; [split; cbn; auto; apply ccw_spec; auto|apply dart_In; auto].
  Qed.
  (** trails started outside a closed set stay outside: use injectivity backwards over the finite set *)
  Lemma closed_inv mk : closed_marks mk -> incl mk (darts m) -> NoDup mk -> forall d d', In d (darts m) -> turn_rule G m d d' -> In d' mk -> In d mk.
  Proof.
    intros C I N d d' Id T J.
    (* the successor map sends mk injectively into mk, hence onto *)
    assert (F : exists f : E -> E, forall e, In e (darts m) -> turn_rule G m e (f e)).
    { exists (fun e => match ccw_edge_node G m (snd e) (fst e) false with Some w => (snd e, w) | None => e end).
      intros [u v] Ie. apply dart_In, adj_sym in Ie. destruct (ccw_exists m v u Ie) as [w [Q _]]. cbn. rewrite Q. split; cbn; auto. apply ccw_spec; auto. }
    destruct F as [f F].
    assert (IN : incl (map f mk) mk). { intros e X. apply in_map_iff in X. destruct X as [e0 [<- X]]. eapply C; eauto. }
    assert (ND : NoDup (map f mk)).
    { clear - N I F NA. induction mk as [|a l IH]; cbn; constructor; inversion N; subst.
      - intros X. apply in_map_iff in X. destruct X as [b [Q X]]. assert (a = b); [|subst; auto].
        eapply turn_rule_inj; [exact NA| |]; [apply F, I; left; auto|rewrite <- Q; apply F, I; right; auto].
      - apply IH; auto. intros e X. apply I; right; auto. }
    assert (ON : incl mk (map f mk)). { apply NoDup_length_incl; auto. rewrite map_length; auto. }
    apply ON in J. apply in_map_iff in J. destruct J as [e [<- X]].
    assert (d = e); [|subst; auto]. eapply turn_rule_inj; eauto.
  Qed.
  Lemma trail_outside s d0 tr mk : trail m s d0 tr -> incl tr (darts m) -> (forall d d', In d (darts m) -> turn_rule G m d d' -> In d' mk -> In d mk) ->
    ~ In d0 mk -> forall d, In d tr -> ~ In d mk.
  Proof.
    intros T I B N. induction T as [|d d' tr H IH T Ne]; [intros d [<-|[]]; auto|].
    assert (I2 : incl (d :: tr) (darts m)) by (intros e X; apply I; right; auto).
    intros e [<-|X]; [|apply IH; auto]. intros Y. apply (IH I2 d); [left; auto|]. eapply B; eauto. apply I2; left; auto.
  Qed.

  (** the faces of a list of circuits that are kept *)
  Definition kept (ws : list (list V)) : list (list V) := filter (fun p => negb (area_pos G p)) ws.
  (** state while start node s is being processed: [base] closed, [ws] circuits from s *)
  Lemma trails_disjoint s d1 d2 t1 t2 : trail m s d1 t1 -> trail m s d2 t2 -> d1 <> d2 -> forall e, In e t1 -> ~ In e t2.
  Proof.
    intros T1. revert d2 t2. induction T1 as [|d d' tr H IH T Ne]; intros d2 t2 T2 N.
    - intros e [<-|[]] I. apply N. eapply trail_tail; eauto.
    - intros e [<-|X]; [|eapply IH; eauto]. intros I. destruct (trail_back _ _ _ _ _ T2 I) as [->|[d'' [I2 [TR N2]]]].
      + apply Ne. destruct T as [Q _]. rewrite Q. apply (trail_start _ _ _ _ T2).
      + assert (Q : d = d'') by (eapply turn_rule_inj; eauto). apply (IH d2 t2 T2 N d); [left; auto|]. rewrite Q. destruct t2; [destruct I2|right; auto].
  Qed.
  Definition circuits_at (s : V) (ws : list (list V)) : Prop := Forall (fun p => face_circuit G m p /\ hd_error p = Some s) ws.

  Lemma make_face_live s x mk : In x (adj m s) -> exists t,
    let p := s :: x :: map snd (rev t) in
    make_face G m s x mk = Some (if area_pos G p then None else Some p, t ++ mk) /\
    trail m s (s, x) (t ++ [(s, x)]) /\ NoDup (t ++ [(s, x)]) /\ incl (t ++ [(s, x)]) (darts m) /\ snd (hd (s, x) t) = s /\
    face_circuit G m p /\ steps p = rev (t ++ [(s, x)]).
  Proof.
    intros I. unfold make_face. rewrite <- darts_count.
    destruct (walk_ok (S (length (darts m))) s (s, x) s x [] mk) as [f [z [t [F [T [N [IC [Z [ST FE]]]]]]]]].
    - constructor; auto.
    - constructor; [intros []|constructor].
    - intros e [<-|[]]. apply dart_In; auto.
    - cbn. lia.
    - rewrite F. exists t. rewrite (FE D). 
      assert (ZS : snd (hd (s, x) t) = s).
      { rewrite <- Z. destruct ST as [ST|ST]; auto. exfalso.
        assert (IZ : exists u, In z (adj m u)).
        { destruct t as [|[a b] t]; cbn in Z; subst; [exists s; auto|]. exists a. apply dart_In, IC. left; auto. }
        destruct IZ as [u IZ]. pose proof (adj_degree _ _ IZ). specialize (D z). lia. }
      cbn zeta. rewrite Z, ZS. assert (Q : eqv G s s = true) by (apply eqv_true; auto). rewrite Q. cbn [negb orb].
      split; [destruct (area_pos G _); auto|]. split; [auto|split; [auto|split; [auto|split; [auto|]]]]. apply circuit_face; auto.
  Qed.

  (** invariant of the loop at one start node: marks = base + the trails found so far, all disjoint *)
  Definition at_node (s : V) (base : marks) (ts : list (E * list E)) (mk : marks) : Prop :=
    (forall e, In e mk <-> In e base \/ exists d t, In (d, t) ts /\ In e t) /\
    (forall d t, In (d, t) ts -> trail m s d t /\ incl t (darts m) /\ (exists h r, t = h :: r /\ snd h = s) /\ ~ In d base) /\
    NoDup (map fst ts).
  Lemma faces_at_live s base : incl base (darts m) -> NoDup base -> closed_marks base ->
    forall n ts mk, at_node s base ts mk -> unmarked s mk < n ->
    exists ws ts' mk', faces_at G m n s mk = Some (kept ws, mk') /\ Forall (face_circuit G m) ws /\
      flat_map steps ws = flat_map (fun dt => rev (snd dt)) ts' /\
      at_node s base (rev ts' ++ ts) mk' /\ (forall x, In x (adj m s) -> In (s, x) mk') /\
      (forall d t, In (d, t) ts' -> NoDup t).
  Proof.
    intros IB NB CB.
    assert (BK : forall d d', In d (darts m) -> turn_rule G m d d' -> In d' base -> In d base) by (apply closed_inv; auto).
    induction n as [|n IH]; intros ts mk (A1 & A2 & A3) L; [lia|]. cbn [faces_at].
    assert (DZ : forall x, In x (adj m s) -> degree m x <> 0) by (intros x X; apply (adj_degree s x X)).
    destruct (find_free_live s (adj m s) mk D DZ) as [[l1 [x [l2 [Ql [NX [PX [mk1 [Qf Mf]]]]]]]]|[mk1 [Qf [AM Mf]]]].
    - rewrite Qf. assert (IX : In x (adj m s)) by (rewrite Ql, in_app_iff; cbn; auto).
      destruct (make_face_live s x mk1 IX) as [t [Qm [T [NT [IT [HT [FC ST]]]]]]]. cbn zeta in *.
      set (p := s :: x :: map snd (rev t)) in *. rewrite Qm. cbn [fst].
      destruct (IH (((s, x), t ++ [(s, x)]) :: ts) (t ++ mk1)) as [ws [ts' [mk' [Qr [FW [SW [AN [AL NDt]]]]]]]].
      { split; [|split].
        - intros e. rewrite in_app_iff, Mf, A1. split.
          + intros [X|[->|[X|[d [t0 [X Y]]]]]].
            * right. exists (s, x), (t ++ [(s, x)]). rewrite in_app_iff. cbn. auto.
            * right. exists (s, x), (t ++ [(s, x)]). rewrite in_app_iff. cbn. auto.
            * auto.
            * right. exists d, t0. cbn; auto.
          + intros [X|[d [t0 [[X|X] Y]]]]; auto.
            * injection X; intros <- <-. rewrite in_app_iff in Y. cbn in Y. destruct Y as [Y|[<-|[]]]; auto.
            * right. right. right. eauto.
        - intros d t0 [X|X]; [|auto]. injection X; intros <- <-. split; auto. split; auto. split.
          + destruct t as [|h t]; [exists (s, x), []; cbn in *; auto|exists h, (t ++ [(s, x)]); auto].
          + intros Y. apply NX, A1. auto.
        - cbn. constructor; auto. intros X. apply in_map_iff in X. destruct X as [[d t0] [Q X]]. cbn in Q. subst.
          apply NX, A1. right. exists (s, x), t0. split; auto. destruct (A2 _ _ X) as [T0 _]. destruct (trail_last _ _ _ _ T0) as [r ->].
          rewrite in_app_iff; cbn; auto. }
      { assert (X : unmarked s (t ++ mk1) < unmarked s mk); [|lia]. unfold unmarked. apply filter_length_lt with (x := x); auto.
        + apply negb_true_iff. apply not_true_iff_false. rewrite marked_In. auto.
        + apply negb_false_iff. apply marked_In. rewrite in_app_iff. right. apply Mf. auto.
        + intros y. rewrite !negb_true_iff, <- !not_true_iff_false, !marked_In. intros X Y. apply X. rewrite in_app_iff. right. apply Mf. auto. }
      rewrite Qr. exists (p :: ws), (((s, x), t ++ [(s, x)]) :: ts'), mk'. split; [|split; [|split; [|split; [|split; auto]]]].
      + unfold kept. cbn [filter]. destruct (area_pos G p); cbn [negb]; auto. 
        replace (2 <? length p) with true; auto. symmetry. apply Nat.ltb_lt. destruct FC as [FC _]. lia.
      + constructor; auto.
      + cbn [flat_map snd]. rewrite SW, ST. auto.
      + cbn [rev]. rewrite <- app_assoc. exact AN.
      + intros d t0 [X|X]; [injection X; intros <- <-; auto|eauto].
    - rewrite Qf. exists [], [], mk1. split; [auto|]. split; [constructor|]. split; [auto|]. cbn [rev app].
      split; [|split; [intros x X; apply Mf; auto|intros ? ? []]].
      split; [|split; auto]. intros e. rewrite Mf. apply A1.
  Qed.
  Lemma NoDup_flat {A B} (f : A -> list B) l : (forall a, In a l -> NoDup (f a)) -> NoDup l ->
    (forall a b e, In a l -> In b l -> a <> b -> In e (f a) -> ~ In e (f b)) -> NoDup (flat_map f l).
  Proof.
    induction l as [|a l IH]; cbn; intros H N Dj; [constructor|]. inversion N; subst. apply NoDup_app'; auto.
    - apply IH; auto. intros a0 b e X Y Ne Z; apply (Dj a0 b e); auto.
    - intros e X Y. apply in_flat_map in Y. destruct Y as [b [Y1 Y2]]. apply (Dj a b e); auto. intros ->; auto.
  Qed.
  Lemma faces_from_live vs : forall (done : list E) mk, incl done (darts m) -> NoDup done -> closed_marks done -> (forall e, In e mk <-> In e done) ->
    exists ws mk', faces_from G m vs mk = Some (kept ws, mk') /\ Forall (face_circuit G m) ws /\
      NoDup (flat_map steps ws ++ done) /\ incl (flat_map steps ws) (darts m) /\
      (forall e, In e mk' <-> In e (flat_map steps ws ++ done)) /\
      (forall v x, In v vs -> In x (adj m v) -> In (v, x) (flat_map steps ws ++ done)).
  Proof.
    induction vs as [|v vs IH]; intros done mk I N C Q; cbn [faces_from].
    - exists [], mk. split; [auto|]. split; [constructor|]. cbn. split; [auto|]. split; [intros ? []|]. split; [auto|intros ? ? []].
    - destruct (faces_at_live v done I N C (S (degree m v)) [] mk) as [ws [ts [mk1 [Q1 [F1 [S1 [[A1 [A2 A3]] [AL NT]]]]]]]].
      + split; [|split; [intros ? ? []|constructor]]. intros e. rewrite Q. split; auto. intros [X|[? [? [[] _]]]]; auto.
      + unfold unmarked, Graph.degree. apply Nat.lt_succ_r. clear. generalize (adj m v). induction l; cbn; auto. destruct (negb _); cbn; lia.
      + rewrite Q1. rewrite app_nil_r in *.
        assert (RV : forall d t, In (d, t) (rev ts) <-> In (d, t) ts) by (intros; symmetry; apply in_rev).
        assert (IS : forall e, In e (flat_map steps ws) <-> exists d t, In (d, t) ts /\ In e t).
        { intros e. rewrite S1, in_flat_map. split.
          - intros [[d t] [X Y]]. cbn in Y. apply in_rev in Y. eauto.
          - intros [d [t [X Y]]]. exists (d, t). split; auto. cbn. rewrite <- in_rev. auto. }
        assert (BK : forall d d', In d (darts m) -> turn_rule G m d d' -> In d' done -> In d done) by (apply closed_inv; auto).
        assert (N1 : NoDup (flat_map steps ws)).
        { rewrite S1. apply NoDup_flat.
          - intros [d t] X. cbn. apply NoDup_rev. eauto.
          - apply NoDup_map_inv with (f := fst). rewrite <- (rev_involutive ts), map_rev. apply NoDup_rev; auto.
          - intros [d1 t1] [d2 t2] e X1 X2 Ne Y1 Y2. cbn in *. rewrite <- in_rev in Y1, Y2. apply RV in X1, X2.
            destruct (A2 _ _ X1) as [T1 _]. destruct (A2 _ _ X2) as [T2 _].
            destruct (veq G (snd d1) (snd d2)) as [Qs|Qs].
            + assert (d1 = d2). { pose proof (trail_start _ _ _ _ T1). pose proof (trail_start _ _ _ _ T2). destruct d1, d2; cbn in *; congruence. }
              subst d2. apply Ne. f_equal. clear - A3 X1 X2.
              revert A3 X1 X2. generalize (rev ts). induction l as [|[a b] l IHl]; cbn; [intros _ []|]. intros N X Y. inversion N; subst.
              assert (Z : forall t, In (d1, t) l -> In d1 (map fst l)) by (intros t Z; apply in_map_iff; exists (d1, t); auto).
              destruct X as [X|X], Y as [Y|Y]; [congruence| | |auto].
              * injection X; intros; subst. exfalso; eauto.
              * injection Y; intros; subst. exfalso; eauto.
            + eapply (trails_disjoint v d1 d2 t1 t2); eauto. intros ->; auto. }
        assert (NI : forall e, In e (flat_map steps ws) -> ~ In e done).
        { intros e X. apply IS in X. destruct X as [d [t [X Y]]]. apply RV in X. destruct (A2 _ _ X) as [T [It [_ Nd]]]. eapply trail_outside; eauto. }
        assert (II : incl (flat_map steps ws) (darts m)).
        { intros e X. apply IS in X. destruct X as [d [t [X Y]]]. apply RV in X. destruct (A2 _ _ X) as [_ [It _]]. auto. }
        assert (MK : forall e, In e mk1 <-> In e (flat_map steps ws ++ done)).
        { intros e. rewrite A1, in_app_iff, IS. split; [intros [X|[d [t [X Y]]]]|intros [[d [t [X Y]]]|X]]; auto; [left|right]; exists d, t; split; auto; apply RV; auto. }
        destruct (IH (flat_map steps ws ++ done) mk1) as [ws2 [mk2 [Q2 [F2 [N2 [I2 [M2 AL2]]]]]]].
        * intros e X. apply in_app_iff in X. destruct X; auto.
        * apply NoDup_app'; auto.
        * intros d d' X Id T. apply in_app_iff in X. apply in_app_iff. destruct X as [X|X]; [|right; eapply C; eauto].
          apply IS in X. destruct X as [d1 [t1 [X Y]]]. pose proof X as X0. apply RV in X. destruct (A2 _ _ X) as [Tr [It [[h [r [-> Hh]]] _]]].
          destruct Y as [<-|Y].
          -- rewrite <- in_app_iff. apply MK. destruct d' as [a b]. destruct T as [Qa J]. cbn in Qa, J. rewrite <- Qa, Hh. apply AL. rewrite Hh in J. destruct J as [[a1 [c Q']]|[[a1 Q']|[Q' ->]]]; rewrite Q'; rewrite ?in_app_iff; cbn; auto. rewrite in_app_iff; cbn; auto.
          -- left. apply IS. exists d1, (h :: r). split; auto. destruct (trail_pred _ _ _ _ d Tr Y) as [d2 [J2 [T2 _]]].
             assert (d' = d2) by (eapply turn_rule_fun; eauto). subst; auto.
        * auto.
        * rewrite Q2. exists (ws ++ ws2), mk2. rewrite flat_map_app. split; [unfold kept; rewrite filter_app; auto|].
          split; [apply Forall_app; auto|].
          assert (P : Permutation (flat_map steps ws2 ++ flat_map steps ws ++ done) ((flat_map steps ws ++ flat_map steps ws2) ++ done)).
          { rewrite !app_assoc. apply Permutation_app_tail, Permutation_app_comm. }
          split; [eapply Permutation_NoDup; eauto|]. split.
          { intros e X. apply in_app_iff in X. destruct X; auto. }
          split. { intros e. rewrite M2. split; apply Permutation_in; [auto|symmetry; auto]. }
          intros v' x [<-|X] J; [|eapply Permutation_in; [exact P|auto]].
          eapply Permutation_in; [exact P|]. apply in_app_iff. right. apply MK. auto.
  Qed.
  End W.
End Proofs.
