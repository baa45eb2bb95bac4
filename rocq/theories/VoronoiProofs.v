(** * VoronoiProofs: what every step of the sweep preserves (for every number type). *)
From Coq Require Import ZArith List Bool PeanoNat Lia Permutation.
From Verif Require Import Num Geom Voronoi.
Import ListNotations.

Lemma bind_ok {A B} (x : res A) (f : A -> res B) y : rbind x f = Ok y -> exists a, x = Ok a /\ f a = Ok y.
Proof. destruct x as [a|e]; cbn; [eauto|discriminate]. Qed.
Lemma fetch_ok {A} e i (l : list A) x : fetch e i l = Ok x <-> nth_error l i = Some x.
Proof. unfold fetch. destruct (nth_error l i); split; intros H; try discriminate; congruence. Qed.
Lemma upd_length {A} i (f : A -> A) l : length (upd i f l) = length l.
Proof. revert i. induction l as [|x r IH]; intros [|i]; cbn; auto. Qed.
Lemma upd_nth {A} i (f : A -> A) l j : nth_error (upd i f l) j = if Nat.eqb j i then option_map f (nth_error l j) else nth_error l j.
Proof.
  revert i j. induction l as [|x r IH]; intros [|i] [|j]; cbn [upd nth_error Nat.eqb option_map]; auto.
  destruct (Nat.eqb j i); reflexivity.
Qed.
Lemma upd_map_same {A B} (g : A -> B) i (f : A -> A) l : (forall x, nth_error l i = Some x -> g (f x) = g x) -> map g (upd i f l) = map g l.
Proof. revert i. induction l as [|x r IH]; intros [|i] H; cbn; auto; f_equal; auto. Qed.
Lemma map_upd {A B} (g : A -> B) (h : B -> B) i (f : A -> A) l : (forall x, g (f x) = h (g x)) -> map g (upd i f l) = upd i h (map g l).
Proof. intros H. revert i. induction l as [|x r IH]; intros [|i]; cbn; auto; f_equal; auto. Qed.

(** ** the list of half edges *)
Lemma nodup_split {A} (l1 l2 m1 m2 : list A) x : NoDup (l1 ++ x :: l2) -> l1 ++ x :: l2 = m1 ++ x :: m2 -> l1 = m1 /\ l2 = m2.
Proof.
  revert m1. induction l1 as [|a l1 IH]; intros [|b m1] N E; cbn in *.
  - injection E as ->. auto.
  - injection E as -> ->. inversion N; subst. exfalso. apply H1. apply in_or_app. right. now left.
  - injection E as -> <-. inversion N; subst. exfalso. apply H1. apply in_or_app. right. now left.
  - injection E as -> E. inversion N; subst. destruct (IH m1 H2 E) as [-> ->]. auto.
Qed.
Lemma after_spec i l x r : after i l = x :: r -> exists l1, l = l1 ++ i :: x :: r /\ ~ In i l1.
Proof.
  induction l as [|y l IH]; cbn; [discriminate|]. destruct (Nat.eqb_spec y i) as [->|N].
  - intros ->. exists []. auto.
  - intros H. destruct (IH H) as (l1 & -> & K). exists (y :: l1). split; [reflexivity|]. intros [->|C]; auto.
Qed.
Lemma right_of_spec i l j : right_of i l = Ok j -> exists l1 l2, l = l1 ++ i :: j :: l2 /\ ~ In i l1.
Proof.
  unfold right_of, first. destruct (after i l) as [|x r] eqn:E; [discriminate|]. intros [= ->].
  destruct (after_spec _ _ _ _ E) as (l1 & -> & K). eauto.
Qed.
Lemma before_spec i l acc x r : before i l acc = x :: r -> exists l1 l2, l = l1 ++ i :: l2 /\ ~ In i l1 /\ rev l1 ++ acc = x :: r.
Proof.
  revert acc. induction l as [|y l IH]; cbn; intros acc; [discriminate|]. destruct (Nat.eqb_spec y i) as [->|N].
  - intros ->. exists [], l. auto.
  - intros H. destruct (IH _ H) as (l1 & l2 & -> & K & Q). exists (y :: l1), l2. split; [reflexivity|]. split.
    + intros [->|C]; auto.
    + cbn. rewrite <- app_assoc. exact Q.
Qed.
Lemma left_of_spec i l j : left_of i l = Ok j -> exists l1 l2, l = l1 ++ j :: i :: l2 /\ ~ In i (l1 ++ [j]).
Proof.
  unfold left_of, first. destruct (before i l []) as [|x r] eqn:E; [discriminate|]. intros [= ->].
  destruct (before_spec _ _ _ _ _ E) as (l1 & l2 & -> & K & Q). rewrite app_nil_r in Q.
  assert (L : l1 = rev r ++ [j]) by (rewrite <- (rev_involutive l1), Q; reflexivity). subst l1.
  exists (rev r), l2. split; [now rewrite <- app_assoc|exact K].
Qed.
Lemma insert_after_spec i x l1 l2 : ~ In i l1 -> insert_after i x (l1 ++ i :: l2) = l1 ++ i :: x :: l2.
Proof.
  induction l1 as [|y l1 IH]; cbn; intros N.
  - now rewrite Nat.eqb_refl.
  - destruct (Nat.eqb_spec y i) as [->|_]; [exfalso; auto|]. rewrite IH; auto.
Qed.
Lemma unlink_none i l : ~ In i l -> unlink i l = l.
Proof.
  induction l as [|y l IH]; cbn; intros N; auto. destruct (Nat.eqb_spec y i) as [->|_]; [exfalso; auto|]. cbn. f_equal. apply IH. auto.
Qed.
Lemma unlink_spec i l1 l2 : NoDup (l1 ++ i :: l2) -> unlink i (l1 ++ i :: l2) = l1 ++ l2.
Proof.
  intros N. apply NoDup_remove_2 in N. unfold unlink. rewrite filter_app. cbn. rewrite Nat.eqb_refl. cbn.
  fold (unlink i l1). fold (unlink i l2). rewrite !unlink_none; auto; intros C; apply N; apply in_or_app; auto.
Qed.

Section Proofs.
  Context {N : NumOps}.
  Notation vsite := (vsite N). Notation vedge := (vedge N). Notation hedge := (hedge N). Notation vstate := (vstate N). Notation vconf := (vconf N).

  (** the part of an edge and of a half edge that never changes *)
  Definition ecore (e : vedge) : N * N * N * vsite * vsite := (ea e, eb e, ec e, es1 e, es2 e).
  Definition hcore (h : hedge) : heref * bool := (he_edge h, he_right h).
  Notation kcore := (N * N * N * vsite * vsite)%type.
  Definition ks1 (k : kcore) : vsite := snd (fst k).
  Definition ks2 (k : kcore) : vsite := snd k.
  (** the site on the left and on the right of a half edge *)
  Definition kleft (r : bool) (k : kcore) : vsite := if r then ks2 k else ks1 k.
  Definition kright (r : bool) (k : kcore) : vsite := if r then ks1 k else ks2 k.
  Definition lsite (E : list kcore) (H : list (heref * bool)) (d : vsite) (i : nat) : option vsite :=
    match nth_error H i with
    | Some (OfEdge n, r) => option_map (kleft r) (nth_error E n)
    | Some _ => Some d
    | None => None
    end.
  Definition rsite (E : list kcore) (H : list (heref * bool)) (d : vsite) (i : nat) : option vsite :=
    match nth_error H i with
    | Some (OfEdge n, r) => option_map (kright r) (nth_error E n)
    | Some _ => Some d
    | None => None
    end.
  Lemma left_site_ok (st : vstate) d i s : left_site st d i = Ok s <-> lsite (map ecore (v_edges st)) (map hcore (v_hes st)) d i = Some s.
  Proof.
    unfold left_site, lsite, the_he, fetch, edge_of. rewrite nth_error_map. destruct (nth_error (v_hes st) i) as [h|]; cbn; [|split; discriminate].
    destruct (he_edge h); cbn; try (split; congruence). unfold fetch. rewrite nth_error_map. destruct (nth_error (v_edges st) n); cbn; unfold kleft, kright, ks1, ks2; cbn; split; congruence.
  Qed.
  Lemma right_site_ok (st : vstate) d i s : right_site st d i = Ok s <-> rsite (map ecore (v_edges st)) (map hcore (v_hes st)) d i = Some s.
  Proof.
    unfold right_site, rsite, the_he, fetch, edge_of. rewrite nth_error_map. destruct (nth_error (v_hes st) i) as [h|]; cbn; [|split; discriminate].
    destruct (he_edge h); cbn; try (split; congruence). unfold fetch. rewrite nth_error_map. destruct (nth_error (v_edges st) n); cbn; unfold kleft, kright, ks1, ks2; cbn; split; congruence.
  Qed.

  (** ** operations of the queue and of the table change nothing else *)
  Definition qsame (st st' : vstate) : Prop :=
    v_edges st' = v_edges st /\ map hcore (v_hes st') = map hcore (v_hes st) /\ v_chain st' = v_chain st /\
    v_verts st' = v_verts st /\ v_out st' = v_out st /\ v_tris st' = v_tris st.
  Lemma qsame_refl st : qsame st st. Proof. repeat split. Qed.
  Lemma qsame_trans a b c : qsame a b -> qsame b c -> qsame a c.
  Proof. unfold qsame. intros (A & B & C & D & E & F) (A' & B' & C' & D' & E' & F'). repeat split; congruence. Qed.
  (** every waiting half edge waits for a vertex with the property [Q] *)
  Definition waiting (Q : pt N -> Prop) (st : vstate) : Prop :=
    forall h v, In h (v_hes st) -> he_vertex h = Some v -> Q v.

  Ltac inv_bind H := let a := fresh "x" in let E := fresh "E" in apply bind_ok in H; destruct H as (a & E & H).

  Lemma get_bucket_same c st y st' b : get_bucket c st y = Ok (st', b) -> qsame st st' /\ v_hes st' = v_hes st /\ v_queue st' = v_queue st /\ v_count st' = v_count st.
  Proof.
    unfold get_bucket. intros H. inv_bind H. injection H as <- <-. destruct (Nat.ltb _ _); repeat split.
  Qed.
  Lemma in_upd {A} i (f : A -> A) l x : In x (upd i f l) -> In x l \/ exists y, In y l /\ x = f y.
  Proof.
    revert i. induction l as [|y r IH]; intros [|i]; cbn; auto.
    - intros [<-|H]; eauto.
    - intros [<-|H]; auto. destruct (IH _ H) as [|(z & ? & ?)]; eauto.
  Qed.
  Lemma waiting_upd (Q : pt N -> Prop) st l i f : waiting Q st -> l = upd i f (v_hes st) ->
    (forall h v, In h (v_hes st) -> he_vertex (f h) = Some v -> Q v) -> forall h v, In h l -> he_vertex h = Some v -> Q v.
  Proof. intros W -> F h v Hin Hv. destruct (in_upd _ _ _ _ Hin) as [K|(y & K & ->)]; eauto. Qed.
  Lemma pq_insert_same c st i p off st' : pq_insert c st i p off = Ok st' -> qsame st st' /\ (forall Q, waiting Q st -> Q p -> waiting Q st').
  Proof.
    unfold pq_insert. intros H. inv_bind H. destruct x as [st1 b]. inv_bind H. inv_bind H. injection H as <-.
    apply get_bucket_same in E. destruct E as (S & Sh & _). split.
    - eapply qsame_trans; [|eapply qsame_trans; [exact S|repeat split]].
      repeat split. cbn [v_hes with_hes]. apply upd_map_same. reflexivity.
    - intros Q W Hp h v Hin Hv. cbn [v_hes with_queue] in Hin. rewrite Sh in Hin. cbn [v_hes with_hes] in Hin.
      eapply (waiting_upd Q st); [exact W|reflexivity| |exact Hin|exact Hv]. cbn. intros ? ? _ [= <-]. exact Hp.
  Qed.
  Lemma pq_delete_same c st i st' : pq_delete c st i = Ok st' -> qsame st st' /\ (forall Q, waiting Q st -> waiting Q st').
  Proof.
    unfold pq_delete. intros H. inv_bind H. destruct (he_vertex x); [|injection H as <-; split; [apply qsame_refl|auto]].
    inv_bind H. destruct x0 as [st1 b]. inv_bind H. destruct (existsb _ _); [|discriminate]. injection H as <-.
    apply get_bucket_same in E0. destruct E0 as (S & Sh & _). split.
    - eapply qsame_trans; [exact S|]. repeat split. cbn [v_hes with_hes with_queue]. apply upd_map_same. reflexivity.
    - intros Q W h v Hin Hv. cbn [v_hes with_hes with_queue] in Hin. rewrite Sh in Hin.
      eapply (waiting_upd Q st); [exact W|reflexivity| |exact Hin|exact Hv]. cbn. discriminate.
  Qed.
  Lemma requeue_same c st i j t s drop st' : requeue c st i j t s drop = Ok st' -> qsame st st' /\
    (forall Q, waiting Q st -> (forall p, intersect st i j = Ok (Some p) -> Q p) -> waiting Q st').
  Proof.
    unfold requeue. intros H. inv_bind H. destruct x as [p|]; [|injection H as <-; split; [apply qsame_refl|auto]].
    inv_bind H. apply pq_insert_same in H. destruct H as (S1 & W1).
    assert (K : qsame st x /\ (forall Q, waiting Q st -> waiting Q x)).
    { destruct drop; [now apply pq_delete_same in E0|injection E0 as <-; split; [apply qsame_refl|auto]]. }
    destruct K as (S0 & W0). split; [eapply qsame_trans; eauto|]. intros Q W HQ. apply W1; auto.
  Qed.
  Lemma bucket_entry_same st b st' r : bucket_entry st b = Ok (st', r) -> qsame st st' /\ v_hes st' = v_hes st.
  Proof.
    unfold bucket_entry. intros H. inv_bind H. destruct x; [|injection H as <- _; split; [apply qsame_refl|reflexivity]].
    inv_bind H. destruct (he_edge x); injection H as <- _; split; repeat split.
  Qed.
  Lemma probe_same c : forall fuel st b i st' r, probe fuel c st b i = Ok (st', r) -> qsame st st' /\ v_hes st' = v_hes st.
  Proof.
    induction fuel as [|fuel IH]; cbn [probe]; intros st b i st' r H.
    - injection H as <- _. split; [apply qsame_refl|reflexivity].
    - inv_bind H. destruct x as [st1 r1]. apply bucket_entry_same in E. destruct E as (S1 & K1).
      inv_bind H. destruct x as [st2 r2].
      assert (K : qsame st1 st2 /\ v_hes st2 = v_hes st1).
      { destruct r1; [injection E as <- _; split; [apply qsame_refl|reflexivity]|now apply bucket_entry_same in E]. }
      destruct K as (S2 & K2). assert (S : qsame st st2) by (eapply qsame_trans; eauto). assert (K : v_hes st2 = v_hes st) by congruence.
      destruct r2; [injection H as <- _; auto|]. destruct (_ || _); [injection H as <- _; auto|].
      destruct (IH _ _ _ _ _ H) as (S3 & K3). split; [eapply qsame_trans; eauto|congruence].
  Qed.
  Lemma pop_leftbnd_same c st s st' i : pop_leftbnd c st s = Ok (st', i) -> qsame st st' /\ v_hes st' = v_hes st.
  Proof.
    unfold pop_leftbnd. intros H. inv_bind H. inv_bind H. destruct x0 as [st1 r1]. apply bucket_entry_same in E0. destruct E0 as (S1 & K1).
    inv_bind H. destruct x0 as [st2 r2].
    assert (K : qsame st1 st2 /\ v_hes st2 = v_hes st1).
    { destruct r1; [injection E0 as <- _; split; [apply qsame_refl|reflexivity]|now apply probe_same in E0]. }
    destruct K as (S2 & K2). inv_bind H. injection H as <- _.
    assert (S : qsame st st2) by (eapply qsame_trans; eauto). assert (K : v_hes st2 = v_hes st) by congruence.
    destruct (_ && _)%bool; split; auto.
  Qed.
  Lemma pop_min_same st st' i : pop_min st = Ok (st', i) -> qsame st st' /\ v_hes st' = v_hes st.
  Proof.
    unfold pop_min. intros H. inv_bind H. destruct x; [discriminate|]. injection H as <- _. split; repeat split.
  Qed.
  Lemma get_min_point_same st st' m : get_min_point st = Ok (st', m) -> qsame st st' /\ v_hes st' = v_hes st.
  Proof.
    unfold get_min_point. intros H. inv_bind H. destruct x. inv_bind H. destruct x. injection H as <- _. split; repeat split.
  Qed.
End Proofs.
