(** * VoronoiProofs2: the invariant of the sweep (for every number type). *)
From Coq Require Import ZArith List Bool PeanoNat Lia Permutation.
From Verif Require Import Num Geom Voronoi VoronoiSpec VoronoiProofs.
Import ListNotations.

Section Lists.
  Fixpoint linked (P : nat -> nat -> Prop) (l : list nat) : Prop :=
    match l with
    | [] => True
    | a :: r => match r with [] => True | b :: _ => P a b end /\ linked P r
    end.
  Lemma linked_app P l1 i l2 : linked P (l1 ++ i :: l2) <-> linked P (l1 ++ [i]) /\ linked P (i :: l2).
  Proof.
    induction l1 as [|a [|b l1] IH].
    - cbn. tauto.
    - cbn in *. tauto.
    - change ((a :: b :: l1) ++ i :: l2) with (a :: (b :: l1) ++ i :: l2). change ((a :: b :: l1) ++ [i]) with (a :: (b :: l1) ++ [i]).
      cbn [linked] in *. change ((b :: l1) ++ i :: l2) with (b :: l1 ++ i :: l2) in *. change ((b :: l1) ++ [i]) with (b :: l1 ++ [i]) in *. tauto.
  Qed.
  Lemma linked_impl (P Q : nat -> nat -> Prop) l : linked P l -> (forall a b, In a l -> In b l -> P a b -> Q a b) -> linked Q l.
  Proof.
    induction l as [|a [|b l] IH]; cbn [linked]; auto. intros [H1 H2] F. split.
    - apply F; cbn; auto.
    - apply IH; auto. intros x y Hx Hy. apply F; right; auto.
  Qed.
  Lemma linked_at P l1 i j l2 : linked P (l1 ++ i :: j :: l2) -> P i j.
  Proof. intros H. apply linked_app in H. cbn in H. tauto. Qed.
  Definition begins (x : nat) (l : list nat) := exists t, l = x :: t.
  Definition ends (x : nat) (l : list nat) := exists t, l = t ++ [x].
  Lemma begins_app x l1 i l2 m : begins x (l1 ++ i :: l2) -> begins x (l1 ++ i :: m).
  Proof. intros (t & E). destruct l1 as [|a l1]; cbn in *; injection E as -> _; eexists; reflexivity. Qed.
  Lemma ends_app x l1 i l2 m : ends x (l1 ++ i :: l2) -> ends x (m ++ i :: l2).
  Proof.
    intros (t & E). destruct (@exists_last _ (i :: l2)) as (u & y & U); [discriminate|]. rewrite U in E. rewrite app_assoc in E. apply app_inj_tail in E.
    destruct E as [_ ->]. exists (m ++ u). rewrite U. now rewrite app_assoc.
  Qed.
  Lemma not_first x l1 i j l2 : NoDup (l1 ++ i :: j :: l2) -> begins x (l1 ++ i :: j :: l2) -> j <> x.
  Proof.
    intros H (t & E) ->. destruct l1 as [|a l1]; cbn in *; injection E as -> _.
    - inversion H; subst. apply H2. now left.
    - inversion H; subst. apply H2. apply in_or_app. right. right. now left.
  Qed.
  Lemma not_last x l1 i j l2 : NoDup (l1 ++ i :: j :: l2) -> ends x (l1 ++ i :: j :: l2) -> i <> x.
  Proof.
    intros H (t & E) ->. destruct (@exists_last _ (j :: l2)) as (u & y & U); [discriminate|]. rewrite U in E, H.
    replace (l1 ++ x :: u ++ [y]) with ((l1 ++ x :: u) ++ [y]) in E by (rewrite <- app_assoc; reflexivity).
    apply app_inj_tail in E. destruct E as [_ ->]. apply NoDup_remove_2 in H. apply H. apply in_or_app. right. apply in_or_app. right. now left.
  Qed.
  Lemma nodup_insert (l1 l2 : list nat) x : NoDup (l1 ++ l2) -> ~ In x (l1 ++ l2) -> NoDup (l1 ++ x :: l2).
  Proof. intros H1 H2. apply NoDup_Add with (a := x) (l := l1 ++ l2); [apply Add_app|auto]. Qed.
End Lists.

Lemma reach_incl {A} (L M : list (A * A)) a b : incl L M -> reach L a b -> reach M a b.
Proof. intros I H. induction H as [|b c _ IH [K|K]]; [constructor|eapply reach_step; eauto..]. Qed.

Section Inv.
  Context {N : NumOps}.
  Notation vsite := (vsite N). Notation vedge := (vedge N). Notation hedge := (hedge N). Notation vstate := (vstate N). Notation vconf := (vconf N).
  Notation kcore := (N * N * N * vsite * vsite)%type.
  Local Open Scope num_scope.
  Ltac inv_bind H := let a := fresh "x" in let E := fresh "E" in apply bind_ok in H; destruct H as (a & E & H).

  Definition shares (E : list kcore) H (d : vsite) (i j : nat) : Prop := exists s, rsite E H d i = Some s /\ lsite E H d j = Some s.
  Definition crossing (k1 k2 : kcore) (p : pt N) : Prop :=
    let '(a1, b1, c1, _, _) := k1 in let '(a2, b2, c2, _, _) := k2 in
    let dst := a1 * b2 - b1 * a2 in
    vfeq dst (lit 0 0) = false /\ pydiv (c1 * b2 - c2 * b1) dst = Ok (px p) /\ pydiv (c2 * a1 - c1 * a2) dst = Ok (py p).
  Definition crossed (E : list kcore) (p : pt N) : Prop :=
    exists k1 k2 r1 r2, In k1 E /\ In k2 E /\ kright r1 k1 = kleft r2 k2 /\ crossing k1 k2 p.
  Definition made (k : kcore) : Prop := exists e, new_edge (ks1 k) (ks2 k) = Ok e /\ ecore e = k.

  Lemma intersect_crossed (st : vstate) d i j p : intersect st i j = Ok (Some p) ->
    shares (map ecore (v_edges st)) (map hcore (v_hes st)) d i j -> crossed (map ecore (v_edges st)) p.
  Proof.
    unfold intersect, shares, rsite, lsite. rewrite !nth_error_map. intros H. inv_bind H. inv_bind H.
    unfold the_he in *. apply fetch_ok in E, E0. rewrite E, E0. cbn [option_map]. unfold hcore at 1. unfold hcore at 1.
    destruct (he_edge x) as [| |n1] eqn:X1; [discriminate| |].
    { destruct (he_edge x0) eqn:X2; [discriminate|..]; unfold edge_of in H; rewrite X1 in H; discriminate. }
    destruct (he_edge x0) as [| |n2] eqn:X2; [discriminate| |].
    { inv_bind H. unfold edge_of in H. rewrite X2 in H. discriminate. }
    inv_bind H. inv_bind H. unfold edge_of in E1, E2. rewrite X1 in E1. rewrite X2 in E2. apply fetch_ok in E1, E2.
    rewrite !nth_error_map, E1, E2. cbn [option_map]. intros (s & S1 & S2). injection S1 as S1. injection S2 as S2.
    destruct (Nat.eqb _ _); [discriminate|]. destruct (vfeq _ _) eqn:V; [discriminate|]. inv_bind H. inv_bind H.
    exists (ecore x1), (ecore x2), (he_right x), (he_right x0).
    split; [apply in_map; eapply nth_error_In; eauto|]. split; [apply in_map; eapply nth_error_In; eauto|]. split; [congruence|].
    unfold crossing, ecore. split; [exact V|].
    assert (Q : p = P x3 x4).
    { destruct (site_lt _ _ _ _); destruct (_ || _); congruence. }
    rewrite Q. cbn [px py]. auto.
  Qed.

  Record cinv (c : vconf) (D : list vsite) (E : list kcore) (H : list (heref * bool)) (chain : list nat) : Prop := {
    i_begins : begins LEFTEND chain; i_ends : ends RIGHTEND chain; i_nodup : NoDup chain;
    i_left : exists r, nth_error H LEFTEND = Some (NoEdge, r); i_right : exists r, nth_error H RIGHTEND = Some (NoEdge, r);
    i_mid : forall i, In i chain -> i <> LEFTEND -> i <> RIGHTEND -> exists n r k, nth_error H i = Some (OfEdge n, r) /\ nth_error E n = Some k;
    i_sites : forall k, In k E -> In (ks1 k) D /\ In (ks2 k) D;
    i_made : forall k, In k E -> made k;
    i_bottom : In (c_bottom c) D;
    i_num : forall s, In s D -> nth_error (c_in c) (vnum s) = Some (site_pt s);
    i_adj : linked (shares E H (c_bottom c)) chain }.

  Lemma cinv_in c D E H chain i : cinv c D E H chain -> In i chain -> (i < length H)%nat /\ exists r x, nth_error H i = Some (x, r) /\ x <> Deleted.
  Proof.
    intros C I. assert (exists r x, nth_error H i = Some (x, r) /\ x <> Deleted).
    { destruct (Nat.eq_dec i LEFTEND) as [->|N0]; [destruct (i_left _ _ _ _ _ C) as (r & ->); exists r, NoEdge; split; [reflexivity|discriminate]|].
      destruct (Nat.eq_dec i RIGHTEND) as [->|N1]; [destruct (i_right _ _ _ _ _ C) as (r & ->); exists r, NoEdge; split; [reflexivity|discriminate]|].
      destruct (i_mid _ _ _ _ _ C i I N0 N1) as (n & r & k & -> & _). exists r, (OfEdge n). split; [reflexivity|discriminate]. }
    split; [|exact H0]. destruct H0 as (r & x & Q & _). apply nth_error_Some. congruence.
  Qed.
  (** more edges and half edges leave the sites beside the old ones alone *)
  Lemma lsite_grow (E E' : list kcore) H H' d i s : lsite E H d i = Some s -> (forall n k, nth_error E n = Some k -> nth_error E' n = Some k) -> nth_error H' i = nth_error H i -> lsite E' H' d i = Some s.
  Proof.
    unfold lsite. intros L G ->. destruct (nth_error H i) as [[[| |n] r]|]; auto. destruct (nth_error E n) as [k|] eqn:K; [|discriminate]. now rewrite (G _ _ K).
  Qed.
  Lemma rsite_grow (E E' : list kcore) H H' d i s : rsite E H d i = Some s -> (forall n k, nth_error E n = Some k -> nth_error E' n = Some k) -> nth_error H' i = nth_error H i -> rsite E' H' d i = Some s.
  Proof.
    unfold rsite. intros L G ->. destruct (nth_error H i) as [[[| |n] r]|]; auto. destruct (nth_error E n) as [k|] eqn:K; [|discriminate]. now rewrite (G _ _ K).
  Qed.
  Lemma nth_grow {A} (l m : list A) n k : nth_error l n = Some k -> nth_error (l ++ m) n = Some k.
  Proof. intros H. rewrite nth_error_app1; auto. apply nth_error_Some. congruence. Qed.
  Lemma site_in c D E H chain i s : cinv c D E H chain -> In i chain -> (rsite E H (c_bottom c) i = Some s \/ lsite E H (c_bottom c) i = Some s) -> In s D.
  Proof.
    intros C I R. destruct (cinv_in _ _ _ _ _ i C I) as (_ & r & x & Q & _). unfold rsite, lsite in R. rewrite Q in R.
    destruct x as [| |n]; try (destruct R as [R|R]; injection R as <-; apply (i_bottom _ _ _ _ _ C)).
    destruct (nth_error E n) as [k|] eqn:K; [|destruct R; discriminate]. apply nth_error_In in K. destruct (i_sites _ _ _ _ _ C k K) as [K1 K2].
    destruct R as [R|R]; injection R as <-; destruct r; auto.
  Qed.

  Lemma cinv_site c D E H l1 i j l2 bot s e : cinv c D E H (l1 ++ i :: j :: l2) -> rsite E H (c_bottom c) i = Some bot -> new_edge bot s = Ok e ->
    nth_error (c_in c) (vnum s) = Some (site_pt s) -> ecore e = (ea e, eb e, ec e, bot, s) ->
    cinv c (s :: D) (E ++ [ecore e]) (H ++ [(OfEdge (length E), false); (OfEdge (length E), true)]) (l1 ++ i :: length H :: S (length H) :: j :: l2).
  Proof.
    intros C R NE Hn Hc. set (chain := l1 ++ i :: j :: l2) in *. set (H' := H ++ _). set (E' := E ++ _).
    assert (GE : forall n k, nth_error E n = Some k -> nth_error E' n = Some k) by (intros; apply nth_grow; auto).
    assert (GH : forall x, In x chain -> nth_error H' x = nth_error H x).
    { intros x Hx. destruct (cinv_in _ _ _ _ _ _ C Hx) as [L _]. apply nth_error_app1. exact L. }
    assert (F1 : ~ In (length H) chain) by (intros K; destruct (cinv_in _ _ _ _ _ _ C K); lia).
    assert (F2 : ~ In (S (length H)) chain) by (intros K; destruct (cinv_in _ _ _ _ _ _ C K); lia).
    assert (B1 : nth_error H' (length H) = Some (OfEdge (length E), false)) by (unfold H'; rewrite nth_error_app2, Nat.sub_diag by lia; reflexivity).
    assert (B2 : nth_error H' (S (length H)) = Some (OfEdge (length E), true)).
    { unfold H'. rewrite nth_error_app2 by lia. replace (S (length H) - length H)%nat with 1%nat by lia. reflexivity. }
    assert (K' : nth_error E' (length E) = Some (ecore e)) by (unfold E'; rewrite nth_error_app2, Nat.sub_diag by lia; reflexivity).
    assert (Ii : In i chain) by (apply in_or_app; right; now left).
    assert (Ij : In j chain) by (apply in_or_app; right; right; now left).
    assert (IN : forall x, In x (l1 ++ i :: length H :: S (length H) :: j :: l2) -> In x chain \/ x = length H \/ x = S (length H)).
    { intros x Hx. unfold chain. rewrite in_app_iff in *. cbn in *. intuition. }
    constructor.
    - eapply begins_app. apply (i_begins _ _ _ _ _ C).
    - destruct (ends_app RIGHTEND (l1 ++ [i]) j l2 (l1 ++ [i; length H; S (length H)])) as (t & T).
      + rewrite <- app_assoc. apply (i_ends _ _ _ _ _ C).
      + exists t. rewrite <- T, <- app_assoc. reflexivity.
    - replace (l1 ++ i :: length H :: S (length H) :: j :: l2) with ((l1 ++ [i]) ++ length H :: S (length H) :: j :: l2) by (rewrite <- app_assoc; reflexivity).
      pose proof (i_nodup _ _ _ _ _ C) as ND. unfold chain in *. replace (l1 ++ i :: j :: l2) with ((l1 ++ [i]) ++ j :: l2) in * by (rewrite <- app_assoc; reflexivity).
      assert (ND2 : NoDup ((l1 ++ [i]) ++ S (length H) :: j :: l2)) by (apply nodup_insert; auto).
      apply nodup_insert; auto. intros K. apply in_app_iff in K. cbn [In] in K. rewrite in_app_iff in F1. cbn [In] in F1. destruct K as [K|[K|K]]; [tauto|lia|tauto].
    - destruct (i_left _ _ _ _ _ C) as (r & Q). exists r. now apply nth_grow.
    - destruct (i_right _ _ _ _ _ C) as (r & Q). exists r. now apply nth_grow.
    - intros x Hx N0 N1. destruct (IN x Hx) as [K|[->| ->]].
      + destruct (i_mid _ _ _ _ _ C x K N0 N1) as (n & r & k & Q1 & Q2). exists n, r, k. split; [now apply nth_grow|auto].
      + eauto.
      + eauto.
    - intros k Hk. apply in_app_iff in Hk. destruct Hk as [Hk|[<-|[]]].
      + destruct (i_sites _ _ _ _ _ C k Hk). split; now right.
      + rewrite Hc. unfold ks1, ks2. cbn. split; [right|now left]. eapply site_in; [exact C|exact Ii|auto].
    - intros k Hk. apply in_app_iff in Hk. destruct Hk as [Hk|[<-|[]]]; [now apply (i_made _ _ _ _ _ C)|].
      exists e. rewrite Hc. unfold ks1, ks2. cbn. auto.
    - right. apply (i_bottom _ _ _ _ _ C).
    - intros x [<-|Hx]; [exact Hn|now apply (i_num _ _ _ _ _ C)].
    - pose proof (i_adj _ _ _ _ _ C) as A.
      assert (A' : linked (shares E' H' (c_bottom c)) chain).
      { eapply linked_impl; [exact A|]. intros a b Ha Hb (t & T1 & T2). exists t. split; [eapply rsite_grow|eapply lsite_grow]; eauto. }
      pose proof (linked_at _ _ _ _ _ A') as (t & T1 & T2).
      assert (R' : rsite E' H' (c_bottom c) i = Some bot) by (eapply rsite_grow; eauto). assert (t = bot) by congruence. subst t.
      unfold chain in A'. rewrite linked_app in A'. destruct A' as [A1 A2]. rewrite linked_app. split; [exact A1|].
      cbn [linked] in A2 |- *. destruct A2 as [_ A2].
      assert (Lb1 : lsite E' H' (c_bottom c) (length H) = Some bot) by (unfold lsite; rewrite B1, K'; cbn [option_map kleft kright]; rewrite Hc; reflexivity).
      assert (Rb1 : rsite E' H' (c_bottom c) (length H) = Some s) by (unfold rsite; rewrite B1, K'; cbn [option_map kleft kright]; rewrite Hc; reflexivity).
      assert (Lb2 : lsite E' H' (c_bottom c) (S (length H)) = Some s) by (unfold lsite; rewrite B2, K'; cbn [option_map kleft]; rewrite Hc; reflexivity).
      assert (Rb2 : rsite E' H' (c_bottom c) (S (length H)) = Some bot) by (unfold rsite; rewrite B2, K'; cbn [option_map kright]; rewrite Hc; reflexivity).
      repeat split; try (exists bot; auto; fail); try (exists s; auto; fail); tauto.
  Qed.

  Definition gone (h : heref * bool) : heref * bool := (Deleted, snd h).
  Lemma cinv_circle c D E H l1 ll l r rr l2 bot top o s1 s2 e :
    cinv c D E H (l1 ++ ll :: l :: r :: rr :: l2) -> lsite E H (c_bottom c) l = Some bot -> rsite E H (c_bottom c) r = Some top ->
    (s1, s2) = (if o : bool then (top, bot) else (bot, top)) -> new_edge s1 s2 = Ok e -> ecore e = (ea e, eb e, ec e, s1, s2) ->
    cinv c D (E ++ [ecore e]) (upd r gone (upd l gone H) ++ [(OfEdge (length E), o)]) (l1 ++ ll :: length H :: rr :: l2).
  Proof.
    intros C L R So NE Hc. set (chain := l1 ++ ll :: l :: r :: rr :: l2) in *. set (G := upd r gone (upd l gone H)). set (H' := G ++ _). set (E' := E ++ _).
    assert (LG : length G = length H) by (unfold G; now rewrite !upd_length).
    pose proof (i_nodup _ _ _ _ _ C) as ND.
    assert (GE : forall n k, nth_error E n = Some k -> nth_error E' n = Some k) by (intros; apply nth_grow; auto).
    assert (GH : forall x, In x chain -> x <> l -> x <> r -> nth_error H' x = nth_error H x).
    { intros x Hx Nl Nr. destruct (cinv_in _ _ _ _ _ _ C Hx) as [Lx _]. unfold H'. rewrite nth_error_app1 by (rewrite LG; exact Lx).
      unfold G. rewrite !upd_nth. apply Nat.eqb_neq in Nl, Nr. now rewrite Nl, Nr. }
    assert (F1 : ~ In (length H) chain) by (intros K; destruct (cinv_in _ _ _ _ _ _ C K); lia).
    assert (B1 : nth_error H' (length H) = Some (OfEdge (length E), o)) by (unfold H'; rewrite nth_error_app2, LG, Nat.sub_diag by lia; reflexivity).
    assert (K' : nth_error E' (length E) = Some (ecore e)) by (unfold E'; rewrite nth_error_app2, Nat.sub_diag by lia; reflexivity).
    assert (Il : In l chain) by (apply in_or_app; right; right; now left).
    assert (Ir : In r chain) by (apply in_or_app; right; right; right; now left).
    assert (Ill : In ll chain) by (apply in_or_app; right; now left).
    assert (Irr : In rr chain) by (apply in_or_app; right; do 3 right; now left).
    assert (IN : forall x, In x (l1 ++ ll :: length H :: rr :: l2) -> (In x chain /\ x <> l /\ x <> r) \/ x = length H).
    { intros x Hx. destruct (Nat.eq_dec x (length H)) as [->|Nx]; [now right|left].
      unfold chain in ND |- *. clear - Hx Nx ND. assert (Ix : In x (l1 ++ ll :: rr :: l2)).
      { rewrite in_app_iff in Hx |- *. cbn [In] in Hx |- *. destruct Hx as [?|[?|[?|[?|?]]]]; auto. exfalso. auto. }
      replace (l1 ++ ll :: l :: r :: rr :: l2) with ((l1 ++ [ll]) ++ l :: r :: rr :: l2) in ND by (rewrite <- app_assoc; reflexivity).
      pose proof (NoDup_remove_2 _ _ _ ND) as U1. pose proof (NoDup_remove_1 _ _ _ ND) as ND2. pose proof (NoDup_remove_2 _ _ _ ND2) as U2. clear ND ND2.
      rewrite !in_app_iff in *. cbn [In] in *. split; [clear - Ix; tauto|]. split; intros ->; [clear - Ix U1|clear - Ix U2]; tauto. }
    assert (bl : l <> LEFTEND) by (eapply (not_first LEFTEND l1 ll l); [exact ND|apply (i_begins _ _ _ _ _ C)]).
    assert (br : r <> LEFTEND).
    { replace chain with ((l1 ++ [ll]) ++ l :: r :: rr :: l2) in * by (unfold chain; rewrite <- app_assoc; reflexivity).
      eapply (not_first LEFTEND (l1 ++ [ll]) l r); [exact ND|apply (i_begins _ _ _ _ _ C)]. }
    assert (el : l <> RIGHTEND).
    { replace chain with ((l1 ++ [ll]) ++ l :: r :: rr :: l2) in * by (unfold chain; rewrite <- app_assoc; reflexivity).
      eapply (not_last RIGHTEND (l1 ++ [ll]) l r); [exact ND|apply (i_ends _ _ _ _ _ C)]. }
    assert (er : r <> RIGHTEND).
    { replace chain with ((l1 ++ [ll; l]) ++ r :: rr :: l2) in * by (unfold chain; rewrite <- app_assoc; reflexivity).
      eapply (not_last RIGHTEND (l1 ++ [ll; l]) r rr); [exact ND|apply (i_ends _ _ _ _ _ C)]. }
    constructor.
    - unfold chain in *. eapply begins_app. apply (i_begins _ _ _ _ _ C).
    - destruct (ends_app RIGHTEND (l1 ++ [ll; l; r]) rr l2 (l1 ++ [ll; length H])) as (t & T).
      + rewrite <- app_assoc. apply (i_ends _ _ _ _ _ C).
      + exists t. rewrite <- T, <- app_assoc. reflexivity.
    - unfold chain in *. replace (l1 ++ ll :: l :: r :: rr :: l2) with ((l1 ++ [ll]) ++ l :: r :: rr :: l2) in * by (rewrite <- app_assoc; reflexivity).
      pose proof (NoDup_remove_1 _ _ _ (NoDup_remove_1 _ _ _ ND)) as ND2.
      replace (l1 ++ ll :: length H :: rr :: l2) with ((l1 ++ [ll]) ++ length H :: rr :: l2) by (rewrite <- app_assoc; reflexivity).
      apply nodup_insert; auto. intros K. apply F1. clear - K. rewrite in_app_iff in *. cbn [In] in *. rewrite in_app_iff in *. cbn [In] in *. tauto.
    - destruct (i_left _ _ _ _ _ C) as (r0 & Q). exists r0. rewrite GH; auto. destruct (i_begins _ _ _ _ _ C) as (t & T). rewrite T. now left.
    - destruct (i_right _ _ _ _ _ C) as (r0 & Q). exists r0. rewrite GH; auto. destruct (i_ends _ _ _ _ _ C) as (t & T). rewrite T. apply in_or_app. right. now left.
    - intros x Hx N0 N1. destruct (IN x Hx) as [(K & Kl & Kr)| ->].
      + destruct (i_mid _ _ _ _ _ C x K N0 N1) as (n & r0 & k & Q1 & Q2). exists n, r0, k. split; [now rewrite GH|auto].
      + eauto.
    - intros k Hk. apply in_app_iff in Hk. destruct Hk as [Hk|[<-|[]]]; [now apply (i_sites _ _ _ _ _ C)|].
      rewrite Hc. unfold ks1, ks2. cbn.
      assert (In bot D) by (apply (site_in _ _ _ _ _ _ _ C Il); auto). assert (In top D) by (apply (site_in _ _ _ _ _ _ _ C Ir); auto).
      destruct o; injection So as -> ->; auto.
    - intros k Hk. apply in_app_iff in Hk. destruct Hk as [Hk|[<-|[]]]; [now apply (i_made _ _ _ _ _ C)|].
      exists e. rewrite Hc. unfold ks1, ks2. cbn. auto.
    - apply (i_bottom _ _ _ _ _ C).
    - apply (i_num _ _ _ _ _ C).
    - pose proof (i_adj _ _ _ _ _ C) as A.
      assert (M : forall a b, In a chain /\ a <> l /\ a <> r -> In b chain /\ b <> l /\ b <> r -> shares E H (c_bottom c) a b -> shares E' H' (c_bottom c) a b).
      { intros a b (Ha & ? & ?) (Hb & ? & ?) (t & T1 & T2). exists t. split; [eapply rsite_grow|eapply lsite_grow]; eauto. }
      assert (Xll : In ll chain /\ ll <> l /\ ll <> r) by (destruct (IN ll) as [|Q]; [apply in_or_app; right; now left|auto|exfalso; apply F1; now rewrite <- Q]).
      assert (Xrr : In rr chain /\ rr <> l /\ rr <> r) by (destruct (IN rr) as [|Q]; [apply in_or_app; right; do 2 right; now left|auto|exfalso; apply F1; now rewrite <- Q]).
      unfold chain in A. pose proof (linked_at _ _ _ _ _ A) as (t & T1 & T2). assert (t = bot) by congruence. subst t.
      replace (l1 ++ ll :: l :: r :: rr :: l2) with ((l1 ++ [ll; l]) ++ r :: rr :: l2) in A by (rewrite <- app_assoc; reflexivity).
      pose proof (linked_at _ _ _ _ _ A) as (t & T3 & T4). assert (t = top) by congruence. subst t.
      rewrite <- app_assoc in A. cbn [app] in A. rewrite linked_app in A. destruct A as [A1 A2]. cbn [linked] in A2. destruct A2 as (_ & _ & _ & A2).
      rewrite linked_app. split.
      + eapply linked_impl; [exact A1|]. intros a b Ha Hb. apply M.
        * destruct (IN a) as [|Q]; auto; [clear - Ha; rewrite in_app_iff in *; cbn [In] in *; tauto|]. subst a. exfalso. apply F1. unfold chain. clear - Ha. rewrite in_app_iff in *. cbn [In] in *. tauto.
        * destruct (IN b) as [|Q]; auto; [clear - Hb; rewrite in_app_iff in *; cbn [In] in *; tauto|]. subst b. exfalso. apply F1. unfold chain. clear - Hb. rewrite in_app_iff in *. cbn [In] in *. tauto.
      + assert (Lb : lsite E' H' (c_bottom c) (length H) = Some bot) by (unfold lsite; rewrite B1, K'; cbn [option_map kleft kright]; rewrite Hc; destruct o; injection So as -> ->; reflexivity).
        assert (Rb : rsite E' H' (c_bottom c) (length H) = Some top) by (unfold rsite; rewrite B1, K'; cbn [option_map kleft kright]; rewrite Hc; destruct o; injection So as -> ->; reflexivity).
        assert (Rll : rsite E' H' (c_bottom c) ll = Some bot) by (eapply rsite_grow; eauto; apply GH; tauto).
        assert (Lrr : lsite E' H' (c_bottom c) rr = Some top) by (eapply lsite_grow; eauto; apply GH; tauto).
        assert (A3 : linked (shares E' H' (c_bottom c)) (rr :: l2)).
        { eapply linked_impl; [exact A2|]. intros a b Ha Hb. apply M.
          - destruct (IN a) as [|Q]; auto; [clear - Ha; rewrite in_app_iff in *; cbn [In] in *; tauto|]. subst a. exfalso. apply F1. unfold chain. clear - Ha. rewrite in_app_iff in *. cbn [In] in *. tauto.
          - destruct (IN b) as [|Q]; auto; [clear - Hb; rewrite in_app_iff in *; cbn [In] in *; tauto|]. subst b. exfalso. apply F1. unfold chain. clear - Hb. rewrite in_app_iff in *. cbn [In] in *. tauto. }
        cbn [linked] in A3 |- *. split; [exists bot; auto|]. split; [exists top; auto|]. exact A3.
  Qed.
End Inv.
