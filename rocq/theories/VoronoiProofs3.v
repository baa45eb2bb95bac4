(** * VoronoiProofs3: the invariant on whole states, through both kinds of events and the whole sweep (for every number type). *)
From Coq Require Import ZArith List Bool PeanoNat Lia Permutation.
From Verif Require Import Num Geom Voronoi VoronoiSpec VoronoiProofs VoronoiProofs2.
Import ListNotations.

Section Sweep.
  Context {N : NumOps}.
  Notation vsite := (vsite N). Notation vedge := (vedge N). Notation hedge := (hedge N). Notation vstate := (vstate N). Notation vconf := (vconf N).
  Notation kcore := (N * N * N * vsite * vsite)%type.
  Ltac inv_bind H := let a := fresh "x" in let E := fresh "E" in apply bind_ok in H; destruct H as (a & E & H).
  Notation ES st := (map ecore (v_edges st)).
  Notation HS st := (map hcore (v_hes st)).

  Definition kdual (k : kcore) : pt N * pt N := (site_pt (ks1 k), site_pt (ks2 k)).
  Definition kline (k : kcore) : N * N * N := fst (fst k).
  Lemma dual_kdual (st : vstate) : map dual (v_edges st) = map kdual (ES st).
  Proof. rewrite map_map. reflexivity. Qed.
  Definition out_ok (c : vconf) (E : list kcore) (V : list (pt N)) (o : vout N) : Prop :=
    (exists k, In k E /\ vo_line o = kline k /\ vo_dual o = if c_delaunay c then Some (kdual k) else None) /\
    (forall p, vo_p1 o = Some p \/ vo_p2 o = Some p -> In p V).
  Definition joined (E : list kcore) (a b : pt N) : Prop := In (a, b) (map kdual E) \/ In (b, a) (map kdual E).
  Definition tri_ok (E : list kcore) (t : pt N * pt N * pt N) : Prop :=
    let '(a, b, d) := t in joined E a b /\ joined E b d /\ joined E a d.
  Record Inv (c : vconf) (D : list vsite) (st : vstate) : Prop := {
    s_cinv : cinv c D (ES st) (HS st) (v_chain st);
    s_wait : waiting (crossed (ES st)) st;
    s_vert : Forall (crossed (ES st)) (v_verts st);
    s_out : Forall (out_ok c (ES st) (v_verts st)) (v_out st);
    s_cnt : S (length (v_edges st)) = (length D + length (v_verts st))%nat;
    s_tri : length (v_tris st) = if c_delaunay c then length (v_verts st) else 0%nat;
    s_sides : Forall (tri_ok (ES st)) (v_tris st);
    s_conn : forall s, In s D -> reach (map kdual (ES st)) (site_pt (c_bottom c)) (site_pt s) }.

  Lemma crossed_incl (E E' : list kcore) p : incl E E' -> crossed E p -> crossed E' p.
  Proof. intros I (k1 & k2 & r1 & r2 & A & B & R). exists k1, k2, r1, r2. auto. Qed.
  Lemma joined_incl E E' a b : incl E E' -> joined E a b -> joined E' a b.
  Proof. intros I [K|K]; [left|right]; eapply (incl_map kdual); eauto. Qed.
  Lemma tri_ok_incl E E' t : incl E E' -> tri_ok E t -> tri_ok E' t.
  Proof. intros I. destruct t as [[a b] d]. cbn. intros (A & B & K). repeat split; eapply joined_incl; eauto. Qed.
  Lemma out_ok_incl c E E' V V' o : incl E E' -> incl V V' -> out_ok c E V o -> out_ok c E' V' o.
  Proof. intros I J ((k & K & R) & Q). split; [exists k; auto|]. intros p Hp. auto. Qed.
  Lemma waiting_incl (Q Q' : pt N -> Prop) st : (forall p, Q p -> Q' p) -> waiting Q st -> waiting Q' st.
  Proof. intros I W h v Hh Hv. eauto. Qed.
  Lemma waiting_hes (Q : pt N -> Prop) st st' : v_hes st' = v_hes st -> waiting Q st -> waiting Q st'.
  Proof. unfold waiting. now intros ->. Qed.

  Lemma Inv_qsame c D st st' : qsame st st' -> Inv c D st -> waiting (crossed (ES st)) st' -> Inv c D st'.
  Proof.
    intros (A & B & C & V & O & X) [I1 I2 I3 I4 I5 I6 I7 I8] W. constructor; rewrite ?A, ?B, ?C, ?V, ?O, ?X; auto.
  Qed.

  Lemma new_edge_core s1 s2 (e : vedge) : new_edge s1 s2 = Ok e -> ecore e = (ea e, eb e, ec e, s1, s2).
  Proof.
    unfold new_edge. destruct (ltb _ _); intros H; inv_bind H; inv_bind H; injection H as <-; reflexivity.
  Qed.
  Lemma add_edge_spec c (st : vstate) n st' : add_edge c st n = Ok st' ->
    exists o e, nth_error (v_edges st) n = Some e /\ st' = with_out st (v_out st ++ [o]) /\ out_ok c (ES st) (v_verts st) o.
  Proof.
    unfold add_edge. intros H. inv_bind H. inv_bind H. inv_bind H. injection H as <-. apply fetch_ok in E.
    eexists _, x. split; [exact E|]. split; [reflexivity|]. split.
    - exists (ecore x). split; [apply in_map; eapply nth_error_In; eauto|]. auto.
    - cbn [vo_p1 vo_p2]. intros p [->| ->].
      + destruct (ep1 x); [|discriminate]. inv_bind E0. injection E0 as ->. apply fetch_ok in E2. eapply nth_error_In; eauto.
      + destruct (ep2 x); [|discriminate]. inv_bind E1. injection E1 as ->. apply fetch_ok in E2. eapply nth_error_In; eauto.
  Qed.
  (** what setting an end point leaves alone *)
  Definition esame (st st' : vstate) : Prop :=
    ES st' = ES st /\ v_hes st' = v_hes st /\ v_chain st' = v_chain st /\ v_verts st' = v_verts st /\ v_tris st' = v_tris st /\
    (forall c, Forall (out_ok c (ES st) (v_verts st)) (v_out st) -> Forall (out_ok c (ES st) (v_verts st)) (v_out st')).
  Lemma end_edge_same c (st : vstate) r right v st' : end_edge c st r right v = Ok st' ->
    ES st' = ES st /\ v_hes st' = v_hes st /\ v_chain st' = v_chain st /\ v_verts st' = v_verts st /\ v_tris st' = v_tris st /\
    (Forall (out_ok c (ES st) (v_verts st)) (v_out st) -> Forall (out_ok c (ES st) (v_verts st)) (v_out st')).
  Proof.
    unfold end_edge. destruct r as [| |n]; try discriminate. intros H. inv_bind H. apply fetch_ok in E.
    destruct (set_endpoint x right v) as [e' full] eqn:S.
    assert (C : ecore e' = ecore x) by (unfold set_endpoint in S; destruct right; injection S as <- _; reflexivity).
    assert (Q : map ecore (upd n (fun _ => e') (v_edges st)) = ES st) by (apply upd_map_same; intros y Hy; congruence).
    destruct full.
    - apply add_edge_spec in H. destruct H as (o & e & _ & -> & K). cbn [with_edges v_edges v_verts with_out v_out v_hes v_chain v_tris] in *.
      rewrite Q in K. repeat split; auto. intros F. apply Forall_app. auto.
    - injection H as <-. cbn [with_edges v_edges v_verts with_out v_out v_hes v_chain v_tris]. repeat split; auto.
  Qed.

  Lemma handle_site_inv c D st s st' : Inv c D st -> nth_error (c_in c) (vnum s) = Some (site_pt s) -> handle_site c st s = Ok st' ->
    Inv c (s :: D) st' /\ length (v_chain st') = (length (v_chain st) + 2)%nat.
  Proof.
    intros I Hn. unfold handle_site. intros H. inv_bind H. destruct x as [st1 l]. apply pop_leftbnd_same in E. destruct E as (S1 & Hh).
    apply (Inv_qsame _ _ _ _ S1) in I; [|eapply waiting_hes; [exact Hh|apply I]].
    assert (Lc : v_chain st1 = v_chain st) by apply S1. rewrite <- Lc. clear st S1 Hh Lc.
    inv_bind H. rename x into r. destruct (right_of_spec _ _ _ E) as (l1 & l2 & Ch & Nl). clear E.
    inv_bind H. rename x into bot. apply right_site_ok in E.
    inv_bind H. destruct x as [st2 n]. unfold add_bisector in E0. inv_bind E0. rename x into e. injection E0 as <- <-.
    set (st2 := with_edges st1 (v_edges st1 ++ [e])) in *.
    pose proof (new_edge_core _ _ _ E1) as Hc. pose proof (s_cinv _ _ _ I) as C. rewrite Ch in C.
    pose proof (cinv_site _ _ _ _ _ _ _ _ _ _ _ C E E1 Hn Hc) as C'. rewrite !map_length in C'.
    set (b1 := length (v_hes st1)) in *. set (n := length (v_edges st1)) in *.
    assert (INC : incl (ES st1) (ES st2)) by (unfold st2; cbn [with_edges v_edges]; rewrite map_app; apply incl_appl, incl_refl).
    assert (E2 : ES st2 = ES st1 ++ [ecore e]) by (unfold st2; cbn [with_edges v_edges]; now rewrite map_app).
    assert (I2 : In (ecore e) (ES st2)) by (rewrite E2; apply in_or_app; right; now left).
    unfold add_he at 1 in H. cbn [with_hes with_chain v_hes v_chain st2 with_edges] in H. fold b1 in H.
    inv_bind H. rename x into st4. match type of E0 with requeue _ ?s _ _ _ _ _ = _ => set (st3 := s) in * end.
    assert (Ch3 : v_chain st3 = l1 ++ l :: b1 :: r :: l2) by (unfold st3; cbn [with_chain v_chain]; rewrite Ch; apply insert_after_spec; auto).
    assert (H3 : HS st3 = HS st1 ++ [(OfEdge n, false)]) by (unfold st3; cbn [with_chain v_hes with_hes]; now rewrite map_app).
    assert (E3 : ES st3 = ES st2) by reflexivity.
    assert (W3 : waiting (crossed (ES st2)) st3).
    { intros h v Hi Hv. unfold st3 in Hi. cbn [with_chain v_hes with_hes] in Hi. apply in_app_iff in Hi. destruct Hi as [Hi|[<-|[]]]; [|discriminate].
      eapply crossed_incl; [exact INC|]. eapply (s_wait _ _ _ I); eauto. }
    assert (SH1 : shares (ES st3) (HS st3) (c_bottom c) l b1).
    { exists bot. split.
      - rewrite E3, E2, H3. eapply rsite_grow; [exact E|intros; apply nth_grow; auto|]. rewrite nth_error_app1; auto.
        assert (Il : In l (l1 ++ l :: r :: l2)) by (apply in_or_app; right; now left). apply (cinv_in _ _ _ _ _ _ C Il).
      - unfold lsite. rewrite E3, E2, H3. rewrite nth_error_app2 by (rewrite map_length; unfold b1; lia). rewrite map_length. unfold b1. rewrite Nat.sub_diag. cbn [nth_error].
        rewrite nth_error_app2 by (rewrite map_length; unfold n; lia). rewrite map_length. unfold n. rewrite Nat.sub_diag. cbn [nth_error option_map kleft]. rewrite Hc. reflexivity. }
    apply requeue_same in E0. destruct E0 as (S4 & W4).
    assert (W4' : waiting (crossed (ES st2)) st4).
    { apply W4; [exact W3|]. intros p Hp. exact (intersect_crossed st3 (c_bottom c) l b1 p Hp SH1). }
    destruct S4 as (A4 & B4 & C4 & V4 & O4 & X4).
    assert (L4 : length (v_hes st4) = S b1).
    { rewrite <- (map_length hcore), B4, H3, app_length, map_length. cbn. unfold b1. lia. }
    unfold add_he in H. rewrite L4 in H.
    match type of H with requeue _ ?s _ _ _ _ _ = _ => set (st5 := s) in * end.
    assert (E5 : v_edges st5 = v_edges st2) by (unfold st5; cbn [with_chain v_edges with_hes]; rewrite A4; reflexivity).
    assert (H5 : HS st5 = HS st1 ++ [(OfEdge n, false); (OfEdge n, true)]).
    { unfold st5. cbn [with_chain v_hes with_hes]. rewrite map_app, B4, H3, <- app_assoc. reflexivity. }
    assert (Ch5 : v_chain st5 = l1 ++ l :: b1 :: S b1 :: r :: l2).
    { unfold st5. cbn [with_chain v_chain with_hes]. rewrite C4, Ch3.
      replace (l1 ++ l :: b1 :: r :: l2) with ((l1 ++ [l]) ++ b1 :: r :: l2) by (rewrite <- app_assoc; reflexivity).
      rewrite insert_after_spec; [rewrite <- app_assoc; reflexivity|].
      intros K. assert (K' : In b1 (l1 ++ l :: r :: l2)) by (rewrite in_app_iff in *; cbn [In] in *; tauto).
      destruct (cinv_in _ _ _ _ _ _ C K') as [Lt _]. rewrite map_length in Lt. unfold b1 in Lt. lia. }
    assert (C5 : cinv c (s :: D) (ES st5) (HS st5) (v_chain st5)) by (rewrite E5, H5, Ch5, E2; exact C').
    assert (W5 : waiting (crossed (ES st2)) st5).
    { intros h v Hi Hv. unfold st5 in Hi. cbn [with_chain v_hes with_hes] in Hi. apply in_app_iff in Hi. destruct Hi as [Hi|[<-|[]]]; [|discriminate]. eauto. }
    assert (SH2 : shares (ES st5) (HS st5) (c_bottom c) (S b1) r).
    { pose proof (i_adj _ _ _ _ _ C5) as A. rewrite Ch5 in A.
      replace (l1 ++ l :: b1 :: S b1 :: r :: l2) with ((l1 ++ [l; b1]) ++ S b1 :: r :: l2) in A by (rewrite <- app_assoc; reflexivity).
      eapply linked_at; eauto. }
    assert (I5 : Inv c (s :: D) st5).
    { constructor.
      - exact C5.
      - rewrite E5. exact W5.
      - rewrite E5. change (v_verts st5) with (v_verts st4). rewrite V4. change (v_verts st3) with (v_verts st1).
        eapply Forall_impl; [|apply (s_vert _ _ _ I)]. intros p. now apply crossed_incl.
      - rewrite E5. change (v_verts st5) with (v_verts st4). change (v_out st5) with (v_out st4). rewrite V4, O4. change (v_verts st3) with (v_verts st1). change (v_out st3) with (v_out st1).
        eapply Forall_impl; [|apply (s_out _ _ _ I)]. intros o. apply out_ok_incl; auto. apply incl_refl.
      - rewrite E5. change (v_verts st5) with (v_verts st4). rewrite V4. change (v_verts st3) with (v_verts st1). unfold st2. cbn [with_edges v_edges]. rewrite app_length.
        pose proof (s_cnt _ _ _ I). cbn [length]. lia.
      - change (v_verts st5) with (v_verts st4). change (v_tris st5) with (v_tris st4). rewrite V4, X4. apply (s_tri _ _ _ I).
      - rewrite E5. change (v_tris st5) with (v_tris st4). rewrite X4. eapply Forall_impl; [|apply (s_sides _ _ _ I)]. intros t. now apply tri_ok_incl.
      - rewrite E5. assert (OLD : forall x, In x D -> reach (map kdual (ES st2)) (site_pt (c_bottom c)) (site_pt x)).
        { intros x Hx. eapply reach_incl; [apply incl_map; exact INC|]. now apply (s_conn _ _ _ I). }
        intros x [<-|Hx]; [|auto]. eapply reach_step; [apply (OLD bot)|].
        + eapply site_in; [exact C| |left; exact E]. apply in_or_app. right. now left.
        + left. replace (site_pt bot, site_pt s) with (kdual (ecore e)) by (rewrite Hc; reflexivity). now apply in_map. }
    apply requeue_same in H. destruct H as (S6 & W6). split.
    - eapply Inv_qsame; [exact S6|exact I5|]. apply W6; [apply I5|]. intros p Hp. exact (intersect_crossed st5 (c_bottom c) (S b1) r p Hp SH2).
    - destruct S6 as (_ & _ & C6 & _). rewrite C6, Ch5, Ch, !app_length. cbn [length]. lia.
  Qed.

  Lemma neighbours (chain : list nat) l ll r rr : NoDup chain -> left_of l chain = Ok ll -> right_of l chain = Ok r -> right_of r chain = Ok rr ->
    exists l1 l2, chain = l1 ++ ll :: l :: r :: rr :: l2.
  Proof.
    intros ND A B C. destruct (left_of_spec _ _ _ A) as (m1 & m2 & E1 & _). destruct (right_of_spec _ _ _ B) as (m3 & m4 & E2 & _).
    destruct (right_of_spec _ _ _ C) as (m5 & m6 & E3 & _).
    assert (X1 : m1 ++ [ll] = m3 /\ m2 = r :: m4).
    { apply (nodup_split _ _ _ _ l); [rewrite <- app_assoc; cbn [app]; now rewrite <- E1|]. rewrite <- app_assoc. cbn [app]. congruence. }
    destruct X1 as [X1 X2]. subst m2.
    assert (X2 : m1 ++ [ll; l] = m5 /\ m4 = rr :: m6).
    { apply (nodup_split _ _ _ _ r); [rewrite <- app_assoc; cbn [app]; now rewrite <- E1|]. rewrite <- app_assoc. cbn [app]. congruence. }
    destruct X2 as [_ ->]. exists m1, m6. exact E1.
  Qed.
  Lemma side_joined c D E H chain i a b : cinv c D E H chain -> In i chain -> i <> LEFTEND -> i <> RIGHTEND ->
    lsite E H (c_bottom c) i = Some a -> rsite E H (c_bottom c) i = Some b -> joined E (site_pt a) (site_pt b).
  Proof.
    intros C I N0 N1 A B. destruct (i_mid _ _ _ _ _ C i I N0 N1) as (n & r & k & Q1 & Q2). unfold lsite in A. unfold rsite in B. rewrite Q1, Q2 in A, B.
    cbn [option_map] in A, B. injection A as <-. injection B as <-. apply nth_error_In in Q2. destruct r; cbn [kleft kright]; [right|left]; change (In (kdual k) (map kdual E)); now apply in_map.
  Qed.
  Lemma joined_sym E a b : joined E a b -> joined E b a.
  Proof. intros [K|K]; [right|left]; exact K. Qed.

  Lemma handle_circle_inv c D st st' : Inv c D st -> handle_circle c st = Ok st' ->
    Inv c D st' /\ S (length (v_chain st')) = length (v_chain st).
  Proof.
    intros I. unfold handle_circle. intros H. inv_bind H. destruct x as [st1 l]. apply pop_min_same in E. destruct E as (S1 & Hh).
    apply (Inv_qsame _ _ _ _ S1) in I; [|eapply waiting_hes; [exact Hh|apply I]].
    assert (Lc : v_chain st1 = v_chain st) by apply S1. rewrite <- Lc. clear st S1 Hh Lc.
    inv_bind H. rename x into ll. inv_bind H. rename x into r. inv_bind H. rename x into rr.
    pose proof (s_cinv _ _ _ I) as C.
    destruct (neighbours _ _ _ _ _ (i_nodup _ _ _ _ _ C) E E0 E1) as (l1 & l2 & Ch). clear E E0 E1.
    inv_bind H. rename x into bot. inv_bind H. rename x into top. apply left_site_ok in E. apply right_site_ok in E0.
    destruct (if ltb (vy top) (vy bot) then (top, bot, true) else (bot, top, false)) as [[s1 s2] o] eqn:So.
    assert (So' : (s1, s2) = if o : bool then (top, bot) else (bot, top)) by (destruct (ltb _ _); injection So as <- <- <-; reflexivity).
    inv_bind H. rename x into st2. rename E1 into T2.
    inv_bind H. rename x into hl. inv_bind H. rename x into hr. inv_bind H. rename x into vertex.
    assert (M2 : v_edges st2 = v_edges st1 /\ v_hes st2 = v_hes st1 /\ v_chain st2 = v_chain st1 /\ v_verts st2 = v_verts st1 /\ v_out st2 = v_out st1).
    { destruct (c_delaunay c); [|injection T2 as <-; auto]. inv_bind T2. inv_bind T2. inv_bind T2. inv_bind T2. injection T2 as <-. cbn. auto. }
    destruct M2 as (M2e & M2h & M2c & M2v & M2o).
    inv_bind H. rename x into st3. rename E4 into K3. apply end_edge_same in K3. cbn [with_verts v_edges v_verts v_hes v_chain v_tris v_out] in K3.
    destruct K3 as (K3e & K3h & K3c & K3v & K3t & K3o).
    inv_bind H. rename x into st4. rename E4 into K4. apply end_edge_same in K4. destruct K4 as (K4e & K4h & K4c & K4v & K4t & K4o).
    inv_bind H. rename x into st5. rename E4 into K5. apply pq_delete_same in K5. destruct K5 as (S5 & W5).
    inv_bind H. destruct x as [st6 n]. unfold add_bisector in E4. inv_bind E4. rename x into e. injection E4 as <- <-. rename E5 into NE.
    pose proof (new_edge_core _ _ _ NE) as Hc. rewrite Ch in C.
    pose proof (cinv_circle _ _ _ _ _ _ _ _ _ _ _ _ _ _ _ _ C E E0 So' NE Hc) as C'. rewrite !map_length in C'.
    set (b := length (v_hes st1)) in *. set (n := length (v_edges st1)) in *.
    destruct S5 as (A5 & B5 & Ch5 & V5 & O5 & X5).
    unfold delete_he in *. cbn [with_chain with_hes v_edges v_hes v_chain v_verts v_out v_tris] in *.
    assert (H4 : v_hes st4 = v_hes st1) by congruence.
    assert (H5 : HS st5 = upd l gone (HS st1)).
    { rewrite B5, H4. apply map_upd. reflexivity. }
    assert (H6 : map hcore (upd r (fun h : hedge => HEdge Deleted (he_right h) (he_vertex h) (he_ystar h)) (v_hes st5)) = upd r gone (upd l gone (HS st1))).
    { rewrite <- H5. apply map_upd. reflexivity. }
    assert (Le : length (v_edges st5) = n).
    { rewrite A5. rewrite <- (map_length ecore), K4e, K3e, M2e, map_length. reflexivity. }
    assert (Lh : length (v_hes st5) = b).
    { rewrite <- (map_length hcore), H5, upd_length, map_length. reflexivity. }
    assert (E5 : ES st5 = ES st1) by (rewrite A5, K4e, K3e, M2e; reflexivity).
    rewrite Le in H. unfold add_he in H. cbn [with_edges with_chain with_hes v_edges v_hes v_chain v_verts v_out v_tris] in H. rewrite upd_length, Lh in H.
    inv_bind H. rename x into st7. rename E4 into K7. match type of K7 with end_edge _ ?s _ _ _ = _ => set (st6 := s) in * end.
    apply end_edge_same in K7. destruct K7 as (K7e & K7h & K7c & K7v & K7t & K7o).
    assert (E6 : ES st6 = ES st1 ++ [ecore e]).
    { unfold st6. cbn [with_edges with_chain with_hes v_edges]. rewrite map_app. cbn [map]. now rewrite E5. }
    assert (HH6 : HS st6 = upd r gone (upd l gone (HS st1)) ++ [(OfEdge n, o)]).
    { unfold st6. cbn [with_edges with_chain with_hes v_hes]. rewrite map_app, H6. reflexivity. }
    pose proof (i_nodup _ _ _ _ _ C) as ND.
    assert (Ch6 : v_chain st6 = l1 ++ ll :: b :: rr :: l2).
    { unfold st6. cbn [with_edges with_chain with_hes v_chain]. rewrite Ch5, K4c, K3c, M2c, Ch.
      replace (l1 ++ ll :: l :: r :: rr :: l2) with ((l1 ++ [ll]) ++ l :: r :: rr :: l2) in * by (rewrite <- app_assoc; reflexivity).
      rewrite unlink_spec by exact ND. apply NoDup_remove_1 in ND. rewrite unlink_spec by exact ND. apply NoDup_remove_1 in ND.
      rewrite <- app_assoc in *. cbn [app] in *. apply insert_after_spec. apply NoDup_remove_2 in ND. intros K. apply ND. apply in_or_app. now left. }
    assert (C6 : cinv c D (ES st6) (HS st6) (v_chain st6)) by (rewrite E6, HH6, Ch6; exact C').
    assert (INC : incl (ES st1) (ES st6)) by (rewrite E6; apply incl_appl, incl_refl).
    assert (V6 : v_verts st6 = v_verts st1 ++ [vertex]).
    { unfold st6. cbn [with_edges with_chain with_hes v_verts]. rewrite V5, K4v, K3v, M2v. reflexivity. }
    assert (W6 : waiting (crossed (ES st6)) st6).
    { assert (Wa : waiting (crossed (ES st6)) st5).
      { apply W5. intros h v Hi Hv. cbn [with_chain with_hes v_hes] in Hi. rewrite H4 in Hi.
        eapply crossed_incl; [exact INC|].
        destruct (in_upd _ _ _ _ Hi) as [Hj|(h0 & Hj & Q)]; [exact (s_wait _ _ _ I _ _ Hj Hv)|]. subst h. exact (s_wait _ _ _ I _ _ Hj Hv). }
      intros h v Hi Hv. unfold st6 in Hi. cbn [with_edges with_chain with_hes v_hes] in Hi. apply in_app_iff in Hi. destruct Hi as [Hi|[<-|[]]]; [|discriminate].
      destruct (in_upd _ _ _ _ Hi) as [Hj|(h0 & Hj & Q)]; [exact (Wa _ _ Hj Hv)|]. subst h. exact (Wa _ _ Hj Hv). }
    assert (CV : crossed (ES st6) vertex).
    { eapply crossed_incl; [exact INC|]. apply fetch_ok in E1. rewrite M2h in E1. apply nth_error_In in E1.
      destruct (he_vertex hl) eqn:Q; [|discriminate]. injection E3 as ->. exact (s_wait _ _ _ I _ _ E1 Q). }
    assert (bl : l <> LEFTEND) by (eapply (not_first LEFTEND l1 ll l); [exact ND|apply (i_begins _ _ _ _ _ C)]).
    assert (br : r <> LEFTEND).
    { pose proof (i_begins _ _ _ _ _ C) as B. replace (l1 ++ ll :: l :: r :: rr :: l2) with ((l1 ++ [ll]) ++ l :: r :: rr :: l2) in * by (rewrite <- app_assoc; reflexivity).
      eapply (not_first LEFTEND (l1 ++ [ll]) l r); [exact ND|exact B]. }
    assert (el : l <> RIGHTEND).
    { pose proof (i_ends _ _ _ _ _ C) as B. replace (l1 ++ ll :: l :: r :: rr :: l2) with ((l1 ++ [ll]) ++ l :: r :: rr :: l2) in * by (rewrite <- app_assoc; reflexivity).
      eapply (not_last RIGHTEND (l1 ++ [ll]) l r); [exact ND|exact B]. }
    assert (er : r <> RIGHTEND).
    { pose proof (i_ends _ _ _ _ _ C) as B. replace (l1 ++ ll :: l :: r :: rr :: l2) with ((l1 ++ [ll; l]) ++ r :: rr :: l2) in * by (rewrite <- app_assoc; reflexivity).
      eapply (not_last RIGHTEND (l1 ++ [ll; l]) r rr); [exact ND|exact B]. }
    assert (Il : In l (l1 ++ ll :: l :: r :: rr :: l2)) by (apply in_or_app; right; right; now left).
    assert (Ir : In r (l1 ++ ll :: l :: r :: rr :: l2)) by (apply in_or_app; right; right; right; now left).
    assert (TR : length (v_tris st2) = (if c_delaunay c then S (length (v_verts st1)) else 0%nat) /\ Forall (tri_ok (ES st6)) (v_tris st2)).
    { pose proof (s_tri _ _ _ I) as T0. pose proof (s_sides _ _ _ I) as T1.
      assert (T1' : Forall (tri_ok (ES st6)) (v_tris st1)) by (eapply Forall_impl; [|exact T1]; intros t; now apply tri_ok_incl).
      destruct (c_delaunay c); [|injection T2 as <-; auto].
      inv_bind T2. rename x into mid. apply right_site_ok in E4. inv_bind T2. inv_bind T2. inv_bind T2. injection T2 as <-. cbn [with_tris v_tris].
      apply fetch_ok in E7, E8, E9.
      assert (Sb : In bot D) by (apply (site_in _ _ _ _ _ _ _ C Il); auto). assert (St : In top D) by (apply (site_in _ _ _ _ _ _ _ C Ir); auto).
      assert (Sm : In mid D) by (apply (site_in _ _ _ _ _ _ _ C Il); auto).
      assert (Lr : lsite (ES st1) (HS st1) (c_bottom c) r = Some mid).
      { pose proof (i_adj _ _ _ _ _ C) as A. replace (l1 ++ ll :: l :: r :: rr :: l2) with ((l1 ++ [ll]) ++ l :: r :: rr :: l2) in A by (rewrite <- app_assoc; reflexivity).
        apply linked_at in A. destruct A as (t & A1 & A2). congruence. }
      assert (J1 : joined (ES st6) (site_pt bot) (site_pt mid)) by (eapply joined_incl; [exact INC|]; exact (side_joined _ _ _ _ _ _ _ _ C Il bl el E E4)).
      assert (J2 : joined (ES st6) (site_pt mid) (site_pt top)) by (eapply joined_incl; [exact INC|]; exact (side_joined _ _ _ _ _ _ _ _ C Ir br er Lr E0)).
      assert (J3 : joined (ES st6) (site_pt s1) (site_pt s2)).
      { left. rewrite E6, map_app. apply in_or_app. right. rewrite Hc. now left. }
      split; [rewrite app_length, T0; cbn [length]; lia|]. apply Forall_app. split; [exact T1'|]. constructor; [|constructor].
      rewrite (i_num _ _ _ _ _ C mid Sm) in E9. injection E9 as <-.
      destruct o; injection So' as -> ->.
      - rewrite (i_num _ _ _ _ _ C top St) in E7. rewrite (i_num _ _ _ _ _ C bot Sb) in E8. injection E7 as <-. injection E8 as <-. cbn. auto using joined_sym.
      - rewrite (i_num _ _ _ _ _ C bot Sb) in E7. rewrite (i_num _ _ _ _ _ C top St) in E8. injection E7 as <-. injection E8 as <-. cbn. auto using joined_sym. }
    destruct TR as [TR1 TR2].
    assert (OUT6 : Forall (out_ok c (ES st6) (v_verts st6)) (v_out st6)).
    { unfold st6. cbn [with_edges with_chain with_hes v_out v_verts]. rewrite O5, V5. fold st6.
      rewrite K4v, K3v. rewrite M2v, M2e in *. rewrite M2o in K3o.
      assert (F : Forall (out_ok c (ES st1) (v_verts st1 ++ [vertex])) (v_out st4)).
      { rewrite K3e, K3v in K4o. apply K4o. apply K3o. eapply Forall_impl; [|apply (s_out _ _ _ I)]. intros w. apply out_ok_incl; [apply incl_refl|apply incl_appl, incl_refl]. }
      eapply Forall_impl; [|exact F]. intros w. apply out_ok_incl; [exact INC|apply incl_refl]. }
    assert (T4 : v_tris st4 = v_tris st2) by congruence.
    assert (I7 : Inv c D st7).
    { constructor.
      - rewrite K7e, K7h, K7c. exact C6.
      - rewrite K7e. eapply waiting_hes; [exact K7h|exact W6].
      - rewrite K7e, K7v, V6. apply Forall_app. split; [|constructor; [exact CV|constructor]]. eapply Forall_impl; [|apply (s_vert _ _ _ I)]. intros p. now apply crossed_incl.
      - rewrite K7e, K7v. apply K7o. exact OUT6.
      - rewrite <- (map_length ecore), K7e, E6, K7v, V6, !app_length, map_length. pose proof (s_cnt _ _ _ I). cbn [length]. lia.
      - rewrite K7t, K7v, V6. unfold st6. cbn [with_edges with_chain with_hes v_tris]. rewrite X5, T4, TR1, app_length. cbn [length]. destruct (c_delaunay c); lia.
      - rewrite K7e, K7t. unfold st6 at 2. cbn [with_edges with_chain with_hes v_tris]. rewrite X5, T4. exact TR2.
      - rewrite K7e. intros s Hs. eapply reach_incl; [apply incl_map; exact INC|]. now apply (s_conn _ _ _ I). }
    pose proof (i_adj _ _ _ _ _ C6) as ADJ. rewrite Ch6 in ADJ.
    assert (SH1 : shares (ES st7) (HS st7) (c_bottom c) ll b) by (rewrite K7e, K7h; eapply linked_at; exact ADJ).
    assert (SH2 : shares (ES st7) (HS st7) (c_bottom c) b rr).
    { rewrite K7e, K7h. replace (l1 ++ ll :: b :: rr :: l2) with ((l1 ++ [ll]) ++ b :: rr :: l2) in ADJ by (rewrite <- app_assoc; reflexivity). eapply linked_at; exact ADJ. }
    inv_bind H. rename x into st8. apply requeue_same in E4. destruct E4 as (S8 & W8).
    assert (I8 : Inv c D st8).
    { eapply Inv_qsame; [exact S8|exact I7|]. apply W8; [apply I7|]. intros p Hp. exact (intersect_crossed st7 (c_bottom c) ll b p Hp SH1). }
    destruct S8 as (A8 & B8 & C8 & _).
    apply requeue_same in H. destruct H as (S9 & W9). split.
    - eapply Inv_qsame; [exact S9|exact I8|]. apply W9; [apply I8|]. intros p Hp. apply (intersect_crossed st8 (c_bottom c) b rr p Hp). rewrite A8, B8. exact SH2.
    - destruct S9 as (_ & _ & C9 & _). rewrite C9, C8, K7c, Ch6, Ch, !app_length. cbn [length]. lia.
  Qed.

  (** ** the sweep *)
  Lemma sweep_inv c : forall fuel sites D st st', Inv c D st -> (forall s, In s sites -> nth_error (c_in c) (vnum s) = Some (site_pt s)) ->
    sweep fuel c sites st = Ok st' -> Inv c (rev sites ++ D) st'.
  Proof.
    induction fuel as [|fuel IH]; cbn [sweep]; intros sites D st st' I Hs H; [discriminate|].
    inv_bind H. destruct x as [st1 m].
    assert (I1 : Inv c D st1).
    { destruct (Z.eqb _ _); [injection E as <- _; exact I|]. apply get_min_point_same in E. destruct E as (S & Q).
      eapply Inv_qsame; [exact S|exact I|]. eapply waiting_hes; [exact Q|apply I]. }
    destruct sites as [|s r].
    - destruct (Z.eqb _ _); [injection H as <-; exact I1|]. inv_bind H. apply (IH [] D x st'); auto. eapply (handle_circle_inv c D st1); eauto.
    - destruct (_ || _).
      + inv_bind H. cbn [rev]. rewrite <- app_assoc. cbn [app]. apply (IH r (s :: D) x st'); auto; [|intros; apply Hs; now right].
        eapply (handle_site_inv c D st1); eauto. apply Hs. now left.
      + inv_bind H. apply (IH (s :: r) D x st'); auto. eapply (handle_circle_inv c D st1); eauto.
  Qed.
  Lemma add_open_inv c D : forall l st st', Inv c D st -> add_open c st l = Ok st' -> Inv c D st' /\ v_chain st' = v_chain st /\ v_verts st' = v_verts st /\ v_edges st' = v_edges st /\ v_tris st' = v_tris st.
  Proof.
    induction l as [|i r IH]; cbn [add_open]; intros st st' I H; [discriminate|].
    destruct (Nat.eqb _ _); [injection H as <-; auto|]. inv_bind H. destruct (he_edge x); try discriminate. inv_bind H.
    apply add_edge_spec in E0. destruct E0 as (o & e & _ & -> & K).
    apply IH in H; [cbn in H; exact H|]. destruct I as [I1 I2 I3 I4 I5 I6 I7 I8]. constructor; auto. cbn. apply Forall_app. auto.
  Qed.
  Lemma start_inv c hs qs : c_in c <> [] -> nth_error (c_in c) (vnum (c_bottom c)) = Some (site_pt (c_bottom c)) -> Inv c [c_bottom c] (start hs qs).
  Proof.
    intros _ Hn. constructor.
    - constructor.
      + exists [RIGHTEND]. reflexivity.
      + exists [LEFTEND]. reflexivity.
      + cbn. repeat constructor; cbn; intuition discriminate.
      + exists false. reflexivity.
      + exists false. reflexivity.
      + cbn. intros i [<-|[<-|[]]]; congruence.
      + cbn. tauto.
      + cbn. tauto.
      + now left.
      + intros s [<-|[]]. exact Hn.
      + cbn. repeat split. exists (c_bottom c). auto.
    - intros h v Hi Hv. cbn in Hi. destruct Hi as [<-|[<-|[]]]; discriminate.
    - constructor.
    - constructor.
    - reflexivity.
    - cbn. destruct (c_delaunay c); reflexivity.
    - constructor.
    - intros s [<-|[]]. constructor.
  Qed.
  Lemma insert_site_perm (s : vsite) l : Permutation (insert_site s l) (s :: l).
  Proof.
    induction l as [|t r IH]; cbn; [auto|]. destruct (key_lt t s); [|auto]. rewrite IH. apply perm_swap.
  Qed.
  Lemma site_list_perm (l : list (pt N)) : Permutation (site_list l) (number 0 l).
  Proof.
    unfold site_list. induction (number 0 l) as [|s r IH]; cbn; [auto|]. rewrite insert_site_perm. now constructor.
  Qed.
  Lemma number_spec (l : list (pt N)) : forall i s, In s (number i l) -> exists j, vnum s = (i + j)%nat /\ nth_error l j = Some (site_pt s).
  Proof.
    induction l as [|p r IH]; cbn; intros i s []; [subst s|].
    - exists 0%nat. cbn. split; [lia|]. destruct p. reflexivity.
    - destruct (IH _ _ H) as (j & A & B). exists (S j). cbn. split; [lia|exact B].
  Qed.
  Lemma number_pts (l : list (pt N)) : forall i, map site_pt (number i l) = l.
  Proof. induction l as [|p r IH]; cbn; intros i; [auto|]. f_equal; [destruct p; reflexivity|auto]. Qed.

  (** what the finished sweep satisfies *)
  Theorem compute_inv delaunay pts st : compute_voronoi delaunay pts = Ok st ->
    exists c D, c_in c = pts /\ c_delaunay c = delaunay /\ Inv c D st /\ Permutation (map site_pt D) pts.
  Proof.
    unfold compute_voronoi. destruct pts as [|p pts']; [discriminate|]. set (pts := p :: pts') in *.
    destruct (site_list pts) as [|bottom sites] eqn:SL; [discriminate|]. intros H. inv_bind H.
    match type of E with sweep _ ?c _ _ = _ => set (c0 := c) in * end.
    pose proof (site_list_perm pts) as PM. rewrite SL in PM.
    assert (NUM : forall s, In s (bottom :: sites) -> nth_error pts (vnum s) = Some (site_pt s)).
    { intros s Hs. apply (Permutation_in _ PM) in Hs. destruct (number_spec _ _ _ Hs) as (j & A & B). rewrite A. exact B. }
    assert (I0 : Inv c0 [bottom] (start (c_hashsize c0) (c_qsize c0))).
    { apply (start_inv c0); [discriminate|]. apply NUM. now left. }
    apply (sweep_inv c0) with (D := [bottom]) in E; [|exact I0|intros s Hs; apply NUM; now right].
    apply (add_open_inv c0 _ _ _ _ E) in H. destruct H as (I & _). exists c0, (rev sites ++ [bottom]). split; [reflexivity|]. split; [reflexivity|]. split; [exact I|].
    transitivity (map site_pt (number 0 pts)); [|rewrite number_pts; reflexivity]. apply Permutation_map. rewrite <- PM. rewrite Permutation_app_comm. cbn. constructor. symmetry. apply Permutation_rev.
  Qed.
End Sweep.
