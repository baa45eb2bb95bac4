(** * VoronoiProofs4: how often every edge is reported, and that the sweep ends (for every number type). *)
From Coq Require Import ZArith List Bool PeanoNat Lia Permutation.
From Verif Require Import Num Geom Voronoi VoronoiProofs VoronoiProofs2 VoronoiProofs3.
Import ListNotations.

Section Reports.
  Context {N : NumOps}.
  Notation vsite := (vsite N). Notation vedge := (vedge N). Notation hedge := (hedge N). Notation vstate := (vstate N). Notation vconf := (vconf N).
  Notation kcore := (N * N * N * vsite * vsite)%type.
  Ltac inv_bind H := let a := fresh "x" in let E := fresh "E" in apply bind_ok in H; destruct H as (a & E & H).
  Notation ES st := (map ecore (v_edges st)).
  Notation HS st := (map hcore (v_hes st)).

  Definition ep (r : bool) (e : vedge) : option nat := if r then ep2 e else ep1 e.
  Definition ended (e : vedge) : bool := match ep1 e, ep2 e with Some _, Some _ => true | _, _ => false end.
  Fixpoint opens (i : nat) (l : list vedge) : list (nat * bool) :=
    match l with
    | [] => []
    | e :: r => (match ep1 e with None => [(i, false)] | _ => [] end) ++ (match ep2 e with None => [(i, true)] | _ => [] end) ++ opens (S i) r
    end.
  Definition tags (H : list (heref * bool)) (chain : list nat) : list (nat * bool) :=
    flat_map (fun i => match nth_error H i with Some (OfEdge n, r) => [(n, r)] | _ => [] end) chain.
  Definition corner (V : list (pt N)) (o : option nat) : option (pt N) := match o with Some v => nth_error V v | None => None end.
  Definition report (d : bool) (V : list (pt N)) (e : vedge) : vout N :=
    VOut (corner V (ep1 e)) (corner V (ep2 e)) (ea e, eb e, ec e) (if d then Some (dual e) else None).
  Definition valid (V : list (pt N)) (e : vedge) : Prop := forall r v, ep r e = Some v -> (v < length V)%nat.
  Record Rep (d : bool) (st : vstate) : Prop := {
    r_tags : Permutation (tags (HS st) (v_chain st)) (opens 0 (v_edges st));
    r_out : Permutation (v_out st) (map (report d (v_verts st)) (filter ended (v_edges st)));
    r_valid : Forall (valid (v_verts st)) (v_edges st) }.

  Lemma Rep_qsame d st st' : qsame st st' -> Rep d st -> Rep d st'.
  Proof. intros (A & B & C & V & O & X) [R1 R2 R3]. constructor; rewrite ?A, ?B, ?C, ?V, ?O; auto. Qed.
  Lemma opens_app l : forall i m, opens i (l ++ m) = opens i l ++ opens (i + length l) m.
  Proof.
    induction l as [|e r IH]; cbn; intros i m; [now rewrite Nat.add_0_r|]. rewrite IH, <- !app_assoc. do 4 f_equal. lia.
  Qed.
  Lemma opens_in l : forall i n r, In (n, r) (opens i l) -> (i <= n)%nat /\ exists e, nth_error l (n - i) = Some e /\ ep r e = None.
  Proof.
    induction l as [|e l IH]; cbn; intros i n r H; [tauto|]. rewrite !in_app_iff in H.
    destruct H as [H|[H|H]].
    - destruct (ep1 e) eqn:Q; cbn in H; [tauto|]. destruct H as [[= <- <-]|[]]. split; [lia|]. rewrite Nat.sub_diag. exists e. auto.
    - destruct (ep2 e) eqn:Q; cbn in H; [tauto|]. destruct H as [[= <- <-]|[]]. split; [lia|]. rewrite Nat.sub_diag. exists e. auto.
    - destruct (IH _ _ _ H) as (A & f & B & C). split; [lia|]. exists f. split; [|exact C]. replace (n - i)%nat with (S (n - S i)) by lia. exact B.
  Qed.
  Lemma opens_upd l : forall i j r v (e e' : vedge) f, nth_error l j = Some e -> ep r e = None -> set_endpoint e r v = (e', f) ->
    Permutation (opens i l) ((i + j, r)%nat :: opens i (upd j (fun _ => e') l)).
  Proof.
    induction l as [|a l IH]; intros i [|j] r v e e' f Hn Hr Hs; cbn in Hn; try discriminate.
    - injection Hn as ->. cbn [upd opens]. rewrite Nat.add_0_r. destruct r; cbn [ep] in Hr; unfold set_endpoint in Hs; injection Hs as <- _; cbn [ep1 ep2]; rewrite Hr; cbn [app]; [|auto].
      symmetry. apply (Permutation_middle (match ep1 e with Some _ => [] | None => [(i, false)] end)).
    - cbn [upd opens]. rewrite (IH (S i) j r v e e' f Hn Hr Hs). replace (i + S j)%nat with (S i + j)%nat by lia.
      rewrite !app_assoc. symmetry. apply Permutation_middle.
  Qed.
  Lemma ended_upd l : forall j r v (e e' : vedge) f, nth_error l j = Some e -> ep r e = None -> set_endpoint e r v = (e', f) ->
    f = ended e' /\ Permutation (filter ended (upd j (fun _ => e') l)) ((if f then [e'] else []) ++ filter ended l).
  Proof.
    intros j r v e e' f Hn Hr Hs.
    assert (F : f = ended e') by (unfold set_endpoint in Hs; destruct r; injection Hs as <- <-; unfold ended; cbn; destruct (ep1 e), (ep2 e); reflexivity).
    assert (G : ended e = false) by (unfold ended; destruct r; cbn in Hr; rewrite Hr; [destruct (ep1 e)|]; reflexivity).
    split; [exact F|]. subst f. clear Hr Hs. revert j Hn. induction l as [|a l IH]; intros [|j] Hn; cbn in Hn; try discriminate.
    - injection Hn as ->. cbn. rewrite G. destruct (ended e'); reflexivity.
    - cbn. specialize (IH _ Hn). destruct (ended a); [|exact IH]. rewrite IH. destruct (ended e'); [apply perm_swap|reflexivity].
  Qed.
  Lemma add_edge_report c (st : vstate) n st' : add_edge c st n = Ok st' ->
    exists e, nth_error (v_edges st) n = Some e /\ st' = with_out st (v_out st ++ [report (c_delaunay c) (v_verts st) e]).
  Proof.
    unfold add_edge. intros H. inv_bind H. inv_bind H. inv_bind H. injection H as <-. apply fetch_ok in E. exists x. split; [exact E|].
    unfold report. do 4 f_equal.
    - destruct (ep1 x); cbn [corner]; [inv_bind E0; injection E0 as <-; apply fetch_ok in E2; now rewrite E2|injection E0 as <-; reflexivity].
    - destruct (ep2 x); cbn [corner]; [inv_bind E1; injection E1 as <-; apply fetch_ok in E2; now rewrite E2|injection E1 as <-; reflexivity].
  Qed.
  Lemma end_edge_report c (st : vstate) n r v st' T : end_edge c st (OfEdge n) r v = Ok st' -> (v < length (v_verts st))%nat ->
    Permutation (v_out st) (map (report (c_delaunay c) (v_verts st)) (filter ended (v_edges st))) -> Forall (valid (v_verts st)) (v_edges st) ->
    Permutation (opens 0 (v_edges st)) ((n, r) :: T) ->
    Permutation (v_out st') (map (report (c_delaunay c) (v_verts st)) (filter ended (v_edges st'))) /\ Forall (valid (v_verts st)) (v_edges st') /\ Permutation (opens 0 (v_edges st')) T.
  Proof.
    unfold end_edge. intros H Hv Ho Hva Ht. inv_bind H. apply fetch_ok in E. rename x into e.
    assert (Hr : ep r e = None).
    { assert (K : In (n, r) (opens 0 (v_edges st))) by (rewrite Ht; now left). destruct (opens_in _ _ _ _ K) as (_ & f & A & B). rewrite Nat.sub_0_r in A. congruence. }
    destruct (set_endpoint e r v) as [e' full] eqn:S.
    destruct (ended_upd _ _ _ _ _ _ _ E Hr S) as (Fe & Pf). pose proof (opens_upd _ 0 _ _ _ _ _ _ E Hr S) as Po. cbn [Nat.add] in Po.
    assert (Po' : Permutation (opens 0 (upd n (fun _ => e') (v_edges st))) T).
    { rewrite Po in Ht. apply Permutation_cons_inv in Ht. exact Ht. }
    assert (Va : Forall (valid (v_verts st)) (upd n (fun _ => e') (v_edges st))).
    { apply Forall_forall. intros x Hx. rewrite Forall_forall in Hva. destruct (in_upd _ _ _ _ Hx) as [K|(y & K & ->)]; [now apply Hva|].
      apply nth_error_In in E. specialize (Hva e E). intros r' w Hw. unfold set_endpoint in S.
      destruct r; injection S as <- _; destruct r'; cbn in Hw; try (injection Hw as <-; exact Hv); first [exact (Hva true w Hw)|exact (Hva false w Hw)]. }
    destruct full.
    - apply add_edge_report in H. destruct H as (e2 & En & ->). cbn [with_edges with_out v_edges v_out v_verts] in *.
      assert (e2 = e') by (rewrite upd_nth, Nat.eqb_refl, E in En; cbn in En; congruence). subst e2.
      split; [|auto]. rewrite Pf. cbn [app map]. rewrite Ho. symmetry. apply Permutation_cons_append.
    - injection H as <-. cbn [with_edges v_edges v_out]. split; [|auto]. rewrite Pf. exact Ho.
  Qed.
  Lemma report_grow d V W e : valid V e -> report d (V ++ W) e = report d V e.
  Proof.
    intros H. unfold report. f_equal.
    - specialize (H false). cbn in H. destruct (ep1 e); cbn [corner]; [|reflexivity]. apply nth_error_app1. auto.
    - specialize (H true). cbn in H. destruct (ep2 e); cbn [corner]; [|reflexivity]. apply nth_error_app1. auto.
  Qed.
  Lemma valid_grow V W e : valid V e -> valid (V ++ W) e.
  Proof. intros H r v Hv. rewrite app_length. specialize (H r v Hv). lia. Qed.
  Lemma tags_app H l m : tags H (l ++ m) = tags H l ++ tags H m.
  Proof. apply flat_map_app. Qed.
  Lemma tags_same H H' l : (forall i, In i l -> nth_error H' i = nth_error H i) -> tags H' l = tags H l.
  Proof. intros F. unfold tags. induction l as [|x l IH]; cbn [flat_map]; [reflexivity|]. rewrite (F x) by now left. rewrite IH; [reflexivity|]. intros. apply F. now right. Qed.
  Lemma new_edge_open s1 s2 (e : vedge) : new_edge s1 s2 = Ok e -> ep1 e = None /\ ep2 e = None.
  Proof. unfold new_edge. destruct (ltb _ _); intros H; inv_bind H; inv_bind H; injection H as <-; auto. Qed.

  Lemma handle_site_rep c D st s st' : Inv c D st -> Rep (c_delaunay c) st -> handle_site c st s = Ok st' -> Rep (c_delaunay c) st'.
  Proof.
    intros I Re. unfold handle_site. intros H. inv_bind H. destruct x as [st1 l]. apply pop_leftbnd_same in E. destruct E as (S1 & Hh).
    apply (Inv_qsame _ _ _ _ S1) in I; [|eapply waiting_hes; [exact Hh|apply I]]. apply (Rep_qsame _ _ _ S1) in Re. clear st S1 Hh.
    inv_bind H. rename x into r. destruct (right_of_spec _ _ _ E) as (l1 & l2 & Ch & Nl). clear E.
    inv_bind H. rename x into bot. apply right_site_ok in E.
    inv_bind H. destruct x as [st2 n]. unfold add_bisector in E0. inv_bind E0. rename x into e. injection E0 as <- <-.
    set (n := length (v_edges st1)) in *. pose proof (s_cinv _ _ _ I) as C. rewrite Ch in C.
    set (b1 := length (v_hes st1)) in *.
    unfold add_he at 1 in H. cbn [with_hes with_chain v_hes v_chain with_edges] in H. fold b1 in H.
    inv_bind H. rename x into st4. match type of E0 with requeue _ ?s _ _ _ _ _ = _ => set (st3 := s) in * end.
    assert (Ch3 : v_chain st3 = l1 ++ l :: b1 :: r :: l2) by (unfold st3; cbn [with_chain v_chain]; rewrite Ch; apply insert_after_spec; auto).
    assert (H3 : HS st3 = HS st1 ++ [(OfEdge n, false)]) by (unfold st3; cbn [with_chain v_hes with_hes]; now rewrite map_app).
    apply requeue_same in E0. destruct E0 as ((A4 & B4 & C4 & V4 & O4 & X4) & _).
    assert (L4 : length (v_hes st4) = S b1).
    { rewrite <- (map_length hcore), B4, H3, app_length, map_length. cbn. unfold b1. lia. }
    unfold add_he in H. rewrite L4 in H. apply requeue_same in H. destruct H as (S6 & _). eapply Rep_qsame; [exact S6|]. clear S6.
    assert (FR : forall x, In x (l1 ++ l :: r :: l2) -> (x < length (HS st1))%nat) by (intros x Hx; apply (cinv_in _ _ _ _ _ _ C Hx)).
    rewrite map_length in FR. fold b1 in FR.
    assert (Ch5 : insert_after b1 (S b1) (v_chain st4) = l1 ++ l :: b1 :: S b1 :: r :: l2).
    { rewrite C4, Ch3. replace (l1 ++ l :: b1 :: r :: l2) with ((l1 ++ [l]) ++ b1 :: r :: l2) by (rewrite <- app_assoc; reflexivity).
      rewrite insert_after_spec; [rewrite <- app_assoc; reflexivity|].
      intros K. assert (K' : In b1 (l1 ++ l :: r :: l2)) by (rewrite in_app_iff in *; cbn [In] in *; tauto). specialize (FR _ K'). lia. }
    destruct (new_edge_open _ _ _ E1) as (N1 & N2). destruct Re as [R1 R2 R3].
    constructor; cbn [with_chain with_hes v_hes v_chain v_edges v_verts v_out]; rewrite ?A4, ?V4, ?O4; cbn [st3 with_chain with_hes with_edges v_hes v_chain v_edges v_verts v_out].
    - rewrite Ch5, map_app, B4, H3, opens_app. cbn [map hcore he_edge he_right opens]. rewrite N1, N2. cbn [app Nat.add]. fold n.
      match goal with |- Permutation (tags ?h _) _ => change h with ((HS st1 ++ [(OfEdge n, false)]) ++ [(OfEdge n, true)]) end.
      set (H' := (HS st1 ++ [(OfEdge n, false)]) ++ [(OfEdge n, true)]).
      assert (LH : length (HS st1) = b1) by apply map_length.
      assert (T : tags H' (l1 ++ l :: r :: l2) = tags (HS st1) (v_chain st1)).
      { rewrite Ch. apply tags_same. intros x Hx. unfold H'. rewrite <- app_assoc. apply nth_error_app1. rewrite LH. auto. }
      replace (l1 ++ l :: b1 :: S b1 :: r :: l2) with ((l1 ++ [l]) ++ [b1; S b1] ++ r :: l2) by (rewrite <- app_assoc; reflexivity).
      replace (l1 ++ l :: r :: l2) with ((l1 ++ [l]) ++ r :: l2) in T by (rewrite <- app_assoc; reflexivity).
      rewrite (tags_app H' (l1 ++ [l])) in T. rewrite (tags_app H' (l1 ++ [l])), (tags_app H' [b1; S b1]).
      assert (Tb : tags H' [b1; S b1] = [(n, false); (n, true)]).
      { unfold tags, H'. cbn [flat_map]. rewrite <- app_assoc, (nth_error_app2 _ _ (n := b1)), (nth_error_app2 _ _ (n := S b1)) by lia. rewrite LH, Nat.sub_diag. replace (S b1 - b1)%nat with 1%nat by lia. reflexivity. }
      rewrite Tb, <- R1, <- T. rewrite <- app_assoc. apply Permutation_app_head. apply Permutation_app_comm.
    - rewrite filter_app, map_app. cbn [filter ended]. unfold ended at 2. rewrite N1. cbn [map]. rewrite app_nil_r. exact R2.
    - apply Forall_app. split; [exact R3|]. constructor; [|constructor]. intros r' v Hv. destruct r'; cbn in Hv; congruence.
  Qed.

  Lemma handle_circle_rep c D st st' : Inv c D st -> Rep (c_delaunay c) st -> handle_circle c st = Ok st' -> Rep (c_delaunay c) st'.
  Proof.
    intros I Re. unfold handle_circle. intros H. inv_bind H. destruct x as [st1 l]. apply pop_min_same in E. destruct E as (S1 & Hh).
    apply (Inv_qsame _ _ _ _ S1) in I; [|eapply waiting_hes; [exact Hh|apply I]]. apply (Rep_qsame _ _ _ S1) in Re. clear st S1 Hh.
    inv_bind H. rename x into ll. inv_bind H. rename x into r. inv_bind H. rename x into rr.
    pose proof (s_cinv _ _ _ I) as C.
    destruct (neighbours _ _ _ _ _ (i_nodup _ _ _ _ _ C) E E0 E1) as (l1 & l2 & Ch). clear E E0 E1.
    inv_bind H. rename x into bot. inv_bind H. rename x into top. clear E E0.
    destruct (if ltb (vy top) (vy bot) then (top, bot, true) else (bot, top, false)) as [[s1 s2] o] eqn:So. clear So.
    inv_bind H. rename x into st2. rename E into T2.
    inv_bind H. rename x into hl. inv_bind H. rename x into hr. inv_bind H. rename x into vertex.
    assert (M2 : v_edges st2 = v_edges st1 /\ v_hes st2 = v_hes st1 /\ v_chain st2 = v_chain st1 /\ v_verts st2 = v_verts st1 /\ v_out st2 = v_out st1).
    { destruct (c_delaunay c); [|injection T2 as <-; auto]. inv_bind T2. inv_bind T2. inv_bind T2. inv_bind T2. injection T2 as <-. cbn. auto. }
    clear T2. destruct M2 as (M2e & M2h & M2c & M2v & M2o).
    apply fetch_ok in E, E0. rewrite M2h in E, E0. rewrite M2v in H. clear E1.
    rewrite Ch in C. pose proof (i_nodup _ _ _ _ _ C) as ND.
    destruct Re as [R1 R2 R3]. rewrite Ch in R1.
    (* the ends of the two half edges *)
    inv_bind H. rename x into st3. rename E1 into K3. inv_bind H. rename x into st4. rename E1 into K4.
    pose proof (end_edge_same _ _ _ _ _ _ K3) as (K3e & K3h & K3c & K3v & _). pose proof (end_edge_same _ _ _ _ _ _ K4) as (K4e & K4h & K4c & K4v & _).
    cbn [with_verts v_edges v_verts v_hes v_chain] in K3e, K3h, K3c, K3v.
    destruct (he_edge hl) as [| |nl] eqn:Hl; try (cbn in K3; discriminate). destruct (he_edge hr) as [| |nr] eqn:Hr; try (cbn in K4; discriminate).
    set (T := tags (HS st1) (l1 ++ [ll]) ++ tags (HS st1) (rr :: l2)).
    assert (R1' : Permutation (opens 0 (v_edges st1)) ((nl, he_right hl) :: (nr, he_right hr) :: T)).
    { rewrite <- R1. replace (l1 ++ ll :: l :: r :: rr :: l2) with ((l1 ++ [ll]) ++ [l; r] ++ rr :: l2) by (rewrite <- app_assoc; reflexivity).
      rewrite (tags_app _ (l1 ++ [ll])), (tags_app _ [l; r]). assert (Q : tags (HS st1) [l; r] = [(nl, he_right hl); (nr, he_right hr)]).
      { unfold tags. cbn [flat_map]. rewrite !nth_error_map, E, E0. cbn [option_map]. unfold hcore. rewrite Hl, Hr. reflexivity. }
      rewrite Q. cbn [app]. unfold T. generalize (tags (HS st1) (l1 ++ [ll])) (tags (HS st1) (rr :: l2)). intros u w.
      etransitivity; [symmetry; apply (Permutation_middle u ((nr, he_right hr) :: w))|]. constructor. symmetry. apply Permutation_middle. }
    set (V := v_verts st1 ++ [vertex]) in *.
    pose proof (end_edge_report _ _ _ _ _ _ ((nr, he_right hr) :: T) K3) as K3'. cbn [with_verts v_edges v_verts v_out] in K3'. rewrite M2e, M2o in K3'.
    assert (LV : (length (v_verts st1) < length V)%nat) by (unfold V; rewrite app_length; cbn; lia).
    destruct K3' as (P3 & V3 & T3); auto.
    { rewrite R2. apply Permutation_refl'. apply map_ext_in. intros x Hx. symmetry. apply report_grow. apply filter_In in Hx. rewrite Forall_forall in R3. apply R3. apply Hx. }
    { eapply Forall_impl; [|exact R3]. intros x. apply valid_grow. }
    clear K3.
    rewrite <- K3v in P3, V3.
    apply (end_edge_report _ _ _ _ _ _ T) in K4; auto. 2:{ now rewrite K3v. }
    destruct K4 as (P4 & V4 & T4). rewrite <- K4v in P4, V4. rewrite K3v in K4v.
    (* deletions *)
    inv_bind H. rename x into st5. rename E1 into K5. apply pq_delete_same in K5. destruct K5 as ((A5 & B5 & Ch5 & V5 & O5 & X5) & _).
    inv_bind H. destruct x as [st6 n]. unfold add_bisector in E1. inv_bind E1. rename x into e. injection E1 as <- <-. rename E2 into NE.
    set (b := length (v_hes st1)) in *.
    unfold delete_he in *. cbn [with_chain with_hes v_edges v_hes v_chain v_verts v_out] in *.
    assert (H4 : v_hes st4 = v_hes st1) by congruence.
    assert (H5 : HS st5 = upd l gone (HS st1)) by (rewrite B5, H4; apply map_upd; reflexivity).
    assert (H6 : map hcore (upd r (fun h : hedge => HEdge Deleted (he_right h) (he_vertex h) (he_ystar h)) (v_hes st5)) = upd r gone (upd l gone (HS st1))) by (rewrite <- H5; apply map_upd; reflexivity).
    assert (Lh : length (v_hes st5) = b) by (rewrite <- (map_length hcore), H5, upd_length, map_length; reflexivity).
    unfold add_he in H. cbn [with_edges with_chain with_hes v_edges v_hes v_chain v_verts v_out v_tris] in H. rewrite upd_length, Lh in H.
    set (n := length (v_edges st5)) in *.
    inv_bind H. rename x into st7. rename E1 into K7. match type of K7 with end_edge _ ?s _ _ _ = _ => set (st6 := s) in * end.
    pose proof (end_edge_same _ _ _ _ _ _ K7) as (K7e & K7h & K7c & K7v & _).
    assert (Ch6 : v_chain st6 = l1 ++ ll :: b :: rr :: l2).
    { unfold st6. cbn [with_edges with_chain with_hes v_chain]. rewrite Ch5, K4c, K3c, M2c, Ch.
      replace (l1 ++ ll :: l :: r :: rr :: l2) with ((l1 ++ [ll]) ++ l :: r :: rr :: l2) in * by (rewrite <- app_assoc; reflexivity).
      clear - ND. rewrite unlink_spec by exact ND. apply NoDup_remove_1 in ND. rewrite unlink_spec by exact ND. apply NoDup_remove_1 in ND.
      rewrite <- app_assoc in *. cbn [app] in *. apply insert_after_spec. apply NoDup_remove_2 in ND. intros K. apply ND. apply in_or_app. now left. }
    destruct (new_edge_open _ _ _ NE) as (N1 & N2).
    assert (V6 : v_verts st6 = V) by (unfold st6; cbn [with_edges with_chain with_hes v_verts]; congruence).
    assert (EE6 : v_edges st6 = v_edges st4 ++ [e]) by (unfold st6; cbn [with_edges with_chain with_hes v_edges]; now rewrite A5).
    assert (O6 : v_out st6 = v_out st4) by (unfold st6; cbn [with_edges with_chain with_hes v_out]; now rewrite O5).
    rewrite K4v in P4, V4.
    assert (Ln : n = length (v_edges st4)) by (unfold n; now rewrite A5).
    apply (end_edge_report _ _ _ _ _ _ (T ++ [(n, o)])) in K7; rewrite ?V6, ?EE6, ?O6 in *.
    2:{ exact LV. }
    2:{ rewrite P4, filter_app, map_app. cbn [filter]. unfold ended at 3. rewrite N1. cbn [map]. now rewrite app_nil_r. }
    2:{ apply Forall_app. split; [exact V4|]. constructor; [|constructor]. intros r' v Hv. destruct r'; cbn in Hv; congruence. }
    2:{ rewrite opens_app. cbn [opens]. rewrite N1, N2. cbn [app Nat.add]. rewrite T4, <- Ln. rewrite Permutation_app_comm. destruct o; cbn [negb app].
        - constructor. apply Permutation_cons_append.
        - etransitivity; [apply perm_swap|]. constructor. apply Permutation_cons_append. }
    destruct K7 as (P7 & V7 & T7).
    apply (Rep_qsame _ st7).
    { inv_bind H. apply requeue_same in E1, H. eapply qsame_trans; [apply E1|apply H]. }
    constructor.
    - rewrite K7c, K7h, Ch6, T7. unfold st6. cbn [with_edges with_chain with_hes v_hes]. rewrite map_app, H6. cbn [map hcore he_edge he_right].
      match goal with |- Permutation (tags (_ ++ [?h]) _) _ => change h with (OfEdge n, o) end.
      set (G := upd r gone (upd l gone (HS st1))). assert (LG : length G = b) by (unfold G; rewrite !upd_length; apply map_length).
      replace (l1 ++ ll :: b :: rr :: l2) with ((l1 ++ [ll]) ++ [b] ++ rr :: l2) by (rewrite <- app_assoc; reflexivity).
      rewrite (tags_app _ (l1 ++ [ll])), (tags_app _ [b]).
      assert (Q : tags (G ++ [(OfEdge n, o)]) [b] = [(n, o)]).
      { unfold tags. cbn [flat_map]. rewrite nth_error_app2 by lia. rewrite LG, Nat.sub_diag. reflexivity. }
      rewrite Q.
      assert (SAME : forall x, In x (l1 ++ ll :: l :: r :: rr :: l2) -> x <> l -> x <> r -> nth_error (G ++ [(OfEdge n, o)]) x = nth_error (HS st1) x).
      { intros x Hx Nl Nr. destruct (cinv_in _ _ _ _ _ _ C Hx) as [Lx _]. rewrite nth_error_app1 by (rewrite LG; unfold b; rewrite map_length in Lx; exact Lx).
        unfold G. rewrite !upd_nth. apply Nat.eqb_neq in Nl, Nr. now rewrite Nl, Nr. }
      assert (OUTl : forall x, In x ((l1 ++ [ll]) ++ rr :: l2) -> In x (l1 ++ ll :: l :: r :: rr :: l2) /\ x <> l /\ x <> r).
      { clear - ND. intros x Ix. replace (l1 ++ ll :: l :: r :: rr :: l2) with ((l1 ++ [ll]) ++ l :: r :: rr :: l2) in ND by (rewrite <- app_assoc; reflexivity).
        pose proof (NoDup_remove_2 _ _ _ ND) as U1. pose proof (NoDup_remove_1 _ _ _ ND) as ND2. pose proof (NoDup_remove_2 _ _ _ ND2) as U2. clear ND ND2.
        rewrite !in_app_iff in *. cbn [In] in *. split; [clear - Ix; tauto|]. split; intros ->; [clear - Ix U1|clear - Ix U2]; tauto. }
      rewrite (tags_same (HS st1) _ (l1 ++ [ll])), (tags_same (HS st1) _ (rr :: l2)).
      + unfold T. rewrite <- !app_assoc. do 1 apply Permutation_app_head. apply (Permutation_app_comm [(n, o)]).
      + intros x Hx. destruct (OUTl x) as (? & ? & ?); [apply in_or_app; now right|]. now apply SAME.
      + intros x Hx. destruct (OUTl x) as (? & ? & ?); [apply in_or_app; now left|]. now apply SAME.
    - rewrite K7v. exact P7.
    - rewrite K7v. exact V7.
  Qed.

  Lemma sweep_rep c : forall fuel sites D st st', Inv c D st -> Rep (c_delaunay c) st -> (forall s, In s sites -> nth_error (c_in c) (vnum s) = Some (site_pt s)) ->
    sweep fuel c sites st = Ok st' -> Rep (c_delaunay c) st'.
  Proof.
    induction fuel as [|fuel IH]; cbn [sweep]; intros sites D st st' I Re Hs H; [discriminate|].
    inv_bind H. destruct x as [st1 m].
    assert (I1 : Inv c D st1 /\ Rep (c_delaunay c) st1).
    { destruct (Z.eqb _ _); [injection E as <- _; auto|]. apply get_min_point_same in E. destruct E as (S & Q). split; [|eapply Rep_qsame; eauto].
      eapply Inv_qsame; [exact S|exact I|]. eapply waiting_hes; [exact Q|apply I]. }
    destruct I1 as [I1 R1].
    destruct sites as [|s r].
    - destruct (Z.eqb _ _); [injection H as <-; auto|]. inv_bind H. apply (IH [] D x st'); auto; [eapply (handle_circle_inv c D st1); eauto|eapply handle_circle_rep; eauto].
    - destruct (_ || _).
      + inv_bind H. apply (IH r (s :: D) x st'); auto.
        * eapply (handle_site_inv c D st1); eauto. apply Hs. now left.
        * eapply handle_site_rep; eauto.
        * intros; apply Hs; now right.
      + inv_bind H. apply (IH (s :: r) D x st'); auto; [eapply (handle_circle_inv c D st1); eauto|eapply handle_circle_rep; eauto].
  Qed.

  (** ** the edges still open at the end *)
  Definition mult (e : vedge) : nat := match ep1 e, ep2 e with None, None => 2 | _, _ => 1 end.
  Lemma add_open_report c : forall m (st st' : vstate), ~ In RIGHTEND m -> add_open c st (m ++ [RIGHTEND]) = Ok st' ->
    exists es, map Some es = map (fun t => nth_error (v_edges st) (fst t)) (tags (HS st) m) /\
               st' = with_out st (v_out st ++ map (report (c_delaunay c) (v_verts st)) es).
  Proof.
    induction m as [|i m IH]; intros st st' Nr H.
    - cbn in H. injection H as <-. exists []. split; [reflexivity|]. cbn. rewrite app_nil_r. destruct st; reflexivity.
    - cbn [app add_open] in H. destruct (Nat.eqb_spec i RIGHTEND) as [->|_]; [exfalso; apply Nr; now left|].
      inv_bind H. apply fetch_ok in E. destruct (he_edge x) as [| |n] eqn:Hx; try discriminate. inv_bind H.
      apply add_edge_report in E0. destruct E0 as (e & En & ->). apply IH in H; [|intros K; apply Nr; now right].
      destruct H as (es & A & ->). cbn [with_out v_edges v_hes v_out v_verts] in *. exists (e :: es). split.
      + unfold tags in *. cbn [flat_map]. rewrite nth_error_map, E. cbn [option_map]. unfold hcore at 1. rewrite Hx. cbn [app map fst]. rewrite En, A. reflexivity.
      + unfold with_out. cbn [v_edges v_hes v_chain v_hash v_queue v_count v_min v_verts v_out v_tris]. f_equal. rewrite <- app_assoc. reflexivity.
  Qed.
  Lemma opens_edges : forall (l P : list vedge),
    map (fun t => nth_error (P ++ l) (fst t)) (opens (length P) l) = flat_map (fun e => repeat (Some e) (if ended e then 0 else mult e)) l.
  Proof.
    induction l as [|e l IH]; intros P; [reflexivity|]. cbn [opens flat_map]. rewrite !map_app.
    specialize (IH (P ++ [e])). rewrite app_length in IH. cbn [length] in IH. rewrite <- app_assoc in IH. cbn [app] in IH. rewrite Nat.add_1_r in IH. rewrite IH.
    assert (Q : nth_error (P ++ e :: l) (length P) = Some e) by (rewrite nth_error_app2, Nat.sub_diag by lia; reflexivity).
    rewrite app_assoc. f_equal. unfold ended, mult. destruct (ep1 e), (ep2 e); cbn [map fst app repeat]; rewrite ?Q; reflexivity.
  Qed.
  Lemma reports_split d V (l : list vedge) :
    Permutation (map (report d V) (filter ended l) ++ map (report d V) (flat_map (fun e => repeat e (if ended e then 0 else mult e)) l))
      (flat_map (fun e => repeat (report d V e) (mult e)) l).
  Proof.
    induction l as [|e l IH]; [constructor|]. cbn [filter flat_map]. rewrite map_app.
    destruct (ended e) eqn:En.
    - assert (M : mult e = 1%nat) by (unfold ended in En; unfold mult; destruct (ep1 e); [reflexivity|discriminate]). rewrite M. cbn [repeat map app]. constructor. exact IH.
    - replace (map (report d V) (repeat e (mult e))) with (repeat (report d V e) (mult e)) by (induction (mult e) as [|k IK]; cbn; congruence).
      rewrite <- IH, !app_assoc. apply Permutation_app_tail. apply Permutation_app_comm.
  Qed.
  Lemma map_Some_inj {A} (l m : list A) : map Some l = map Some m -> l = m.
  Proof. revert m. induction l as [|a l IH]; intros [|b m] H; cbn in H; try discriminate; [reflexivity|]. injection H as -> H. f_equal. auto. Qed.
  Lemma flat_map_Some (l : list vedge) (f : vedge -> nat) : flat_map (fun e => repeat (Some e) (f e)) l = map Some (flat_map (fun e => repeat e (f e)) l).
  Proof. induction l as [|e l IH]; [reflexivity|]. cbn. rewrite map_app, IH. f_equal. induction (f e) as [|k IK]; cbn; congruence. Qed.

  Lemma start_rep (c : vconf) hs qs : Rep (c_delaunay c) (start hs qs : vstate).
  Proof. constructor; cbn; auto. Qed.
  Theorem compute_rep delaunay pts (st : vstate) : compute_voronoi delaunay pts = Ok st ->
    Permutation (v_out st) (flat_map (fun e => repeat (report delaunay (v_verts st) e) (mult e)) (v_edges st)) /\ Forall (valid (v_verts st)) (v_edges st).
  Proof.
    unfold compute_voronoi. destruct pts as [|p pts']; [discriminate|]. set (pts := p :: pts') in *.
    destruct (site_list pts) as [|bottom sites] eqn:SL; [discriminate|]. intros H. inv_bind H. rename x into st0.
    match type of E with sweep _ ?c _ _ = _ => set (c0 := c) in * end.
    pose proof (site_list_perm pts) as PM. rewrite SL in PM.
    assert (NUM : forall s, In s (bottom :: sites) -> nth_error pts (vnum s) = Some (site_pt s)).
    { intros s Hs. apply (Permutation_in _ PM) in Hs. destruct (number_spec _ _ _ Hs) as (j & A & B). rewrite A. exact B. }
    assert (I0 : Inv c0 [bottom] (start (c_hashsize c0) (c_qsize c0))) by (apply (start_inv c0); [discriminate|apply NUM; now left]).
    pose proof (sweep_inv c0 _ _ _ _ _ I0 (fun s Hs => NUM s (or_intror Hs)) E) as I.
    pose proof (sweep_rep c0 _ _ _ _ _ I0 (start_rep c0 _ _) (fun s Hs => NUM s (or_intror Hs)) E) as Re.
    pose proof (s_cinv _ _ _ I) as C. destruct (i_begins _ _ _ _ _ C) as (t & Ct). destruct (i_ends _ _ _ _ _ C) as (t' & Ct').
    destruct t' as [|z m]; [rewrite Ct in Ct'; cbn in Ct'; discriminate|]. rewrite Ct in Ct'. injection Ct' as <- ->.
    rewrite Ct in H. cbn [after] in H. change (Nat.eqb LEFTEND LEFTEND) with true in H. cbn iota in H.
    pose proof (i_nodup _ _ _ _ _ C) as ND. rewrite Ct in ND. inversion ND as [|? ? _ ND']; subst.
    apply NoDup_remove_2 in ND'. rewrite app_nil_r in ND'.
    destruct (add_open_report c0 m st0 st ND' H) as (es & A & ->). cbn [with_out v_out v_verts v_edges].
    destruct Re as [R1 R2 R3]. split; [|exact R3]. change delaunay with (c_delaunay c0).
    assert (TG : tags (HS st0) (v_chain st0) = tags (HS st0) m).
    { rewrite Ct. destruct (i_left _ _ _ _ _ C) as (r0 & Q0). destruct (i_right _ _ _ _ _ C) as (r1 & Q1).
      change (LEFTEND :: m ++ [RIGHTEND]) with ([LEFTEND] ++ m ++ [RIGHTEND]). rewrite !tags_app. unfold tags at 1 3. cbn [flat_map]. rewrite Q0, Q1. cbn. apply app_nil_r. }
    rewrite TG in R1.
    assert (PE : Permutation es (flat_map (fun e => repeat e (if ended e then 0 else mult e)) (v_edges st0))).
    { pose proof (opens_edges (v_edges st0) []) as O. cbn [app length] in O. rewrite flat_map_Some in O.
      assert (P : Permutation (map Some es) (map Some (flat_map (fun e => repeat e (if ended e then 0 else mult e)) (v_edges st0)))).
      { rewrite A, <- O. now apply Permutation_map. }
      apply Permutation_map_inv in P. destruct P as (l3 & P1 & P2). apply map_Some_inj in P1. subst l3. symmetry. exact P2. }
    rewrite R2, PE. apply reports_split.
  Qed.
End Reports.

(** ** the sweep ends *)
Section Ends.
  Context {N : NumOps}.
  Notation vsite := (vsite N). Notation vedge := (vedge N). Notation hedge := (hedge N). Notation vstate := (vstate N). Notation vconf := (vconf N).
  Ltac inv_bind H := let a := fresh "x" in let E := fresh "E" in apply bind_ok in H; destruct H as (a & E & H).
  Definition nofuel {A} (x : res A) : Prop := x <> Raise OutOfFuel.
  Lemma nf_ok {A} (a : A) : nofuel (Ok a). Proof. discriminate. Qed.
  Lemma nf_bind {A B} (x : res A) (f : A -> res B) : nofuel x -> (forall a, x = Ok a -> nofuel (f a)) -> nofuel (rbind x f).
  Proof. unfold nofuel. destruct x as [a|e]; cbn; auto. intros H _ [= ->]. now apply H. Qed.
  Lemma nf_fetch {A} e i (l : list A) : e <> OutOfFuel -> nofuel (fetch e i l).
  Proof. unfold nofuel, fetch. intros H. destruct (nth_error l i); congruence. Qed.
  Lemma nf_div (x y : N) : nofuel (pydiv x y).
  Proof. unfold nofuel, pydiv. destruct (eqb _ _); discriminate. Qed.
  Lemma nf_first {A} (l : list A) : nofuel (first l).
  Proof. destruct l; discriminate. Qed.
  Ltac nf := repeat match goal with
    | |- nofuel (Ok _) => apply nf_ok
    | |- nofuel (Raise _) => discriminate
    | |- nofuel (pydiv _ _) => apply nf_div
    | |- nofuel (fetch _ _ _) => apply nf_fetch; discriminate
    | |- nofuel (first _) => apply nf_first
    | |- nofuel (rbind _ _) => apply nf_bind; [|intros ? _]
    | |- nofuel (match ?x with _ => _ end) => destruct x
    | |- nofuel (let x := _ in _) => cbv zeta
    | H : _ |- _ => exact H
    end.
  Lemma nf_edge_of (st : vstate) h : nofuel (edge_of st h). Proof. unfold edge_of. nf. Qed.
  Lemma nf_the_he (st : vstate) i : nofuel (the_he st i). Proof. unfold the_he. nf. Qed.
  Lemma nf_left (st : vstate) d i : nofuel (left_site st d i). Proof. unfold left_site. pose proof (@nf_the_he st i). repeat first [apply nf_edge_of|nf]. Qed.
  Lemma nf_right (st : vstate) d i : nofuel (right_site st d i). Proof. unfold right_site. pose proof (@nf_the_he st i). repeat first [apply nf_edge_of|nf]. Qed.
  Lemma nf_isleft (st : vstate) i s : nofuel (is_left_of_site st i s).
  Proof. unfold is_left_of_site, above_vertical. repeat first [apply nf_the_he|apply nf_edge_of|nf]. Qed.
  Lemma nf_intersect (st : vstate) i j : nofuel (intersect st i j).
  Proof. unfold intersect. repeat first [apply nf_the_he|apply nf_edge_of|nf]. Qed.
  Lemma nf_bucket (st : vstate) b : nofuel (bucket_entry st b).
  Proof. unfold bucket_entry. repeat first [apply nf_the_he|nf]. Qed.
  Lemma nf_probe c : forall fuel (st : vstate) b i, nofuel (probe fuel c st b i).
  Proof. induction fuel as [|f IH]; intros st b i; cbn [probe]; repeat first [apply nf_bucket|apply IH|nf]. Qed.
  Lemma nf_scan_right (st : vstate) s : forall l p, nofuel (scan_right st s p l).
  Proof. induction l as [|h l IH]; intros p; cbn [scan_right]; repeat first [apply nf_isleft|apply IH|nf]. Qed.
  Lemma nf_scan_left (st : vstate) s : forall l, nofuel (scan_left st s l).
  Proof. induction l as [|h l IH]; cbn [scan_left]; repeat first [apply nf_isleft|apply IH|nf]. Qed.
  Lemma nf_leftbnd c (st : vstate) s : nofuel (pop_leftbnd c st s).
  Proof. unfold pop_leftbnd. repeat first [apply nf_bucket|apply nf_probe|apply nf_isleft|apply nf_scan_right|apply nf_scan_left|nf]. Qed.
  Lemma nf_getb c (st : vstate) y : nofuel (get_bucket c st y). Proof. unfold get_bucket. nf. Qed.
  Lemma nf_key (st : vstate) i : nofuel (he_key st i). Proof. unfold he_key. repeat first [apply nf_the_he|nf]. Qed.
  Lemma nf_enq (st : vstate) k i : forall l, nofuel (enqueue st k i l).
  Proof. induction l as [|j l IH]; cbn [enqueue]; repeat first [apply nf_key|apply IH|nf]. Qed.
  Lemma nf_ins c (st : vstate) i p o : nofuel (pq_insert c st i p o).
  Proof. unfold pq_insert. repeat first [apply nf_getb|apply nf_enq|nf]. Qed.
  Lemma nf_del c (st : vstate) i : nofuel (pq_delete c st i).
  Proof. unfold pq_delete. repeat first [apply nf_the_he|apply nf_getb|nf]. Qed.
  Lemma nf_skip : forall q m, nofuel (skip_empty q m).
  Proof. induction q as [|[|i l] q IH]; intros m; cbn [skip_empty]; repeat first [apply IH|nf]. Qed.
  Lemma nf_minpt (st : vstate) : nofuel (get_min_point st).
  Proof. unfold get_min_point. repeat first [apply nf_skip|apply nf_key|nf]. Qed.
  Lemma nf_popmin (st : vstate) : nofuel (pop_min st). Proof. unfold pop_min. nf. Qed.
  Lemma nf_addedge c (st : vstate) n : nofuel (add_edge c st n). Proof. unfold add_edge. nf. Qed.
  Lemma nf_endedge c (st : vstate) r b v : nofuel (end_edge c st r b v).
  Proof. unfold end_edge. repeat first [apply nf_addedge|nf]. Qed.
  Lemma nf_newedge (a b : vsite) : nofuel (new_edge a b). Proof. unfold new_edge. nf. Qed.
  Lemma nf_bis (st : vstate) a b : nofuel (add_bisector st a b). Proof. unfold add_bisector. repeat first [apply nf_newedge|nf]. Qed.
  Lemma nf_requeue c (st : vstate) i j t s d : nofuel (requeue c st i j t s d).
  Proof. unfold requeue. repeat first [apply nf_intersect|apply nf_del|apply nf_ins|nf]. Qed.
  Lemma nf_site c (st : vstate) s : nofuel (handle_site c st s).
  Proof. unfold handle_site, add_he, right_of. repeat first [apply nf_leftbnd|apply nf_right|apply nf_bis|apply nf_requeue|nf]. Qed.
  Lemma nf_circle c (st : vstate) : nofuel (handle_circle c st).
  Proof. unfold handle_circle, add_he, right_of, left_of. repeat first [apply nf_popmin|apply nf_right|apply nf_left|apply nf_bis|apply nf_endedge|apply nf_del|apply nf_requeue|apply nf_the_he|nf]. Qed.
  Lemma nf_open c : forall l (st : vstate), nofuel (add_open c st l).
  Proof. induction l as [|i l IH]; intros st; cbn [add_open]; repeat first [apply nf_the_he|apply nf_addedge|apply IH|nf]. Qed.

  Lemma nf_sweep c : forall fuel sites D (st : vstate), Inv c D st -> (forall s, In s sites -> nth_error (c_in c) (vnum s) = Some (site_pt s)) ->
    (3 * length sites + length (v_chain st) < fuel)%nat -> nofuel (sweep fuel c sites st).
  Proof.
    induction fuel as [|fuel IH]; intros sites D st I Hs F; [lia|]. cbn [sweep]. apply nf_bind; [destruct (Z.eqb _ _); [apply nf_ok|apply nf_minpt]|].
    intros [st1 m] E.
    assert (I1 : Inv c D st1 /\ v_chain st1 = v_chain st).
    { destruct (Z.eqb _ _); [injection E as <- _; auto|]. apply get_min_point_same in E. destruct E as (S & Q). split; [|apply S].
      eapply Inv_qsame; [exact S|exact I|]. eapply waiting_hes; [exact Q|apply I]. }
    destruct I1 as [I1 Ch]. rewrite <- Ch in F. clear E I Ch.
    assert (CIRC : forall r, (3 * length r + length (v_chain st1) < S fuel)%nat -> (forall s, In s r -> nth_error (c_in c) (vnum s) = Some (site_pt s)) ->
      nofuel (rbind (handle_circle c st1) (fun x => sweep fuel c r x))).
    { intros r Fr Hr. apply nf_bind; [apply nf_circle|]. intros st2 E2. destruct (handle_circle_inv c D st1 st2 I1 E2) as (I2 & L2).
      apply (IH r D st2); auto. lia. }
    destruct sites as [|s r].
    - destruct (Z.eqb _ _); [apply nf_ok|]. apply CIRC; auto.
    - destruct (_ || _); [|apply CIRC; auto]. apply nf_bind; [apply nf_site|]. intros st2 E2.
      destruct (handle_site_inv c D st1 s st2 I1 (Hs s (or_introl eq_refl)) E2) as (I2 & L2).
      apply (IH r (s :: D) st2); auto; [intros; apply Hs; now right|]. cbn [length] in F. lia.
  Qed.
  Theorem compute_ends delaunay (pts : list (pt N)) : compute_voronoi delaunay pts <> Raise OutOfFuel.
  Proof.
    unfold compute_voronoi. destruct pts as [|p pts']; [discriminate|]. set (pts := p :: pts') in *.
    destruct (site_list pts) as [|bottom sites] eqn:SL; [discriminate|].
    match goal with |- context [sweep _ ?c _ _] => set (c0 := c) end.
    pose proof (site_list_perm pts) as PM. rewrite SL in PM.
    assert (NUM : forall s, In s (bottom :: sites) -> nth_error pts (vnum s) = Some (site_pt s)).
    { intros s Hs. apply (Permutation_in _ PM) in Hs. destruct (number_spec _ _ _ Hs) as (j & A & B). rewrite A. exact B. }
    assert (I0 : Inv c0 [bottom] (start (c_hashsize c0) (c_qsize c0))) by (apply (start_inv c0); [discriminate|apply NUM; now left]).
    apply nf_bind; [|intros; apply nf_open]. apply (nf_sweep c0 _ sites _ _ I0); [intros s Hs; apply NUM; now right|].
    apply Permutation_length in PM. assert (L : length (number 0 pts) = length pts) by (rewrite <- (map_length site_pt), number_pts; reflexivity).
    rewrite L in PM. cbn [length start v_chain] in *. lia.
  Qed.
End Ends.
