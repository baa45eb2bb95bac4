(** * PropsCam5: more about the orders of tool paths (C28, C29). *)
From Verif Require Import Num NumR NumF64 Str Gcode GcodeSpec GcodeProofs GcodeProofs2 GcodeProofs3 GcodeProofs4 GcodeR
  Geom GeomSpec GeomProofs GeomR Cam CamSpec CamProofs1 CamProofs2 CamProofs3 CamProofs4 CamR PropsGcode PropsCam PropsCam2 PropsCam4.
From Coq Require Import String ZArith NArith Reals Lra Lia List Bool Permutation.
Import ListNotations.
Local Open Scope string_scope.
Local Open Scope R_scope.

(** 'flip' turns round the first path, unless it ends where it starts. *)
Theorem C28_flip_first {E : Epsilon ROps} (p : list (cseg ROps)) l p' l' : sort_paths (p :: l) "flip" = Ok (p' :: l') ->
  hd (P 0 0) (vertices p) <> last (vertices p) (P 0 0) -> p' = backwards p.
Proof.
  change (sort_paths (p :: l) "flip") with (flip_paths (p :: l)). unfold flip_paths. destruct (no_empty (p :: l)) eqn:NE; [|intros X; discriminate X]. intros H D. assert (NN : ~ In [] (p :: l)) by (now apply no_empty_spec).
  assert (p <> []) by (intros ->; apply NN; now left).
  assert (La : last (vertices p) (P 0 0) = last_pt p).
  { destruct p as [|s p0] using rev_ind; [contradiction|]. unfold last_pt. rewrite last_last. unfold vertices. rewrite map_app. cbn [map].
    destruct (p0 ++ [s])%list eqn:Ea; [destruct p0; discriminate|]. rewrite app_comm_cons, last_last. reflexivity. }
  assert (Fi : hd (P 0 0) (vertices p) = first_pt p) by (destruct p; [contradiction|reflexivity]).
  rewrite La, Fi in D. assert (H1 : p' = if Num.ltb (pdist (last_pt p) (last_pt p)) (pdist (last_pt p) (first_pt p)) then path_reversed p else p) by (cbn [flip_loop] in H; congruence). rewrite H1. clear H H1.
  rewrite !dist_euclid. rewrite (proj2 (euclid_zero _ _) eq_refl). change (@Num.ltb ROps) with Rltb.
  rewrite (proj2 (Rltb_true _ _)); [reflexivity|]. pose proof (euclid_pos (last_pt p) (first_pt p)) as EP. destruct (Req_dec (euclid (last_pt p) (first_pt p)) 0) as [Z|Z]; [|destruct EP as [EP|EP]; [exact EP|congruence]].
  apply euclid_zero in Z. congruence.
Qed.

(** 'optimize' fails if all paths start in the first band, one and a half times as high as the first segment of the path in the middle of the list is long. *)
Section OneBand.
  Context {N : NumOps} {E : Epsilon N}.
  Theorem C29_one_band_refuted (l : list (list (cseg N))) m s r : nth_error l (Nat.div (List.length l) 2) = Some m -> m = s :: r ->
    (forall p, In p l -> exists q t, p = q :: t /\ Num.leb (py (s_p1 (geo q))) (mul (s_length (geo s)) (lit 15 (-1))) = true /\
                                     Num.leb (py (s_p2 (geo q))) (mul (s_length (geo s)) (lit 15 (-1))) = true) ->
    sort_paths l "optimize" = Raise IndexError.
  Proof.
    intros M -> H. cbn. unfold sort_segment_paths_1. rewrite M.
    assert (NE : no_empty l = true). { apply no_empty_spec. intros I. destruct (H _ I) as (q & t & Q & _). discriminate. }
    rewrite NE. cbv zeta. set (w := mul (s_length (geo s)) (lit 15 (-1))) in *.
    assert (H' : forall p, In p (sort_by lt_yx l) -> exists q t, p = q :: t /\ Num.leb (py (s_p1 (geo q))) w = true /\ Num.leb (py (s_p2 (geo q))) w = true).
    { intros p I. apply H. eapply Permutation_in; [|exact I]. symmetry. apply sort_perm. }
    clear H M NE. assert (G : forall l' st, (forall p, In p l' -> exists q t, p = q :: t /\ Num.leb (py (s_p1 (geo q))) w = true /\ Num.leb (py (s_p2 (geo q))) w = true) ->
      b_max st = w -> b_new (fold_left (band_step w) l' st) = b_new st).
    { induction l' as [|p l' IH]; intros st A B; [reflexivity|]. cbn [fold_left]. destruct (A p (or_introl eq_refl)) as (q & t & -> & Q1 & Q2).
      unfold band_step at 2. rewrite B. unfold first_pt, second_y, c_p1, c_p2. rewrite Q1, Q2. cbn [andb].
      rewrite IH; [reflexivity| |reflexivity]. intros p' I. apply A. now right. }
    match goal with |- context[fold_left (band_step w) _ ?st] => rewrite (G _ st H' eq_refl) end. reflexivity.
  Qed.
End OneBand.
(** Two lines of length 1, the second at twice the length: the band ends between them; only the lower one is left, reversed. *)
Definition starts_at (r : res (list (list (cseg F64Ops)))) : option (list (Z * Z)) :=
  match r with Ok l => Some (map (fun p => (@trunc F64Ops (px (first_pt p)), @trunc F64Ops (py (first_pt p)))) l) | Raise _ => None end.
Example C29_band_example : starts_at (@sort_paths F64Ops [[fline 0 2 1 2]; [fline 0 0 1 0]]%Z "optimize") = Some [(1, 0)]%Z /\
  starts_at (@sort_paths F64Ops [[fline 0 1 1 1]; [fline 0 0 1 0]]%Z "optimize") = None /\
  starts_at (@sort_paths F64Ops [[fline 5 0 6 1]; [fline 0 1 1 1]; [fline 0 20 1 20]]%Z "optimize") = Some [(1, 1); (5, 0)]%Z.
Proof. vm_compute. repeat split; reflexivity. Qed.

(** ** The tool never turns by more than half a turn in one move (C64) *)
Section HalfTurns.
  Context {E : Epsilon ROps}.
  (** The angles in the calls of a program *)
  Definition angles (ops : list (@op ROps)) : list R :=
    flat_map (fun o => match o with
      | ORapid _ _ _ (Some a) _ | OFeed _ _ _ (Some a) _ _ | OArc _ _ _ _ _ (Some a) _ _ _ => [a]
      | _ => [] end) ops.
  (** Every angle differs from the one before it by at most half a turn; the first one from [a] *)
  Fixpoint half_turns (a : R) (l : list R) : Prop :=
    match l with
    | [] => True
    | b :: r => Rabs (b - a) <= PI /\ half_turns b r
    end.
  Lemma half_app l m : forall a, half_turns a l -> half_turns (last l a) m -> half_turns a (l ++ m)%list.
  Proof.
    induction l as [|b l IH]; intros a H K; [exact K|]. cbn [half_turns app] in *. destruct H as (H1 & H2). split; [exact H1|]. apply IH; [exact H2|].
    destruct l as [|c l]; [exact K|]. replace (last (c :: l) b) with (last (c :: l) a) by (destruct (exists_last (l := c :: l)) as (l' & x & ->); [discriminate|now rewrite !last_last]). exact K.
  Qed.
  Lemma last_app_d {A} (l m : list A) d : last (l ++ m)%list d = last m (last l d).
  Proof.
    destruct m as [|x m]; [rewrite app_nil_r; reflexivity|]. destruct (exists_last (l := x :: m)) as (m' & y & ->); [discriminate|]. rewrite app_assoc, !last_last. reflexivity.
  Qed.
  Hypothesis EPOS : 0 < EPS.
  Definition turns_little (m : @CM ROps unit) : Prop := forall st st', m st = (st', Ok tt) ->
    exists ops, trace st' = (trace st ++ ops)%list /\ half_turns (current_angle st) (angles ops) /\ last (angles ops) (current_angle st) = current_angle st'.
  Lemma tl_seq m m' : turns_little m -> turns_little m' -> turns_little (cseq m m').
  Proof.
    intros A B st st' H. apply cseq_ok in H as (s1 & H1 & H2). apply A in H1 as (o1 & T1 & K1 & L1). apply B in H2 as (o2 & T2 & K2 & L2).
    exists (o1 ++ o2)%list. rewrite T2, T1, <- app_assoc. unfold angles in *. rewrite flat_map_app. split; [reflexivity|]. split.
    - apply half_app; [exact K1|]. rewrite L1. exact K2.
    - rewrite last_app_d, L1. exact L2.
  Qed.
  Lemma tl_ret : turns_little (cret tt).
  Proof. intros st st' H. injection H as <-. exists []. rewrite app_nil_r. repeat split. Qed.
  Lemma tl_call c o : angles [o] = [] -> turns_little (call c o).
  Proof. intros A st st' H. apply call_ok in H as (T1 & C1). exists [o]. rewrite A. split; [exact T1|]. split; [exact Logic.I|]. now symmetry. Qed.
  Lemma turn_bound (a t : R) : Rabs (Num.add a (calc_rotation a t) - a) <= PI.
  Proof. rnum. replace (a + calc_rotation a t - a) with (calc_rotation a t : R) by (set (w := calc_rotation a t); change (T ROps) with R in *; ring). apply (turn_along EPOS). Qed.
  Lemma stay (a : R) : Rabs (a - a) <= PI.
  Proof. rewrite Rminus_diag_eq by reflexivity. rewrite Rabs_R0. pose proof PI_RGT_0. lra. Qed.
  Lemma tl_segment c k s depth : turns_little (segment_gcode c k s depth).
  Proof.
    intros st st' H. unfold segment_gcode in H. apply cseq_ok in H as (s0 & H0 & H). injection H0 as <-.
    apply cbind_ok in H as (s1 & ea & H1 & H).
    assert (M : exists rot, trace s1 = (trace st ++ rot)%list /\ half_turns (current_angle st) (angles rot) /\ last (angles rot) (current_angle st) = current_angle s1 /\ Rabs (ea - current_angle s1) <= PI).
    { destruct (inline_ignore_a s || negb (enable_tangent k)).
      - injection H1 as <- <-. cbn [trace current_angle]. exists []. rewrite app_nil_r. repeat split. apply stay.
      - apply cbind_ok in H1 as (s2 & a & H2 & H1). injection H2 as <- <-. cbn [current_angle] in H1. cbv zeta in H1.
        apply cbind_ok in H1 as (s3 & u & H3 & H1). apply cbind_ok in H1 as (s4 & a & H4 & H1). injection H4 as <- <-. injection H1 as <- <-.
        destruct (is_zero _) eqn:Z.
        + injection H3 as <- _. cbn [trace current_angle]. exists []. rewrite app_nil_r. repeat split. apply turn_bound.
        + apply cbind_ok in H3 as (s5 & [] & H5 & H3). injection H5 as <-. destruct u. apply call_ok in H3 as (T3 & C3). cbn [trace current_angle] in *.
          eexists. split; [exact T3|]. cbn [angles flat_map app half_turns last]. rewrite C3. split; [split; [apply turn_bound|exact Logic.I]|]. split; [reflexivity|]. apply turn_bound. }
    destruct M as (rot & T1 & K1 & L1 & EA). apply cseq_ok in H as (s5 & H & H5). injection H5 as <-. cbn [trace current_angle].
    assert (G : exists o, trace s5 = (trace s1 ++ [o])%list /\ angles [o] = [ea]).
    { destruct (geo s) as [l|ar] eqn:G0.
      - apply call_ok in H as [T0 _]. eexists. split; [exact T0|reflexivity].
      - apply cbind_ok in H as (s6 & xy & H6 & H). assert (s6 = s1) as -> by (unfold get_xy in H6; destruct (vX _); [destruct (vY _)|]; congruence).
        cbv zeta in H. destruct (negb (feq _ _)); apply call_ok in H as [T0 _]; (eexists; split; [exact T0|reflexivity]). }
    destruct G as (o & T2 & A2). exists (rot ++ [o])%list. rewrite T2, T1, <- app_assoc. unfold angles in *. rewrite flat_map_app, A2. split; [reflexivity|]. split.
    - apply half_app; [exact K1|]. rewrite L1. cbn [half_turns]. split; [exact EA|exact Logic.I].
    - rewrite last_last. reflexivity.
  Qed.
  Lemma tl_segments c k p depth : turns_little (segments_gcode c k p depth).
  Proof. induction p as [|s p IH]; [apply tl_ret|]. cbn [segments_gcode]. apply tl_seq; [apply tl_segment|exact IH]. Qed.
  Lemma tl_rapid c k p : turns_little (rapid_to_path c k p).
  Proof.
    intros st st' H. destruct p as [|s r]; [discriminate|]. cbn [rapid_to_path] in H. apply cseq_ok in H as (s1 & H1 & H).
    apply cbind_ok in H as (s2 & a & H2 & H). injection H2 as <- <-. apply call_ok in H as (T & C).
    assert (K : trace s1 = trace st /\ Rabs (current_angle s1 - current_angle st) <= PI).
    { destruct (enable_tangent k); [|injection H1 as <-; split; [reflexivity|apply stay]].
      apply cbind_ok in H1 as (s2 & a & H2 & H1). injection H2 as <- <-. injection H1 as <-. cbn [trace current_angle]. split; [reflexivity|]. apply turn_bound. }
    destruct K as (K1 & K2). eexists. split; [rewrite T, K1; reflexivity|]. cbn [angles flat_map app half_turns last]. split; [split; [exact K2|exact Logic.I]|]. now symmetry.
  Qed.
  Lemma tl_paint_rapid c k b p : turns_little (paint_rapid_to_path c k b p).
  Proof. unfold paint_rapid_to_path. destruct (reload_enable b); [intros st st' H; discriminate|apply tl_rapid]. Qed.
  Lemma tl_pass c k rapid text pass depth l : (forall p, turns_little (rapid p)) -> forall i, turns_little (one_pass c k rapid text i pass depth l).
  Proof.
    intros HR. induction l as [|p l IH]; intros i; [apply tl_ret|]. cbn [one_pass]. apply tl_seq; [|apply IH]. destruct (_ && _); [|apply tl_ret].
    unfold cut_path. apply tl_seq; [now apply tl_call|]. apply tl_seq; [now apply tl_call|]. apply tl_seq; [apply HR|]. apply tl_seq.
    - destruct p as [|s r]; [intros st st' H; discriminate|]. cbn [plunge]. now apply tl_call.
    - apply tl_seq; [now apply tl_call|]. apply tl_segments.
  Qed.
  Lemma tl_loop c k rapid text l step zd : (forall p, turns_little (rapid p)) -> forall fuel pass depth, turns_little (depth_loop fuel c k rapid text l step zd pass depth).
  Proof.
    intros HR. induction fuel as [|f IH]; intros pass depth; cbn [depth_loop]; destruct (Num.leb _ _); try apply tl_ret; [intros st st' H; discriminate|].
    apply tl_seq; [now apply tl_pass|apply IH].
  Qed.
  Lemma half_turns_job fuel c k pre rapid today text ct l st' : (forall c p, turns_little (rapid c p)) ->
    generate_gcode fuel c k pre rapid today text ct l cam_start = (st', Ok tt) ->
    exists ops, trace st' = (ops ++ (if home_when_done k then [ORapid (Some 0) (Some 0) None (Some 0) None] else []) ++ [OFooter])%list /\ half_turns 0 (angles ops).
  Proof.
    intros HR H. unfold generate_gcode in H. apply cbind_ok in H as (s0 & l1 & H0 & H). injection H0 as <- _. apply cbind_ok in H as (s0 & l2 & H0 & H). injection H0 as <- _.
    cbv zeta in H. set (c' := job_config c _ _) in *.
    apply cseq_ok in H as (s1 & H1 & H). apply (tl_call c' (OHeader today None) eq_refl) in H1 as (o1 & T1 & K1 & L1).
    apply cseq_ok in H as (s2 & H2 & H). apply (tl_call c' (OToolUp true None None) eq_refl) in H2 as (o2 & T2 & K2 & L2).
    apply cseq_ok in H as (s3 & H3 & H). apply tl_loop in H3 as (o3 & T3 & K3 & L3); [|apply HR].
    apply cseq_ok in H as (s4 & H4 & H). apply (tl_call c' (OToolUp true None None) eq_refl) in H4 as (o4 & T4 & K4 & L4).
    apply cseq_ok in H as (s5 & H5 & H). apply call_ok in H as (T6 & _).
    assert (T5 : trace s5 = (trace s4 ++ (if home_when_done k then [@ORapid ROps (Some 0) (Some 0) None (Some 0) None] else []))%list).
    { destruct (home_when_done k); cbn [cwhen] in H5; [apply call_ok in H5 as (T5 & _); exact T5|injection H5 as <-; now rewrite app_nil_r]. }
    exists (((o1 ++ o2) ++ o3) ++ o4)%list. split.
    - rewrite T6, T5, T4, T3, T2, T1. cbn [cam_start trace app]. rewrite <- !app_assoc. reflexivity.
    - unfold angles in *. rewrite !flat_map_app. change (current_angle (@cam_start ROps)) with 0 in *.
      repeat apply half_app; auto; rewrite ?last_app_d, ?L1, ?L2, ?L3; auto.
  Qed.
  (** Starting with the tool at angle 0, no move of a job turns it by more than half a turn, but for the way home at the end. *)
  Theorem C64_half_turns fuel (c : config ROps) k today text ct l st' : simple_job fuel c k today text ct l = (st', Ok tt) ->
    exists ops, trace st' = (ops ++ (if home_when_done k then [ORapid (Some 0) (Some 0) None (Some 0) None] else []) ++ [OFooter])%list /\ half_turns 0 (angles ops).
  Proof. apply half_turns_job. intros. apply tl_rapid. Qed.
  Theorem C64_half_turns_paint fuel (c : config ROps) k b today text ct l st' : paint_job fuel c k b today text ct l = (st', Ok tt) ->
    exists ops, trace st' = (ops ++ (if home_when_done k then [ORapid (Some 0) (Some 0) None (Some 0) None] else []) ++ [OFooter])%list /\ half_turns 0 (angles ops).
  Proof. apply half_turns_job. intros. apply tl_paint_rapid. Qed.
End HalfTurns.
