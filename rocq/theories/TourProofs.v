(** * TourProofs: the way of the machine follows the calls (C31, C129). *)
From Verif Require Import Num NumR Str Gcode GcodeSpec GcodeProofs GcodeProofs2 GcodeProofs3 GcodeProofs4 GcodeR
  Geom Cam CamSpec CamProofs1 CamProofs2 CamProofs3 CamProofs4 CamR PropsCam2 MotionProofs PropsMotion TourSpec.
From Coq Require Import String ZArith Reals Lra Lia List Bool.
Import ListNotations.
Local Open Scope R_scope.

Section General.
  Variable axes : list string.
  Variable A : option (pt ROps) -> machine -> Prop.
  Lemma tour_wait p before l1 l2 r : on_way axes A p p before l1 -> tour axes A p (before ++ l1) l2 r -> tour axes A p before (l1 ++ l2) r.
  Proof.
    intros B H. remember (before ++ l1)%list as b eqn:Eb. destruct H as [p b l H|p q b l1' l2' r H E H'].
    - apply t_end. intros done rest Ed. apply app_eq_app in Ed as (x & [[-> ->]|[-> ->]]).
      + destruct (B done x eq_refl) as (m & M). eauto.
      + subst b. rewrite app_assoc. destruct (H x rest eq_refl) as (m & M). eauto.
    - subst b. rewrite app_assoc. apply t_step; rewrite ?app_assoc; auto.
      intros done rest Ed. apply app_eq_app in Ed as (x & [[-> ->]|[-> ->]]).
      + destruct (B done x eq_refl) as (m & M1 & [M2|M2]); eauto.
      + rewrite app_assoc. destruct (H x rest eq_refl) as (m & M). eauto.
  Qed.
End General.

Section Calls.
  Variable c : config ROps.
  Hypothesis PC : plain_config c.
  Hypothesis Ht : 0 < tolerance c.
  Hypothesis Ha : 0 <= angle_tolerance c.
  (** The place a point is taken to. *)
  Definition goal (p : pt ROps) : pt ROps :=
    P ((px p * scale_of c PX + offset_of c PX) * unit_scale c) ((py p * scale_of c PY + offset_of c PY) * unit_scale c).
  Definition error (k : param) : R := tolerance c * Rabs (scale_of c k * unit_scale c) + / 2 * / 10 ^ (ndigits_out c).
  Definition here (p : option (pt ROps)) : machine -> Prop :=
    shows_place (out_name c PX) (out_name c PY) (error PX) (error PY) (option_map goal p).
  Lemma here_xy p m m' : xy_at c m = xy_at c m' -> here p m -> here p m'.
  Proof.
    unfold xy_at, here, shows_place, shows. intros E. assert (E1 : mpos m (out_name c PX) = mpos m' (out_name c PX)) by congruence.
    assert (E2 : mpos m (out_name c PY) = mpos m' (out_name c PY)) by congruence. destruct p; cbn [option_map]; rewrite E1, E2; auto.
  Qed.
  (** What the generator believes. *)
  Definition believes (p : option (pt ROps)) (s : state ROps) : Prop :=
    match p with
    | None => vX (last_val s) = None /\ vY (last_val s) = None
    | Some p => GcodeProofs4.close c PX (px p) (last_val s) /\ GcodeProofs4.close c PY (py p) (last_val s)
    end.
  Lemma shown k v l : k = PX \/ k = PY -> Rabs (v - l) <= tolerance c ->
    exists d, dec_val (program_value c k l) = Some d /\ Rabs (d - (v * scale_of c k + offset_of c k) * unit_scale c) <= error k.
  Proof.
    intros K H. rewrite program_value_R by (unfold is_axis; tauto).
    destruct (Rfmt_half (ndigits_out c) (exact_coord c k l)) as [d [D B]]. exists d. split; [exact D|].
    assert (EX : exact_coord c k l = (l * scale_of c k + offset_of c k) * unit_scale c) by (destruct K as [-> | ->]; reflexivity).
    rewrite EX in B. unfold error.
    replace (d - (v * scale_of c k + offset_of c k) * unit_scale c)
      with ((d - (l * scale_of c k + offset_of c k) * unit_scale c) + (l - v) * (scale_of c k * unit_scale c)) by ring.
    eapply Rle_trans; [apply Rabs_triang|]. rewrite Rplus_comm. apply Rplus_le_compat; [|exact B].
    rewrite Rabs_mult. apply Rmult_le_compat_r; [apply Rabs_pos|]. rewrite Rabs_minus_sym. exact H.
  Qed.
  Lemma believed_here p ops m : Forall tracked_op ops -> believes p (run c ops init) ->
    replay (axis_letters c) (out (run c ops init)) machine0 = Some m -> here p m.
  Proof.
    intros F B Rm. destruct (tracking c ops PC F) as (m' & Rm' & M). assert (m' = m) as -> by congruence.
    pose proof (M PX ltac:(unfold is_axis; auto)) as MX. pose proof (M PY ltac:(unfold is_axis; auto)) as MY. cbn [pget] in MX, MY.
    destruct p as [p|]; unfold here, shows_place; cbn [option_map].
    - destruct B as [(x & X1 & X2) (y & Y1 & Y2)]. cbn [pget] in X1, Y1. rewrite X1 in MX. rewrite Y1 in MY. cbn [option_map] in MX, MY.
      revert X2 Y2. cbn [axis_tol wrapped]. rnum. intros X2 Y2. rbool.
      destruct (shown PX (px p) x ltac:(auto) X2) as (dx & D1 & D2). destruct (shown PY (py p) y ltac:(auto) Y2) as (dy & D3 & D4).
      split; [exists dx; rewrite MX|exists dy; rewrite MY]; cbn [option_map]; rewrite ?D1, ?D3; auto.
    - destruct B as [X Y]. rewrite X in MX. rewrite Y in MY. auto.
  Qed.

  (** The calls of a cutting job. *)
  Definition drives (o : @op ROps) : Prop :=
    match o with
    | ORapid (Some _) (Some _) _ _ _ | ORapid None None _ _ _ => True
    | OFeed (Some _) (Some _) _ _ _ _ | OFeed None None _ _ _ _ => True
    | OHeader _ _ | OFooter | OToolUp _ _ _ | OToolDown _ _ _ _ | OComment _ _ => True
    | _ => False
    end.
  (** An arc as the CAM asks for it *)
  Definition arcs (o : @op ROps) : Prop := match o with OArc _ _ _ _ _ _ _ _ _ => True | _ => False end.
  Definition far (o : @op ROps) : bool := match xy_target o with [] => false | _ => true end.
  (** An arc needs a place before it. *)
  Fixpoint steady (known : bool) (ops : list (@op ROps)) : Prop :=
    match ops with [] => True | o :: r => (drives o \/ (arcs o /\ known = true)) /\ steady (known || far o) r end.
  Definition known (p : option (pt ROps)) : bool := match p with Some _ => true | None => false end.
  Definition next (p : option (pt ROps)) (o : @op ROps) : option (pt ROps) := match xy_target o with q :: _ => Some q | [] => p end.
  Lemma moved_close k old new v : (k = PX \/ k = PY) -> moved c old new (Some v) -> forall lv, pget k lv = new -> GcodeProofs4.close c k v lv.
  Proof.
    intros K H lv L.
    assert (Ek : @Num.ltb ROps (axis_tol c k) (@Num.abs ROps (@Num.sub ROps (wrapped c k v) v)) = false /\ axis_tol c k = tolerance c /\ wrapped c k v = v).
    { destruct K as [-> | ->]; cbn [axis_tol wrapped]; rnum; (split; [|split; reflexivity]); apply Rltb_false; replace (v - v) with 0 by lra; rewrite Rabs_R0; lra. }
    destruct Ek as (E1 & E2 & E3). destruct H as [->|(l & _ & -> & H)]; [exists v; auto|]. exists l. rewrite E2, E3. auto.
  Qed.
  Lemma believes_next p o s : drives o \/ (arcs o /\ p <> None) -> believes p s -> believes (next p o) (fst (exec c o s)).
  Proof.
    intros D B.
    assert (Q : forall m : M unit, xy_moves c m None None -> believes p (fst (m s))).
    { intros m X. destruct (X s) as (_ & X1 & X2). unfold moved in X1, X2. destruct p as [p|]; unfold believes in *; [|rewrite X1, X2; auto].
      unfold GcodeProofs4.close in *. cbn [pget] in *. rewrite X1, X2. auto. }
    assert (T : forall (m : M unit) x y, xy_moves c m (Some x) (Some y) -> believes (Some (P x y)) (fst (m s))).
    { intros m x y X. destruct (X s) as (_ & X1 & X2). split; [apply (moved_close PX _ _ x) with (2 := X1)|apply (moved_close PY _ _ y) with (2 := X2)]; auto. }
    destruct o; cbn [drives arcs] in D; try solve [destruct D as [[]|[[] _]]]; unfold next, xy_target; cbn [exec].
    - apply Q, xm_comment.
    - pose proof (op_effect c (OHeader today cm) s PX (no_self_change_R c (Rlt_le _ _ Ht) Ha) (proj1 (proj2 (proj2 PC))) (proj2 (proj2 (proj2 PC))) ltac:(discriminate) ltac:(unfold is_axis; auto)) as H1.
      pose proof (op_effect c (OHeader today cm) s PY (no_self_change_R c (Rlt_le _ _ Ht) Ha) (proj1 (proj2 (proj2 PC))) (proj2 (proj2 (proj2 PC))) ltac:(discriminate) ltac:(unfold is_axis; auto)) as H2.
      cbn [exec request pget] in H1, H2. assert (X1 : vX (last_val (fst (header c today cm s))) = vX (last_val s)) by (destruct (snd (header c today cm s)); auto).
      assert (X2 : vY (last_val (fst (header c today cm s))) = vY (last_val s)) by (destruct (snd (header c today cm s)); auto). clear H1 H2.
      destruct p as [p|]; unfold believes in *; [|rewrite X1, X2; auto]. unfold GcodeProofs4.close in *. cbn [pget] in *. rewrite X1, X2. auto.
    - apply Q, xm_footer.
    - apply Q, xm_tool_up.
    - apply Q, xm_tool_down.
    - destruct x as [x|], y as [y|]; try solve [destruct D as [[]|[[] _]]]; [apply T|apply Q]; apply xm_rapid.
    - destruct x as [x|], y as [y|]; try solve [destruct D as [[]|[[] _]]]; [apply T|apply Q]; apply xm_feed.
    - destruct D as [[]|[_ NP]]. destruct p as [p|]; [|congruence]. destruct B as [(x0 & X & _) (y0 & Y & _)]. cbn [pget] in X, Y.
      destruct (arc_moves c clockwise x y arc_x arc_y a z feed cm s x0 y0 (R_self_close c Ht) X Y) as (_ & X1 & X2).
      split; [apply (moved_close PX _ _ x) with (2 := X1)|apply (moved_close PY _ _ y) with (2 := X2)]; auto.
  Qed.
  Lemma tour_calls ops2 : forall ops1 p, Forall tracked_op (ops1 ++ ops2) -> believes p (run c ops1 init) ->
    steady (known p) ops2 ->
    exists l, out (run c (ops1 ++ ops2) init) = (out (run c ops1 init) ++ l)%list /\
      tour (axis_letters c) here p (out (run c ops1 init)) l (xy_route ops2).
  Proof.
    induction ops2 as [|o ops2 IH]; intros ops1 p F B D.
    - rewrite app_nil_r in *. exists []. rewrite app_nil_r. split; [reflexivity|]. apply t_end. intros done rest E. symmetry in E. apply app_eq_nil in E as [-> ->].
      rewrite app_nil_r. destruct (tracking c ops1 PC F) as (m & Rm & _). exists m. split; [exact Rm|]. left. exact (believed_here p ops1 m F B Rm).
    - assert (F1 : Forall tracked_op (ops1 ++ [o])) by (apply Forall_app in F as [F1 F2]; apply Forall_app; split; [exact F1|constructor; [now inversion F2|constructor]]).
      assert (F0 : Forall tracked_op ops1) by (now apply Forall_app in F1).
      assert (Do : drives o \/ (arcs o /\ p <> None)).
      { destruct D as [[H|[H H']] _]; auto. right. split; [exact H|]. destruct p; discriminate. }
      assert (B1 : believes (next p o) (run c (ops1 ++ [o]) init)).
      { rewrite run_app. cbn [run fold_left]. now apply believes_next. }
      replace (ops1 ++ o :: ops2)%list with ((ops1 ++ [o]) ++ ops2)%list in * by (rewrite <- app_assoc; reflexivity).
      destruct (IH (ops1 ++ [o])%list (next p o) F B1) as (l2 & L2 & T2).
      { destruct D as [_ D]. unfold next, far in *. destruct (xy_target o); [now rewrite orb_false_r in D|now rewrite orb_true_r in D]. }
      destruct (run_extends c ops1 o PC F1) as (l1 & L1). exists (l1 ++ l2)%list. rewrite L2, L1 in *. split; [now rewrite app_assoc|].
      assert (Bt : on_way (axis_letters c) here p (next p o) (out (run c ops1 init)) l1).
      { intros done rest E. rewrite E in L1. destruct (C130_one_move c ops1 o done rest PC F1 L1) as (m0 & m & m1 & M0 & M & M1 & H).
        exists m. split; [exact M|]. destruct H as [H|H]; [left|right].
        - apply (here_xy p m0); [now symmetry|]. exact (believed_here p ops1 m0 F0 B M0).
        - apply (here_xy _ m1); [now symmetry|]. exact (believed_here _ _ m1 F1 B1 M1). }
      cbn [xy_route flat_map]. assert (X1 : (List.length (xy_target o) <= 1)%nat) by (destruct o as [| | | | | | | | | | | [?|] [?|] | [?|] [?|] | |]; cbn; lia).
      unfold next in Bt, T2, B1. destruct (xy_target o) as [|q [|q' r]] eqn:X; [|clear X1|cbn in X1; lia]; cbn [app].
      + apply tour_wait; auto.
      + apply t_step; auto. destruct (tracking c _ PC F1) as (m & Rm & _). exists m. rewrite L1 in Rm. split; [exact Rm|].
        refine (believed_here (Some q) _ m F1 _ _); [exact B1|now rewrite L1].
  Qed.
End Calls.


(** ** The calls of a job *)
Section Job.
  Notation path := (list (cseg ROps)).
  Lemma steady_true k ops : steady k ops -> steady true ops.
  Proof.
    revert k. induction ops as [|o r IH]; intros k; cbn [steady]; [auto|]. intros [H H']. split; [|exact (IH _ H')]. destruct H as [H|[H _]]; auto.
  Qed.
  Lemma steady_app a b : forall k, steady k a -> steady (k || existsb far a) b -> steady k (a ++ b).
  Proof.
    induction a as [|o a IH]; intros k; cbn [steady app existsb]; [now rewrite orb_false_r|]. intros [H H'] B. split; [exact H|].
    apply IH; [exact H'|]. now rewrite <- orb_assoc.
  Qed.
  Lemma steady_concat {A} (Q : A -> list (@op ROps) -> Prop) k l ops : (forall x o, Q x o -> steady k o) -> concat_of Q l ops -> steady k ops.
  Proof.
    intros H. induction 1 as [|x xs o os Hx _ IH]; [exact Logic.I|]. apply steady_app; [eauto|]. destruct (k || _) eqn:Ek; [exact (steady_true _ _ IH)|].
    apply orb_false_iff in Ek as [-> _]. exact IH.
  Qed.
  Lemma steady_job home start (l : list path) ds ops : job_program home start l ds ops -> steady false ops.
  Proof.
    intros (today & body & C & ->). cbn [app steady]. split; [left; exact Logic.I|]. split; [left; exact Logic.I|]. cbn [far xy_target orb].
    apply steady_app.
    - revert C. apply steady_concat. intros d o. apply steady_concat. clear. intros p o (s & r & text & a & b & -> & -> & C).
      cbn [steady far xy_target orb]. repeat (split; [left; exact Logic.I|]). revert C. apply steady_concat. clear. intros s o (q & C & O).
      assert (Dq : drives q \/ arcs q) by (destruct C as (a & [->|(ar & _ & ->)]); [left|right]; exact Logic.I).
      destruct O as [->|(a & ->)]; cbn [steady far xy_target orb drives].
      + split; [destruct Dq; auto|exact Logic.I].
      + split; [left; exact Logic.I|]. split; [destruct Dq; auto|exact Logic.I].
    - cbn [app steady]. split; [left; exact Logic.I|]. destruct home; cbn [app steady]; repeat (split; [left; exact Logic.I|]); exact Logic.I.
  Qed.
  Lemma job_tour (c c' : config ROps) n ct home start (l : list path) ds ops : plain_config c -> 0 < tolerance c -> 0 <= angle_tolerance c ->
    c' = job_config c n ct -> Forall tracked_op ops -> job_program home start l ds ops ->
    tour (axis_letters c) (here c) None [] (out (run c' ops init)) (xy_route ops).
  Proof.
    intros PC Ht Ha -> F J. destruct (job_config_fields c n ct) as (F1 & F2 & F3 & F4 & F5 & F6).
    assert (H : here (job_config c n ct) = here c /\ angle_tolerance (job_config c n ct) = angle_tolerance c) by (destruct c; split; reflexivity).
    destruct H as [H1 H2].
    destruct (tour_calls (job_config c n ct) (F1 PC) ltac:(rewrite F3; exact Ht) ltac:(rewrite H2; exact Ha) ops [] None F) as (lines & L & T).
    - split; reflexivity.
    - apply (steady_job _ _ _ _ _ J).
    - cbn [app] in L. cbn [out run fold_left init app] in L, T. rewrite L. rewrite <- F6, <- H1. exact T.
  Qed.
End Job.
