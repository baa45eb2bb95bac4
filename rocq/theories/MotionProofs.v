(** * MotionProofs: which lines a call writes (used by C129-C132). *)
From Coq Require Import String Ascii ZArith NArith List Bool Lia.
From Verif Require Import Num Str Gcode GcodeSpec GcodeProofs GcodeProofs2 GcodeProofs3.
Import ListNotations.
Local Open Scope string_scope.
Local Open Scope list_scope.

Section Motion.
  Context {N : NumOps}.
  Variable c : config N.

  (** ** Calls all of whose lines satisfy [Q] *)
  Section Lines.
    Variable Q : item -> Prop.
    Definition all_q {A} (m : M A) : Prop := forall s : state N, exists l, out (fst (m s)) = (out s ++ l)%list /\ Forall Q l.
    Lemma q_same {A} (m : M A) : (forall s, out (fst (m s)) = out s) -> all_q m.
    Proof. intros H s. exists []. rewrite H, app_nil_r. auto. Qed.
    Lemma q_bind {A B} (m : M A) (f : A -> M B) : all_q m -> (forall a, all_q (f a)) -> all_q (bind m f).
    Proof.
      intros Hm Hf s. unfold bind. destruct (Hm s) as [l [E F]]. destruct (m s) as [s' [a|e]]; cbn in *; [|eauto].
      destruct (Hf a s') as [l' [E' F']]. exists (l ++ l')%list. rewrite E', E, app_assoc. split; auto. apply Forall_app; auto.
    Qed.
    Lemma q_when b m : all_q m -> all_q (when b m).
    Proof. intros H; destruct b; auto. apply q_same; reflexivity. Qed.
    Hypothesis Qraw : forall i, nonline i -> Q i.
    Hypothesis Qline : forall n b cm, passive_item (Line n b cm) -> (forall a x y, b <> IntWord a x y) -> Q (Line n b cm).
    Hypothesis Qfeed : forall n p v cm, Q (Line n (Block "" [mkword "F" p v]) cm).
    Variable okargs : @cmd_args N -> Prop.
    Hypothesis Qcmd : forall cmd a, In cmd motion_group -> a_params a = None -> okargs a -> all_q (gcode_command c cmd a).
    Hypothesis Qspin : spindle_auto c = true -> forall n cmd t k cm, Q (Line n (IntWord cmd t k) cm).
    Hypothesis Hup : alt_tool_up c = None.
    Hypothesis Hdn : alt_tool_down c = None.
    Hypothesis okup : forall v f force cm, okargs (mkargs (mkp None None (Some v) None None None None f) None force cm).

    Lemma q_emit i : nonline i -> all_q (emit i).
    Proof. intros H s. exists [i]. split; [reflexivity|]. constructor; auto. Qed.
    Lemma q_line b cm : passive_item (Line None b None) -> (forall a x y, b <> IntWord a x y) -> all_q (write_line c b cm).
    Proof. intros H I0 s. eexists. split; [reflexivity|]. constructor; [|constructor]. apply Qline; auto. Qed.
    Lemma q_dwell ms cm : all_q (dwell c ms cm).
    Proof. apply q_when, q_line; [cbn; auto|discriminate]. Qed.
    Lemma q_spindle_on a b d e : (forall n cmd t k cm, Q (Line n (IntWord cmd t k) cm)) -> all_q (spindle_on c a b d e).
    Proof.
      intros H. apply q_bind; [|intros _; apply q_when, q_dwell]. intros s. eexists. split; [reflexivity|]. constructor; auto.
    Qed.
    Lemma q_spindle_off a b : all_q (spindle_off c a b).
    Proof. apply q_bind; [apply q_line; [reflexivity|discriminate]|intros _; apply q_when, q_dwell]. Qed.
    Lemma q_auto : all_q (when (spindle_auto c) (spindle_on c None None None None)).
    Proof. destruct (spindle_auto c) eqn:E; [|apply q_same; reflexivity]. apply q_spindle_on. now apply Qspin. Qed.
    Lemma q_tool_up r w cm : all_q (tool_up c r w cm).
    Proof.
      unfold tool_up. rewrite Hup. apply q_bind; [apply Qcmd; [destruct r; cbn; auto|reflexivity|apply okup]|intros _].
      apply q_bind; [apply q_when, q_spindle_off|intros _]. apply q_bind; [apply q_when, q_dwell|intros _].
      apply q_bind; [apply q_same; reflexivity|intros _; apply q_same; reflexivity].
    Qed.
    Lemma q_tool_down z f w cm : all_q (tool_down c z f w cm).
    Proof.
      unfold tool_down. rewrite Hdn. apply q_bind; [apply q_auto|intros _].
      apply q_bind; [apply Qcmd; [cbn; auto|reflexivity|apply okup]|intros _].
      apply q_bind; [apply q_same; reflexivity|intros _].
      apply q_bind; [apply q_when, q_dwell|intros _; apply q_same; reflexivity].
    Qed.
    Lemma q_comment a semi : all_q (comment c a semi).
    Proof.
      apply q_when.
      assert (W : forall o, all_q (write_comment semi o)).
      { intros [s|]; unfold write_comment; [destruct (nonempty s)|]; apply q_emit; exact I. }
      destruct a as [|s|l]; [apply W|apply W|].
      induction l as [|x l IH]; [apply q_same; reflexivity|]. apply q_bind; [apply W|intros _; exact IH].
    Qed.
    Lemma q_feed_rate f : all_q (feed_rate c f).
    Proof.
      intros s. unfold feed_rate. destruct (vF (last_val s)).
      - exists []. cbn. now rewrite app_nil_r.
      - cbn -[app]. eexists; split; [reflexivity|]. constructor; auto.
    Qed.
    Lemma q_header t cm : all_q (header c t cm).
    Proof.
      unfold header.
      repeat (apply q_bind; [first
        [ apply q_emit; exact I | apply q_comment | apply q_line; [reflexivity|discriminate]
        | apply q_feed_rate | idtac ] | intros _]).
      - generalize (header_comments c). intros l. induction l as [|x l IH]; [apply q_same; reflexivity|].
        apply q_bind; [apply q_comment|intros _; apply IH].
      - destruct cm; [apply q_comment|apply q_same; reflexivity].
      - destruct (String.eqb _ _); apply q_line; try reflexivity; discriminate.
      - unfold blend_line. destruct (blend_mode c); [|apply q_same; reflexivity].
        destruct (String.eqb _ _).
        + destruct (blend_tolerance c); [destruct (blend_qtolerance c)|]; apply q_line; cbn; auto; discriminate.
        + destruct (String.eqb _ _); [apply q_line; [reflexivity|discriminate]|apply q_same; reflexivity].
      - apply q_emit; exact I.
    Qed.
    Lemma q_footer : forall s, axis_offset_reset s = false -> exists l, out (fst (footer c s)) = (out s ++ l)%list /\ Forall Q l.
    Proof.
      intros s H. unfold footer, bind. cbn [emit fst snd]. cbn. rewrite H. cbn.
      eexists. split; [rewrite <- !app_assoc; reflexivity|]. repeat constructor; try (apply Qraw; exact I). apply Qline; [reflexivity|discriminate].
    Qed.
    Lemma q_pause b cm : all_q (pause c b cm).
    Proof.
      intros s. unfold pause, gcode_command, no_args. destruct b; cbn; eexists; (split; [reflexivity|]); repeat constructor; apply Qline; try reflexivity; discriminate.
    Qed.
    Lemma q_rapid x y z a cm : (forall z', okargs (mkargs (mkp x y (Some z') None None None a None) None "" cm)) -> all_q (rapid_move c x y z a cm).
    Proof.
      intros Ho. apply q_bind.
      - intros s. destruct (match _ with Some _ => _ | None => _ end); [apply q_tool_up|]. exists []. cbn. now rewrite app_nil_r.
      - intros _. apply q_bind; [apply Qcmd; cbn; auto|intros _ s]. cbn. exists []. now rewrite app_nil_r.
    Qed.
    Lemma q_feed x y z a f cm : (forall f, okargs (mkargs (mkp x y z None None None a (Some f)) None "" cm)) -> all_q (feed c x y z a f cm).
    Proof.
      intros Ho. unfold feed. destruct (feed_default _ _ _ _ _ _); [|apply q_same; reflexivity].
      apply q_bind; [apply Qcmd; cbn; auto|intros _ s]. cbn. exists []. now rewrite app_nil_r.
    Qed.
    Lemma q_arc cw x y i j a z f cm : (forall f, okargs (mkargs (mkp (Some x) (Some y) z (Some i) (Some j) None a (Some f)) None "IJ" cm)) -> all_q (feed_arc c cw x y i j a z f cm).
    Proof.
      intros Ho s. unfold feed_arc. destruct (vX (last_val s)); [|exists []; cbn; now rewrite app_nil_r].
      destruct (vY (last_val s)); [|exists []; cbn; now rewrite app_nil_r]. destruct (negb _); [exists []; cbn; now rewrite app_nil_r|].
      revert s. apply q_bind; [apply Qcmd; [destruct cw; cbn; auto|reflexivity|apply Ho]|intros _ s]. cbn. exists []. now rewrite app_nil_r.
    Qed.
  End Lines.

  (** ** No spindle *)
  Definition not_spindle (i : item) : Prop := forall n cmd t k cm, i <> Line n (IntWord cmd t k) cm.
  Lemma spin_cmd cmd a : In cmd motion_group -> a_params a = None -> all_q not_spindle (gcode_command c cmd a).
  Proof.
    intros Hc Hp s. rewrite gcode_motion by auto. destruct (fold_left _ _ _) as [[lv up] pos].
    destruct (Nat.ltb 0 _); [destruct (_ || _)|]; cbn -[app words_of]; (eexists; split; [try reflexivity; try (symmetry; apply app_nil_r)|]); auto.
    constructor; auto. intros ? ? ? ? ? Q. discriminate.
  Qed.
  Theorem no_spindle ops : plain_config c -> spindle_auto c = false -> Forall tracked_op ops ->
    Forall (fun o => forall a b d e, o <> OSpindleOn a b d e) ops -> Forall not_spindle (out (run c ops init)).
  Proof.
    intros PC Sa F1 F2.
    assert (G : forall s, track_inv c s -> Forall not_spindle (out s) -> Forall not_spindle (out (run c ops s))); [|apply G; [apply track_init|constructor]].
    induction F1 as [|o ops Ho _ IH]; intros s Ht Hs; [exact Hs|]. inversion F2 as [|? ? N1 N2]; subst. cbn [run fold_left]. apply (IH N2).
    { now apply track_exec. }
    assert (R1 : forall i, nonline i -> not_spindle i) by (intros i Hi n cmd t k cm ->; exact Hi).
    assert (R2 : forall n b cm, passive_item (Line n b cm) -> (forall a x y, b <> IntWord a x y) -> not_spindle (Line n b cm)).
    { intros n b cm _ Hb ? ? ? ? ? Q. injection Q as _ Q _. eapply Hb, Q. }
    assert (R3 : forall n p v cm, not_spindle (Line n (Block "" [mkword "F" p v]) cm)) by (intros; intros ? ? ? ? ? Q; discriminate).
    assert (R4 : forall cmd a, In cmd motion_group -> a_params a = None -> True -> all_q not_spindle (gcode_command c cmd a)) by (intros; now apply spin_cmd).
    assert (R5 : spindle_auto c = true -> forall n cmd t k cm, not_spindle (Line n (IntWord cmd t k) cm)) by (rewrite Sa; discriminate).
    destruct PC as (ND & HF & Hu & Hd).
    assert (E : exists l, out (fst (exec c o s)) = out s ++ l /\ Forall not_spindle l).
    { destruct o; cbn [exec]; try contradiction; try (now destruct (N1 speed cw wait cm)).
      - apply q_comment; auto.
      - apply q_header; auto.
      - apply q_footer; auto. apply Ht.
      - apply q_feed_rate; auto.
      - apply q_pause; auto.
      - apply q_dwell; auto.
      - apply q_tool_up with (okargs := fun _ => True); auto.
      - apply q_tool_down with (okargs := fun _ => True); auto.
      - apply q_spindle_off; auto.
      - apply q_rapid with (okargs := fun _ => True); auto.
      - apply q_feed with (okargs := fun _ => True); auto.
      - apply q_arc with (okargs := fun _ => True); auto. }
    destruct E as (l & -> & F). now apply Forall_app.
  Qed.

  (** ** One move of X and Y per call *)
  Definition same_xy (m m' : machine) : Prop :=
    mpos m' (out_name c PX) = mpos m (out_name c PX) /\ mpos m' (out_name c PY) = mpos m (out_name c PY).
  Definition keeps_xy (i : item) : Prop := forall m m', step_item (axis_letters c) m i = Some m' -> same_xy m m'.
  Lemma xy_passive i : passive_item i -> keeps_xy i.
  Proof. intros P m m' E. rewrite step_passive in E by exact P. injection E as <-. split; reflexivity. Qed.
  Lemma fold_pos_none base args k l acc : pget k (a_vals args) = None ->
    pget k (snd (fold_left (scan_param c base args) l acc)) = pget k (snd acc).
  Proof.
    intros H. revert acc; induction l as [|k' l IH]; intros acc; [reflexivity|]. cbn [fold_left]. rewrite IH. destruct acc as [[lv up] pos]. unfold scan_param.
    destruct (pget k' (a_vals args)) eqn:E; auto. destruct (_ || _ || _); auto. cbn [snd]. apply pget_pset_other. congruence.
  Qed.
  Hypothesis ND : NoDup (map (out_name c) out_order).
  Lemma xy_cmd cmd a : In cmd motion_group -> a_params a = None -> pget PX (a_vals a) = None -> pget PY (a_vals a) = None ->
    all_q keeps_xy (gcode_command c cmd a).
  Proof.
    intros Hc Hp HX HY s. rewrite gcode_motion by auto.
    pose proof (fold_pos_none cmd a PX scan_order (last_val s, is_tool_up s, pempty) HX) as QX.
    pose proof (fold_pos_none cmd a PY scan_order (last_val s, is_tool_up s, pempty) HY) as QY.
    destruct (fold_left _ _ _) as [[lv up] pos]. cbn [snd] in QX, QY. rewrite pget_pempty in QX, QY.
    destruct (Nat.ltb 0 _); [destruct (_ || _)|]; cbn -[app words_of]; (eexists; split; [try reflexivity; try (symmetry; apply app_nil_r)|]); auto.
    constructor; auto. intros m m' E. rewrite step_motion in E by exact Hc. match type of E with Some ?x = _ => assert (m' = x) as -> by congruence end. unfold same_xy. cbn [mpos].
    change (words_of c pos) with (pos_words c pos out_order).
    split; (rewrite move_words; [rewrite ?QX, ?QY; reflexivity|exact ND|cbn; tauto|apply axis_letter_in; unfold is_axis; auto]).
  Qed.
  (** At most one line that may change X and Y. *)
  Definition once {A} (m : M A) (s : state N) : Prop := exists l1 l2 l3,
    out (fst (m s)) = out s ++ l1 ++ l2 ++ l3 /\ Forall keeps_xy l1 /\ length l2 <= 1 /\ Forall keeps_xy l3.
  Lemma once_all {A} (m : M A) s : (exists l, out (fst (m s)) = out s ++ l /\ Forall keeps_xy l) -> once m s.
  Proof. intros (l & E & F). exists l, [], []. rewrite app_nil_r. repeat split; auto. Qed.
  Lemma once_then {A B} (m : M A) (f : A -> M B) s : all_q keeps_xy m -> (forall a s, once (f a) s) -> once (bind m f) s.
  Proof.
    intros Hm Hf. destruct (Hm s) as (l & E & F). unfold once, bind. destruct (m s) as [s' [a|e]]; cbn [fst] in *.
    - destruct (Hf a s') as (l1 & l2 & l3 & E1 & F1 & L & F3). exists (l ++ l1), l2, l3. rewrite E1, E, <- !app_assoc. repeat split; auto. now apply Forall_app.
    - exists l, [], []. rewrite app_nil_r. repeat split; auto.
  Qed.
  Lemma once_before {A B} (m : M A) (f : A -> M B) s : once m s -> (forall a, all_q keeps_xy (f a)) -> once (bind m f) s.
  Proof.
    intros (l1 & l2 & l3 & E & F1 & L & F3) Hf. unfold once, bind. destruct (m s) as [s' [a|e]]; cbn [fst] in *.
    - destruct (Hf a s') as (l & E' & F'). exists l1, l2, (l3 ++ l). rewrite E', E, <- !app_assoc. repeat split; auto. now apply Forall_app.
    - exists l1, l2, l3. auto.
  Qed.
  Lemma once_cmd cmd a s : In cmd motion_group -> a_params a = None -> once (gcode_command c cmd a) s.
  Proof.
    intros Hc Hp. unfold once. rewrite gcode_motion by auto. destruct (fold_left _ _ _) as [[lv up] pos].
    destruct (Nat.ltb 0 _); [destruct (_ || _)|]; cbn -[app words_of].
    - exists [], [Line (if show_line_numbers c then Some (line_number s) else None) (Block cmd (words_of c pos)) (shown c (a_comment a))], []. repeat split; auto.
    - exists [], [], []. cbn. rewrite app_nil_r. repeat split; auto.
    - exists [], [], []. cbn. rewrite app_nil_r. repeat split; auto.
  Qed.
  Lemma once_exec o s : plain_config c -> tracked_op o -> track_inv c s -> once (exec c o) s.
  Proof.
    intros (_ & HF & Hu & Hd) To Ht.
    assert (R1 : forall i, nonline i -> keeps_xy i) by (intros i Hi; apply xy_passive; destruct i; try contradiction; exact I).
    assert (R2 : forall n b cm, passive_item (Line n b cm) -> (forall a x y, b <> IntWord a x y) -> keeps_xy (Line n b cm)) by (intros; now apply xy_passive).
    assert (R3 : forall n p v cm, keeps_xy (Line n (Block "" [mkword "F" p v]) cm)).
    { intros n p v cm m m' E. cbn in E. injection E as <-. split; reflexivity. }
    set (ok := fun a : @cmd_args N => pget PX (a_vals a) = None /\ pget PY (a_vals a) = None).
    assert (R4 : forall cmd a, In cmd motion_group -> a_params a = None -> ok a -> all_q keeps_xy (gcode_command c cmd a)) by (intros cmd a ? ? []; now apply xy_cmd).
    assert (R5 : forall n cmd t k cm, (cmd = "M3" \/ cmd = "M4") -> keeps_xy (Line n (IntWord cmd t k) cm)) by (intros n cmd t k cm Hc; apply xy_passive; destruct Hc as [-> | ->]; reflexivity).
    assert (R6 : forall v f force cm, ok (mkargs (mkp None None (Some v) None None None None f) None force cm)) by (split; reflexivity).
    assert (On : forall a b d e, all_q keeps_xy (spindle_on c a b d e)).
    { intros a b d e. apply q_bind; [|intros _; apply q_when, q_dwell; auto]. intros s0. eexists. split; [reflexivity|]. constructor; auto.
      apply R5. destruct (dflt _ _); auto. }
    assert (Up : forall r w cm, all_q keeps_xy (tool_up c r w cm)) by (intros; apply q_tool_up with (okargs := ok); auto).
    assert (Same : forall {A} (m : M A), (forall s, out (fst (m s)) = out s) -> all_q keeps_xy m) by (intros A m; apply q_same).
    destruct o; cbn [exec]; try contradiction.
    - apply once_all, q_comment; auto.
    - apply once_all, q_header; auto.
    - apply once_all, q_footer; auto. apply Ht.
    - apply once_all, q_feed_rate; auto.
    - apply once_all, q_pause; auto.
    - apply once_all, q_dwell; auto.
    - apply once_all, Up.
    - apply once_all. unfold tool_down. rewrite Hd. apply q_bind; [apply q_when, On|intros _].
      apply q_bind; [apply R4; [cbn; auto|reflexivity|apply R6]|intros _]. apply q_bind; [apply Same; reflexivity|intros _].
      apply q_bind; [apply q_when, q_dwell; auto|intros _; apply Same; reflexivity].
    - apply once_all, On.
    - apply once_all, q_spindle_off; auto.
    - apply once_then.
      + intros s0. destruct (match _ with Some _ => _ | None => _ end); [apply Up|]. exists []. cbn. now rewrite app_nil_r.
      + intros _ s0. apply once_before; [apply once_cmd; cbn; auto|]. intros _ s1. cbn. exists []. now rewrite app_nil_r.
    - unfold Gcode.feed. destruct (feed_default _ _ _ _ _ _).
      + apply once_before; [apply once_cmd; cbn; auto|]. intros _ s1. cbn. exists []. now rewrite app_nil_r.
      + apply once_all. exists []. cbn. now rewrite app_nil_r.
    - unfold feed_arc, once.
      assert (Nothing : forall e, exists l1 l2 l3, out (fst (@raise N unit e s)) = out s ++ l1 ++ l2 ++ l3 /\ Forall keeps_xy l1 /\ length l2 <= 1 /\ Forall keeps_xy l3).
      { intros e. exists [], [], []. cbn. rewrite app_nil_r. repeat split; auto. }
      destruct (vX (last_val s)); [|apply Nothing]. destruct (vY (last_val s)); [|apply Nothing]. destruct (negb _); [apply Nothing|].
      match goal with |- exists l1 l2 l3, out (fst (?m s)) = _ /\ _ => change (once m s) end.
      apply once_before; [apply once_cmd; [destruct clockwise; cbn; auto|reflexivity]|]. intros _ s1. cbn. exists []. now rewrite app_nil_r.
  Qed.
  Lemma keeps_replay l : Forall keeps_xy l -> forall m m', replay (axis_letters c) l m = Some m' -> same_xy m m'.
  Proof.
    induction 1 as [|i l Hi _ IH]; intros m m' E; cbn in E; [injection E as <-; split; reflexivity|].
    destruct (step_item _ m i) as [m1|] eqn:S; [|discriminate]. destruct (Hi _ _ S) as [A B]. destruct (IH _ _ E) as [C D]. split; congruence.
  Qed.
  Lemma replay_prefix p q m m' : replay (axis_letters c) (p ++ q) m = Some m' -> exists m1, replay (axis_letters c) p m = Some m1 /\ replay (axis_letters c) q m1 = Some m'.
  Proof. rewrite replay_app. destruct (replay _ p m) as [m1|]; [eauto|discriminate]. Qed.
  Theorem one_move ops o b a : plain_config c -> Forall tracked_op (ops ++ [o]) ->
    out (run c (ops ++ [o]) init) = out (run c ops init) ++ b ++ a ->
    exists m0 m m1, replay (axis_letters c) (out (run c ops init)) machine0 = Some m0 /\
      replay (axis_letters c) (out (run c ops init) ++ b) machine0 = Some m /\
      replay (axis_letters c) (out (run c (ops ++ [o]) init)) machine0 = Some m1 /\ (same_xy m0 m \/ same_xy m1 m).
  Proof.
    intros PC F E. pose proof F as F'. apply Forall_app in F' as [F1 F2]. inversion F2 as [|? ? Ho _]; subst.
    assert (Ti : track_inv c (run c ops init)) by (apply (run_pres (track_inv c) tracked_op); auto; [intros; now apply track_exec|apply track_init]).
    destruct (tracking c (ops ++ [o]) PC F) as (m1 & R1 & _). rewrite R1.
    pose proof R1 as R1'. rewrite E in R1'. apply replay_prefix in R1' as (m0 & R0 & R2). apply replay_prefix in R2 as (m & R3 & R4).
    exists m0, m, m1. split; [exact R0|]. split; [rewrite replay_app, R0; exact R3|]. split; [reflexivity|].
    destruct (once_exec o (run c ops init) PC Ho Ti) as (l1 & l2 & l3 & L & K1 & K2 & K3).
    unfold run in E. rewrite fold_left_app in E. cbn [fold_left] in E. fold (run c ops init) in E. rewrite L in E. apply app_inv_head in E.
    (* the prefix ends in l1, or after l2 *)
    destruct (Nat.le_gt_cases (length b) (length l1)) as [Hb|Hb].
    - left. apply (keeps_replay b); [|exact R3].
      assert (B : b = firstn (length b) l1).
      { transitivity (firstn (length b) (b ++ a)); [now rewrite firstn_app, Nat.sub_diag, firstn_all, firstn_O, app_nil_r|].
        rewrite <- E, firstn_app. replace (length b - length l1) with 0 by lia. cbn. now rewrite app_nil_r. }
      rewrite B. rewrite Forall_forall in K1 |- *. intros i Hi. apply K1. rewrite <- (firstn_skipn (length b) l1). apply in_or_app. now left.
    - right.
      assert (B : exists r, l3 = r ++ a).
      { assert (Ha : length a <= length l3).
        { assert (length (l1 ++ l2 ++ l3) = length (b ++ a)) by now rewrite E. rewrite !app_length in H. lia. }
        exists (firstn (length l3 - length a) l3).
        transitivity (firstn (length l3 - length a) l3 ++ skipn (length l3 - length a) l3); [now rewrite firstn_skipn|]. f_equal.
        assert (S : skipn (length b) (b ++ a) = a) by (rewrite skipn_app, skipn_all, Nat.sub_diag; reflexivity).
        transitivity (skipn (length b) (b ++ a)); [|exact S]. rewrite <- E, app_assoc, skipn_app.
        assert (Hl : length (l1 ++ l2) <= length b) by (rewrite app_length; lia).
        rewrite (skipn_all2 (l1 ++ l2)) by exact Hl. cbn. f_equal.
        assert (length (l1 ++ l2 ++ l3) = length (b ++ a)) by now rewrite E. rewrite !app_length in *. lia. }
      destruct B as (r & ->). apply Forall_app in K3 as [_ K3].
      destruct (keeps_replay a K3 m m1 R4) as [A B]. split; congruence.
  Qed.
End Motion.
