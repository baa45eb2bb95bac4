(** * GcodeProofs5: comments and axis names never influence the program;
      feed-rate bookkeeping; single-call facts. *)
From Coq Require Import String Ascii ZArith NArith List Bool Lia.
From Verif Require Import Num Str Gcode GcodeSpec GcodeProofs GcodeProofs2 GcodeProofs3 GcodeProofs4.
Import ListNotations.
Local Open Scope string_scope.

(** ** Specification *)
(** The executable part of a program: numbered bodies, without comments. *)
Definition exe (prog : list item) : list (option BinNums.N * body) :=
  flat_map (fun i => match i with Line n b _ => [(n, b)] | _ => [] end) prog.

(** A configuration with comment switches and axis names set to fixed values. *)
Definition core {N : NumOps} (sc : bool) (hc : list comment_arg) (am : list (string * string))
           (c : config N) : config N :=
  let '(mkcfg xyf zf af zs us tl atl twd twu atu atd swo swf scw ssp sau wr _ sln _ bm bt bq gu nd asc aof _) := c in
  mkcfg xyf zf af zs us tl atl twd twu atu atd swo swf scw ssp sau wr sc sln hc bm bt bq gu nd asc aof am.

(** A call without its comment arguments. *)
Definition strip_op {N : NumOps} (o : @op N) : @op N :=
  match o with
  | OComment _ _ => OComment CNone true
  | OHeader _ _ => OHeader "" None
  | OPause b _ => OPause b None
  | ODwell ms _ => ODwell ms None
  | OToolUp r w _ => OToolUp r w None
  | OToolDown z f w _ => OToolDown z f w None
  | OSpindleOn a b d _ => OSpindleOn a b d None
  | OSpindleOff w _ => OSpindleOff w None
  | ORapid x y z a _ => ORapid x y z a None
  | OFeed x y z a f _ => OFeed x y z a f None
  | OArc cw x y i j a z f _ => OArc cw x y i j a z f None
  | OCommand cmd args => OCommand cmd (mkargs (a_vals args) (a_params args) (a_force args) None)
  | _ => o
  end.
(** A history without comment calls and comment arguments. *)
Definition strip_ops {N : NumOps} (ops : list (@op N)) : list (@op N) :=
  map strip_op (filter (fun o => match o with OComment _ _ => false | _ => true end) ops).

Section Sim.
  Context {N : NumOps}.
  Variables c1 c2 : config N.
  Hypothesis CORE : core true [] [] c1 = core true [] [] c2.

  Definition Rword (w1 w2 : word) : Prop :=
    wprec w1 = wprec w2 /\ wval w1 = wval w2 /\
    (wname w1 = wname w2 \/ exists k, wname w1 = out_name c1 k /\ wname w2 = out_name c2 k).
  Definition Rbody (b1 b2 : body) : Prop :=
    match b1, b2 with
    | Block cmd1 ws1, Block cmd2 ws2 => cmd1 = cmd2 /\ Forall2 Rword ws1 ws2
    | _, _ => b1 = b2
    end.
  Definition Rline (l1 l2 : option BinNums.N * body) : Prop := fst l1 = fst l2 /\ Rbody (snd l1) (snd l2).
  Definition Rst (s1 s2 : state N) : Prop :=
    last_val s1 = last_val s2 /\ is_tool_up s1 = is_tool_up s2 /\ line_number s1 = line_number s2 /\
    axis_offset_reset s1 = axis_offset_reset s2 /\ plots s1 = plots s2 /\
    Forall2 Rline (exe (out s1)) (exe (out s2)).

  Definition sim (m1 m2 : @M N unit) : Prop :=
    forall s1 s2, Rst s1 s2 -> Rst (fst (m1 s1)) (fst (m2 s2)) /\ snd (m1 s1) = snd (m2 s2).

  Lemma sim_ret : sim (ret tt) (ret tt). Proof. intros s1 s2 H; split; auto. Qed.
  Lemma sim_raise e : sim (raise e) (raise e). Proof. intros s1 s2 H; split; auto. Qed.
  Lemma sim_bind m1 m2 (f1 f2 : unit -> M unit) :
    sim m1 m2 -> (forall u, sim (f1 u) (f2 u)) -> sim (bind m1 f1) (bind m2 f2).
  Proof.
    intros Hm Hf s1 s2 H. unfold bind. specialize (Hm s1 s2 H).
    destruct (m1 s1) as [s1' r1], (m2 s2) as [s2' r2]. cbn in Hm. destruct Hm as [HR ->].
    destruct r2 as [u|e]; [apply Hf; exact HR|split; auto].
  Qed.
  Lemma sim_when b m1 m2 : sim m1 m2 -> sim (when b m1) (when b m2).
  Proof. intros H; destruct b; auto. apply sim_ret. Qed.

  (** Quiet computations: they write comments only. *)
  Definition quiet (m : @M N unit) : Prop :=
    forall s, snd (m s) = Ok tt /\ last_val (fst (m s)) = last_val s /\ is_tool_up (fst (m s)) = is_tool_up s /\
      line_number (fst (m s)) = line_number s /\ axis_offset_reset (fst (m s)) = axis_offset_reset s /\
      plots (fst (m s)) = plots s /\ exe (out (fst (m s))) = exe (out s).
  Lemma sim_quiet m1 m2 : quiet m1 -> quiet m2 -> sim m1 m2.
  Proof.
    intros H1 H2 s1 s2 (A & B & C & D & E & F).
    destruct (H1 s1) as (? & ? & ? & ? & ? & ? & X1), (H2 s2) as (? & ? & ? & ? & ? & ? & X2).
    split; [|congruence]. unfold Rst. rewrite X1, X2. repeat split; congruence || exact F.
  Qed.
  Lemma quiet_ret : quiet (ret tt). Proof. intros s; cbn; auto 10. Qed.
  Lemma quiet_bind m (f : unit -> M unit) : quiet m -> (forall u, quiet (f u)) -> quiet (bind m f).
  Proof.
    intros Hm Hf s. unfold bind. specialize (Hm s). destruct (m s) as [s' r]. cbn in Hm.
    destruct Hm as (-> & ? & ? & ? & ? & ? & ?). destruct (Hf tt s') as (? & ? & ? & ? & ? & ? & ?).
    repeat split; congruence.
  Qed.
  Lemma exe_app p q : exe (p ++ q) = (exe p ++ exe q)%list.
  Proof. apply flat_map_app. Qed.
  Lemma quiet_emit i : nonline i -> quiet (emit i).
  Proof.
    intros H s. repeat split. cbn [emit fst out]. rewrite exe_app. destruct i; cbn; try contradiction; apply app_nil_r.
  Qed.
  Lemma quiet_comment (c : config N) a semi : quiet (comment c a semi).
  Proof.
    unfold comment. destruct (show_comments c); [|apply quiet_ret]. unfold when.
    assert (W : forall o, quiet (write_comment semi o)).
    { intros [s|]; unfold write_comment; [destruct (nonempty s)|]; apply quiet_emit; exact I. }
    destruct a as [|s|l]; [apply W|apply W|].
    induction l as [|x l IH]; [apply quiet_ret|]. apply quiet_bind; [apply W|intros _; exact IH].
  Qed.

  Lemma cfg_fields :
    xyfeed c1 = xyfeed c2 /\ zfeed c1 = zfeed c2 /\ afeed c1 = afeed c2 /\ zsafe c1 = zsafe c2 /\
    unit_scale c1 = unit_scale c2 /\ tolerance c1 = tolerance c2 /\ angle_tolerance c1 = angle_tolerance c2 /\
    tool_wait_down c1 = tool_wait_down c2 /\ tool_wait_up c1 = tool_wait_up c2 /\
    alt_tool_up c1 = alt_tool_up c2 /\ alt_tool_down c1 = alt_tool_down c2 /\
    spindle_wait_on c1 = spindle_wait_on c2 /\ spindle_wait_off c1 = spindle_wait_off c2 /\
    spindle_clockwise c1 = spindle_clockwise c2 /\ spindle_speed c1 = spindle_speed c2 /\
    spindle_auto c1 = spindle_auto c2 /\ wrap_angles c1 = wrap_angles c2 /\
    show_line_numbers c1 = show_line_numbers c2 /\
    blend_mode c1 = blend_mode c2 /\ blend_tolerance c1 = blend_tolerance c2 /\
    blend_qtolerance c1 = blend_qtolerance c2 /\ gc_unit c1 = gc_unit c2 /\
    ndigits_out c1 = ndigits_out c2 /\ axis_scale c1 = axis_scale c2 /\ axis_offset c1 = axis_offset c2.
  Proof.
    pose proof CORE as H. destruct c1, c2; cbn in *. injection H. intros. subst. repeat split.
  Qed.

  Lemma Rbody_refl b : Rbody b b.
  Proof.
    destruct b; cbn; auto. split; auto. induction ws; constructor; auto. split; auto.
  Qed.
  Lemma sim_line b1 b2 cm1 cm2 : Rbody b1 b2 -> sim (write_line c1 b1 cm1) (write_line c2 b2 cm2).
  Proof.
    intros HB s1 s2 (A & B & C & D & E & F). destruct cfg_fields as (_&_&_&_&_&_&_&_&_&_&_&_&_&_&_&_&_&SL&_).
    split; [|reflexivity]. unfold write_line, Rst. cbn [fst last_val is_tool_up line_number axis_offset_reset plots out].
    rewrite SL, C. repeat split; auto. rewrite !exe_app. apply Forall2_app; auto.
    cbn. constructor; [|constructor]. split; auto.
  Qed.

  Definition same_args (a1 a2 : @cmd_args N) : Prop :=
    a_vals a1 = a_vals a2 /\ a_params a1 = a_params a2 /\ a_force a1 = a_force a2.

  Lemma scan_same base a1 a2 acc k : same_args a1 a2 -> scan_param c1 base a1 acc k = scan_param c2 base a2 acc k.
  Proof.
    intros (E1 & _ & E3). pose proof CORE as HC. destruct c1, c2; cbn in HC. injection HC. intros. subst.
    destruct acc as [[lv up] pos]. unfold scan_param. rewrite E1, E3. reflexivity.
  Qed.
  Lemma fold_same base a1 a2 l acc :
    same_args a1 a2 -> fold_left (scan_param c1 base a1) l acc = fold_left (scan_param c2 base a2) l acc.
  Proof.
    intros H. revert acc; induction l as [|k l IH]; intros acc; [reflexivity|]. cbn [fold_left].
    rewrite (scan_same base a1 a2 acc k H). apply IH.
  Qed.
  Lemma words_R pos : Forall2 Rword (words_of c1 pos) (words_of c2 pos).
  Proof.
    destruct cfg_fields as (_&_&_&_&_&_&_&_&_&_&_&_&_&_&_&_&_&_&_&_&_&_&ND&_).
    unfold words_of. rewrite ND. generalize out_order. intros l. induction l as [|k l IH]; cbn; [constructor|].
    destruct (pget k pos); cbn; auto. constructor; auto. split; [reflexivity|split; [reflexivity|]]. right. exists k. auto.
  Qed.

  Lemma sim_gcode cmd a1 a2 : same_args a1 a2 -> sim (gcode_command c1 cmd a1) (gcode_command c2 cmd a2).
  Proof.
    intros H. unfold gcode_command. destruct H as (E1 & E2 & E3).
    destruct (negb (nonempty cmd)); [apply sim_ret|]. rewrite E2. destruct (_ && _); [apply sim_raise|].
    intros s1 s2 HR. pose proof HR as (A & B & C & D & E & F). rewrite A, B.
    rewrite (fold_same _ a1 a2) by (repeat split; auto).
    destruct (fold_left _ _ _) as [[lv up] pos].
    assert (HR' : Rst (mkst lv up (line_number s1) (axis_offset_reset s1) (out s1) (plots s1))
                    (mkst lv up (line_number s2) (axis_offset_reset s2) (out s2) (plots s2))).
    { repeat split; auto. }
    destruct (Nat.ltb 0 _).
    - destruct (_ || _); [|split; auto]. apply sim_line; auto. split; auto. apply words_R.
    - destruct (negb _); [|split; auto]. apply sim_line; auto. reflexivity.
  Qed.

  Lemma sim_plot e : sim (plot e) (plot e).
  Proof. intros s1 s2 (A & B & C & D & E & F). split; auto. repeat split; cbn; auto. congruence. Qed.
  Lemma sim_set_up b : sim (set_up b) (set_up b).
  Proof. intros s1 s2 (A & B & C & D & E & F). split; auto. repeat split; cbn; auto. Qed.

  Ltac flds := destruct cfg_fields as (Exy & Ezf & Eaf & Ezs & Eus & Etl & Eatl & Etwd & Etwu & Eatu & Eatd & Eswo
    & Eswf & Escw & Essp & Esau & Ewr & Esln & Ebm & Ebt & Ebq & Egu & End_ & Easc & Eaof).

  Lemma sim_dwell ms cm1 cm2 : sim (dwell c1 ms cm1) (dwell c2 ms cm2).
  Proof. apply sim_when, sim_line, Rbody_refl. Qed.
  Lemma sim_spindle_on a b d cm1 cm2 : sim (spindle_on c1 a b d cm1) (spindle_on c2 a b d cm2).
  Proof.
    flds. unfold spindle_on. rewrite Escw, Essp, Eswo.
    apply sim_bind; [apply sim_line, Rbody_refl|intros _; apply sim_when, sim_dwell].
  Qed.
  Lemma sim_spindle_off w cm1 cm2 : sim (spindle_off c1 w cm1) (spindle_off c2 w cm2).
  Proof.
    flds. unfold spindle_off. rewrite Eswf.
    apply sim_bind; [apply sim_line, Rbody_refl|intros _; apply sim_when, sim_dwell].
  Qed.
  Lemma sim_tool_up r w cm1 cm2 : sim (tool_up c1 r w cm1) (tool_up c2 r w cm2).
  Proof.
    flds. unfold tool_up. rewrite Eatu, Ezs, Esau, Etwu.
    apply sim_bind; [destruct (alt_tool_up c2); apply sim_gcode; repeat split|intros _].
    apply sim_bind; [apply sim_when, sim_spindle_off|intros _].
    apply sim_bind; [apply sim_when, sim_dwell|intros _].
    apply sim_bind; [apply sim_set_up|intros _; apply sim_plot].
  Qed.
  Lemma sim_tool_down z f w cm1 cm2 : sim (tool_down c1 z f w cm1) (tool_down c2 z f w cm2).
  Proof.
    flds. unfold tool_down. rewrite Eatd, Ezf, Esau, Etwd.
    apply sim_bind; [apply sim_when, sim_spindle_on|intros _].
    apply sim_bind; [destruct (alt_tool_down c2); apply sim_gcode; repeat split|intros _].
    apply sim_bind; [apply sim_set_up|intros _].
    apply sim_bind; [apply sim_when, sim_dwell|intros _; apply sim_plot].
  Qed.
  Lemma sim_feed_rate f : sim (feed_rate c1 f) (feed_rate c2 f).
  Proof.
    flds. intros s1 s2 HR. pose proof HR as (A & _). unfold feed_rate. rewrite A, End_.
    destruct (vF (last_val s2)); [split; auto|]. revert s1 s2 HR A.
    assert (S : sim (bind (write_line c1 (Block "" [mkword "F" (ndigits_out c2) (fmt (ndigits_out c2) f)]) None)
       (fun _ s => (mkst (pset PF f (last_val s)) (is_tool_up s) (line_number s) (axis_offset_reset s) (out s) (plots s), Ok tt)))
      (bind (write_line c2 (Block "" [mkword "F" (ndigits_out c2) (fmt (ndigits_out c2) f)]) None)
       (fun _ s => (mkst (pset PF f (last_val s)) (is_tool_up s) (line_number s) (axis_offset_reset s) (out s) (plots s), Ok tt)))).
    { apply sim_bind; [apply sim_line, Rbody_refl|]. intros _ s1 s2 (A & B & C & D & E & F).
      split; auto. repeat split; cbn; auto. congruence. }
    intros; apply S; auto.
  Qed.
  Lemma sim_quiet_pair m1 m2 : quiet m1 -> quiet m2 -> sim m1 m2. Proof. apply sim_quiet. Qed.
  Lemma quiet_comments_all (c : config N) l : quiet (comments_all c l).
  Proof. induction l; [apply quiet_ret|]. apply quiet_bind; [apply quiet_comment|intros _; exact IHl]. Qed.
  Lemma sim_header t1 t2 cm1 cm2 : sim (header c1 t1 cm1) (header c2 t2 cm2).
  Proof.
    flds. unfold header, blend_line. rewrite Egu, Ebm, Ebt, Ebq, Exy, End_.
    repeat (apply sim_bind; [first
      [ apply sim_quiet; apply quiet_emit; exact I
      | apply sim_quiet; apply quiet_comment
      | apply sim_quiet; apply quiet_comments_all
      | apply sim_line, Rbody_refl
      | apply sim_feed_rate
      | idtac ] | intros _]).
    - apply sim_quiet; [destruct cm1|destruct cm2]; first [apply quiet_comment|apply quiet_ret].
    - destruct (String.eqb _ _); apply sim_line, Rbody_refl.
    - destruct (blend_mode c2); [|apply sim_ret]. destruct (String.eqb _ _).
      + destruct (blend_tolerance c2); [destruct (blend_qtolerance c2)|]; apply sim_line, Rbody_refl.
      + destruct (String.eqb _ _); [apply sim_line, Rbody_refl|apply sim_ret].
    - apply sim_quiet; apply quiet_emit; exact I.
  Qed.
  Lemma sim_footer : sim (footer c1) (footer c2).
  Proof.
    apply sim_bind; [apply sim_quiet; apply quiet_emit; exact I|intros _].
    apply sim_bind; [|intros _; apply sim_bind; [apply sim_line, Rbody_refl|intros _; apply sim_quiet; apply quiet_emit; exact I]].
    intros s1 s2 HR. pose proof HR as (_ & _ & _ & D & _). rewrite D.
    apply sim_when; auto. apply sim_gcode. repeat split.
  Qed.
  Lemma sim_endp (f : option N -> option N -> option N -> option N -> plot_event N) x y z a :
    sim (fun s => let '(px, py, pz, pa) := endp x y z a s in plot (f px py pz pa) s)
        (fun s => let '(px, py, pz, pa) := endp x y z a s in plot (f px py pz pa) s).
  Proof.
    intros s1 s2 HR. pose proof HR as (A & _). unfold endp. rewrite A. apply sim_plot. exact HR.
  Qed.
  Lemma sim_rapid x y z a cm1 cm2 : sim (rapid_move c1 x y z a cm1) (rapid_move c2 x y z a cm2).
  Proof.
    flds. unfold rapid_move. rewrite Ezs. apply sim_bind.
    - intros s1 s2 HR. pose proof HR as (A & B & _). rewrite A, B. apply sim_when; auto. apply sim_tool_up.
    - intros _. apply sim_bind; [apply sim_gcode; repeat split|intros _; apply (sim_endp PlotMove)].
  Qed.
  Lemma sim_feed x y z a f cm1 cm2 : sim (feed c1 x y z a f cm1) (feed c2 x y z a f cm2).
  Proof.
    flds. unfold feed.
    assert (feed_default c1 x y z a f = feed_default c2 x y z a f) as ->
      by (unfold feed_default; rewrite Exy, Ezf, Eaf; reflexivity).
    destruct (feed_default c2 x y z a f); [|apply sim_ret].
    apply sim_bind; [apply sim_gcode; repeat split|intros _; apply (sim_endp PlotFeed)].
  Qed.
  Lemma sim_arc cw x y i j a z f cm1 cm2 : sim (feed_arc c1 cw x y i j a z f cm1) (feed_arc c2 cw x y i j a z f cm2).
  Proof.
    flds. intros s1 s2 HR. pose proof HR as (A & _). unfold feed_arc, float_eq. rewrite A, Exy, Etl.
    destruct (vX (last_val s2)); [|split; auto]. destruct (vY (last_val s2)); [|split; auto].
    destruct (negb _); [split; auto|].
    apply sim_bind; auto; [apply sim_gcode; repeat split|intros _].
    apply (sim_endp (fun px py pz pa => PlotArc _ _ px py pz pa cw)).
  Qed.
  Lemma sim_normalize ax : sim (normalize_axis_angle c1 ax) (normalize_axis_angle c2 ax).
  Proof.
    flds. intros s1 s2 HR. pose proof HR as (A & _). unfold normalize_axis_angle. rewrite A, End_.
    repeat (destruct (negb _); [split; auto|]).
    destruct (vA (last_val s2)); [|split; auto].
    match goal with |- context [if ?b then _ else _] => destruct b end; [|split; auto].
    apply sim_bind; auto; [apply sim_line, Rbody_refl|]. intros _ q1 q2 (A' & B & C & D & E & F).
    split; auto. repeat split; cbn; auto. congruence.
  Qed.

  Lemma sim_exec o1 o2 : strip_op o1 = strip_op o2 -> sim (exec c1 o1) (exec c2 o2).
  Proof.
    intros H. destruct o1, o2; cbn in H; try discriminate; cbn [exec]; try (injection H; intros; subst).
    - apply sim_quiet; apply quiet_comment.
    - apply sim_header.
    - apply sim_footer.
    - apply sim_feed_rate.
    - apply sim_gcode. repeat split.
    - apply sim_dwell.
    - apply sim_tool_up.
    - apply sim_tool_down.
    - apply sim_spindle_on.
    - apply sim_spindle_off.
    - apply sim_normalize.
    - apply sim_rapid.
    - apply sim_feed.
    - apply sim_arc.
    - apply sim_gcode. inversion H. repeat split; congruence.
  Qed.

  Lemma R_quiet_l m s1 s2 : quiet m -> Rst s1 s2 -> Rst (fst (m s1)) s2.
  Proof.
    intros Q (A & B & C & D & E & F). destruct (Q s1) as (_ & ? & ? & ? & ? & ? & X).
    unfold Rst. rewrite X. repeat split; congruence || auto.
  Qed.
  Lemma R_quiet_r m s1 s2 : quiet m -> Rst s1 s2 -> Rst s1 (fst (m s2)).
  Proof.
    intros Q (A & B & C & D & E & F). destruct (Q s2) as (_ & ? & ? & ? & ? & ? & X).
    unfold Rst. rewrite X. repeat split; congruence || auto.
  Qed.

  Lemma sim_run ops1 : forall ops2 s1 s2, strip_ops ops1 = strip_ops ops2 -> Rst s1 s2 ->
    Rst (run c1 ops1 s1) (run c2 ops2 s2).
  Proof.
    unfold strip_ops.
    induction ops1 as [|o1 ops1 IH]; intros ops2 s1 s2 H HR.
    - induction ops2 as [|o2 ops2 IH2] in s2, H, HR |- *; [exact HR|]. cbn [run fold_left].
      destruct o2; cbn in H; try discriminate. apply IH2; auto.
      apply (R_quiet_r (comment c2 a semi)); auto. apply quiet_comment.
    - assert (Cm : (exists a semi, o1 = OComment a semi) \/
        filter (fun o => match o with OComment _ _ => false | _ => true end) (o1 :: ops1) =
        o1 :: filter (fun o => match o with OComment _ _ => false | _ => true end) ops1).
      { destruct o1; try (right; reflexivity). left; eauto. }
      destruct Cm as [(a & semi & ->)|Ef].
      + cbn in H. apply IH; auto. cbn. apply (R_quiet_l (comment c1 a semi)); auto. apply quiet_comment.
      + rewrite Ef in H. cbn [map] in H.
        induction ops2 as [|o2 ops2 IH2] in s2, H, HR |- *; [discriminate|].
        assert (Cm2 : (exists a semi, o2 = OComment a semi) \/
          filter (fun o => match o with OComment _ _ => false | _ => true end) (o2 :: ops2) =
          o2 :: filter (fun o => match o with OComment _ _ => false | _ => true end) ops2).
        { destruct o2; try (right; reflexivity). left; eauto. }
        destruct Cm2 as [(a & semi & ->)|Ef2].
        * change (run c2 (OComment a semi :: ops2) s2) with (run c2 ops2 (fst (comment c2 a semi s2))).
          apply IH2; [exact H|]. apply R_quiet_r; auto. apply quiet_comment.
        * rewrite Ef2 in H. cbn [map] in H. injection H as H1 H2.
          change (run c1 (o1 :: ops1) s1) with (run c1 ops1 (fst (exec c1 o1 s1))).
          change (run c2 (o2 :: ops2) s2) with (run c2 ops2 (fst (exec c2 o2 s2))).
          apply IH; auto. apply (sim_exec o1 o2 H1 s1 s2 HR).
  Qed.

  Theorem sim_program ops1 ops2 : strip_ops ops1 = strip_ops ops2 -> Rst (run c1 ops1 init) (run c2 ops2 init).
  Proof. intros H. apply sim_run; auto. repeat split; constructor. Qed.
End Sim.

Lemma Rline_eq {N : NumOps} (c1 c2 : config N) l1 l2 :
  axis_map c1 = axis_map c2 -> Forall2 (Rline c1 c2) l1 l2 -> l1 = l2.
Proof.
  intros AM H. induction H as [|[n1 b1] [n2 b2] l1 l2 [E1 E2] _ IH]; [reflexivity|].
  cbn in E1, E2. subst. f_equal; auto. f_equal.
  destruct b1, b2; cbn in E2; try congruence. destruct E2 as [-> HW]. f_equal.
  induction HW as [|[n p v] [n' p' v'] ws ws' (Hp & Hv & Hn) _ IHw]; [reflexivity|].
  cbn in *. subst. f_equal; auto. f_equal.
  destruct Hn as [|[k [-> ->]]]; auto. unfold out_name. now rewrite AM.
Qed.

(** C12/C22 (structure): only comments may differ. *)
Theorem comments_inert {N : NumOps} (c1 c2 : config N) ops1 ops2 :
  core true [] (axis_map c2) c1 = core true [] (axis_map c2) c2 -> axis_map c1 = axis_map c2 ->
  strip_ops ops1 = strip_ops ops2 ->
  exe (out (run c1 ops1 init)) = exe (out (run c2 ops2 init)) /\
  last_val (run c1 ops1 init) = last_val (run c2 ops2 init) /\
  plots (run c1 ops1 init) = plots (run c2 ops2 init).
Proof.
  intros C AM H.
  assert (C' : core true [] [] c1 = core true [] [] c2).
  { destruct c1, c2; cbn in *. injection C. intros. subst. reflexivity. }
  destruct (sim_program c1 c2 C' ops1 ops2 H) as (A & _ & _ & _ & E & F).
  repeat split; auto. eapply Rline_eq; eauto.
Qed.

Section Single.
  Context {N : NumOps}.
  Implicit Types (c : config N) (s : state N).

  (** ** C08 *)
  Lemma motion_opaque_rejected c cmd args s p :
    In (canonical_cmd cmd) motion_group -> a_params args = Some p -> p <> "" ->
    gcode_command c cmd args s = (s, Raise GCodeException).
  Proof.
    intros Hc Hp Hne. unfold gcode_command.
    destruct cmd as [|ch cmd]; [cbn in Hc; intuition discriminate|]. cbn [nonempty negb].
    rewrite Hp. assert (mem_str (canonical_cmd (String ch cmd)) motion_group = true) as ->
      by (apply mem_str_In, Hc).
    destruct p; [congruence|]. reflexivity.
  Qed.
  Lemma bad_units_rejected c u k : u <> "in" -> u <> "mm" ->
    configure (SUnits u) c = Raise GCodeException /\ configure (SSetUnits u k) c = Raise GCodeException.
  Proof.
    intros H1 H2. assert (E : mem_str u ["in"; "mm"] = false).
    { cbn. destruct (String.eqb_spec u "in"); [congruence|]. destruct (String.eqb_spec u "mm"); [congruence|]. reflexivity. }
    destruct c. unfold configure. rewrite E. auto.
  Qed.
  Lemma linear_normalize_rejected c axis s :
    ~ In (upper axis) [""; "A"; "B"; "C"; "AB"; "BC"; "ABC"] ->
    normalize_axis_angle c axis s = (s, Raise GCodeException).
  Proof.
    intros H. unfold normalize_axis_angle.
    destruct (mem_str (upper axis) _) eqn:E; [|reflexivity]. apply mem_str_In in E. contradiction.
  Qed.

  (** ** C09 *)
  Lemma feed_rate_first c f s :
    vF (last_val s) = None ->
    snd (feed_rate c f s) = Ok tt /\ vF (last_val (fst (feed_rate c f s))) = Some f /\
    exists num, out (fst (feed_rate c f s)) =
      (out s ++ [Line num (Block "" [mkword "F" (ndigits_out c) (fmt (ndigits_out c) f)]) None])%list.
  Proof.
    intros H. unfold feed_rate. rewrite H. cbn -[app]. split; [reflexivity|].
    split; [destruct (last_val s); reflexivity|]. eexists. unfold shown. destruct (show_comments c); reflexivity.
  Qed.
  Lemma feed_rate_again c f s : vF (last_val s) <> None -> feed_rate c f s = (s, Raise TypeError).
  Proof. intros H. unfold feed_rate. destruct (vF (last_val s)); [reflexivity|congruence]. Qed.

  (** ** C17 *)
  Lemma arc_unknown c cw x y i j a z f cm s :
    vX (last_val s) = None \/ vY (last_val s) = None ->
    feed_arc c cw x y i j a z f cm s = (s, Raise TypeError).
  Proof.
    intros [H|H]; unfold feed_arc; rewrite H; [reflexivity|]. destruct (vX (last_val s)); reflexivity.
  Qed.

  Lemma words_in c pos k v : pget k pos = Some v -> In k out_order ->
    In (mkword (out_name c k) (ndigits_out c) (fmt (ndigits_out c) v)) (words_of c pos).
  Proof.
    intros H Hin. unfold words_of. apply in_flat_map. exists k. split; auto. rewrite H. left; reflexivity.
  Qed.

  (** A forced parameter is always in the line. *)
  Lemma scan_forced c base args k l : forall acc,
    NoDup l -> In k l -> str_mem (letter_ascii k) (a_force args) = true ->
    forall v, pget k (a_vals args) = Some v -> is_angular k = false ->
    pget k (snd (fold_left (scan_param c base args) l acc)) = Some (to_machine c k v).
  Proof.
    induction l as [|k' l IH]; intros acc ND Hin HF v Hv Ha; [destruct Hin|].
    inversion ND as [|? ? Hn ND']; subst. cbn [fold_left].
    destruct Hin as [->|Hin]; [|apply IH; auto].
    assert (Keep : forall l acc, ~ In k l -> pget k (snd (fold_left (scan_param c base args) l acc)) = pget k (snd acc)).
    { clear. induction l as [|k' l IH]; intros acc Hn; [reflexivity|]. cbn [fold_left].
      rewrite IH by (intros X; apply Hn; right; exact X).
      destruct acc as [[lv up] pos]. unfold scan_param.
      destruct (pget k' (a_vals args)); auto. destruct (_ || _ || _); auto. cbn [snd].
      apply pget_pset_other. intros E; apply Hn; left; auto. }
    rewrite Keep by auto. destruct acc as [[lv up] pos]. unfold scan_param. rewrite Hv, HF, Ha. cbn [orb andb].
    cbn [snd]. apply pget_pset_same.
  Qed.

  Lemma arc_known c cw x y i j a z f cm s :
    no_self_change c ->
    snd (feed_arc c cw x y i j a z f cm s) = Ok tt ->
    exists num ws cm',
      out (fst (feed_arc c cw x y i j a z f cm s)) =
        (out s ++ [Line num (Block (if cw then "G02" else "G03") ws) cm'])%list /\
      In (mkword (out_name c PI) (ndigits_out c) (fmt (ndigits_out c) (to_machine c PI i))) ws /\
      In (mkword (out_name c PJ) (ndigits_out c) (fmt (ndigits_out c) (to_machine c PJ j))) ws /\
      close c PX x (last_val (fst (feed_arc c cw x y i j a z f cm s))) /\
      close c PY y (last_val (fst (feed_arc c cw x y i j a z f cm s))).
  Proof.
    intros NS HO. unfold feed_arc in *.
    destruct (vX (last_val s)) as [px|]; [|discriminate]. destruct (vY (last_val s)) as [py|]; [|discriminate].
    destruct (negb _); [discriminate|]. clear HO.
    match goal with |- context [gcode_command c ?G ?A] => set (args := A); set (g := G) end.
    assert (Hg : In g motion_group) by (subst g; destruct cw; cbn; auto).
    pose proof (gcode_effect c g args s PX NS) as GX. pose proof (gcode_effect c g args s PY NS) as GY.
    pose proof (gcode_ok c g args s eq_refl) as GO.
    pose proof (gcode_motion c g args s Hg eq_refl) as GM.
    pose proof (scan_forced c g args PI scan_order (last_val s, is_tool_up s, pempty) scan_order_nodup
      ltac:(cbn; tauto) eq_refl i eq_refl eq_refl) as FI.
    pose proof (scan_forced c g args PJ scan_order (last_val s, is_tool_up s, pempty) scan_order_nodup
      ltac:(cbn; tauto) eq_refl j eq_refl eq_refl) as FJ.
    destruct (fold_left _ _ _) as [[lv up] pos]. cbn [snd] in FI, FJ.
    assert (L1 : Nat.ltb 1 (plen pos) = true).
    { clear - FI FJ. destruct pos as [[x'|] [y'|] [z'|] [i'|] [j'|] [r'|] [a'|] [f'|]]; cbn in FI, FJ;
        try discriminate; reflexivity. }
    assert (L0 : Nat.ltb 0 (plen pos) = true) by (apply Nat.ltb_lt; apply Nat.ltb_lt in L1; lia).
    rewrite L0, L1 in GM. cbn [orb] in GM.
    rewrite GM in GX, GY, GO. unfold bind. rewrite GM. cbn -[app words_of].
    eexists _, _, _. split; [reflexivity|].
    split; [apply words_in; [exact FI|cbn; tauto]|]. split; [apply words_in; [exact FJ|cbn; tauto]|].
    assert (Hne : nonempty g = true) by (subst g; destruct cw; reflexivity).
    rewrite Hne in GX, GY. cbn in GX, GY. auto.
  Qed.

  (** ** C20 *)
  Lemma dwell_spec c ms cm s :
    (ltb (of_Z 0) ms = true ->
       exists num k, out (fst (dwell c ms cm s)) =
         (out s ++ [Line num (Block "G04" [mkword "P" 4 (fmt 4 (div ms (of_Z 1000)))]) k])%list) /\
    (ltb (of_Z 0) ms = false -> dwell c ms cm s = (s, Ok tt)).
  Proof.
    unfold dwell. split; intros ->; [|reflexivity]. cbn -[app]. eexists _, _. reflexivity.
  Qed.

  Lemma tool_down_spindle c z f w cm s :
    spindle_auto c = true ->
    exists num k rest,
      out (fst (tool_down c z f w cm s)) =
      (out s ++ Line num (IntWord (if spindle_clockwise c then "M3" else "M4") "S" (trunc (spindle_speed c))) k :: rest)%list.
  Proof.
    intros SA. unfold tool_down. rewrite SA. cbn [when].
    assert (EXT : forall (m : M unit) s0, (forall s, exists l, out (fst (m s)) = (out s ++ l)%list) ->
       exists l, out (fst (m s0)) = (out s0 ++ l)%list) by auto.
    assert (B : forall (m : M unit) (f : unit -> M unit), (forall s, exists l, out (fst (m s)) = (out s ++ l)%list) ->
       (forall u s, exists l, out (fst (f u s)) = (out s ++ l)%list) -> forall s, exists l, out (fst (bind m f s)) = (out s ++ l)%list).
    { intros m f0 Hm Hf s0. unfold bind. destruct (Hm s0) as [l E]. destruct (m s0) as [s1 [u|e]]; cbn in *; [|eauto].
      destruct (Hf u s1) as [l' E']. exists (l ++ l')%list. now rewrite E', E, app_assoc. }
    assert (W : forall b (m : M unit), (forall s, exists l, out (fst (m s)) = (out s ++ l)%list) ->
        forall s, exists l, out (fst (when b m s)) = (out s ++ l)%list).
    { intros b m H s0. destruct b; cbn; auto. exists []. now rewrite app_nil_r. }
    assert (Ln : forall b k s, exists l, out (fst (write_line c b k s)) = (out s ++ l)%list) by (intros; cbn; eauto).
    assert (D : forall ms k s, exists l, out (fst (dwell c ms k s)) = (out s ++ l)%list) by (intros; apply W; auto).
    assert (Gc : forall cmd args s, exists l, out (fst (gcode_command c cmd args s)) = (out s ++ l)%list).
    { intros cmd args s0. unfold gcode_command. destruct (negb (nonempty cmd)); [exists []; cbn; now rewrite app_nil_r|].
      destruct (_ && _); [exists []; cbn; now rewrite app_nil_r|].
      destruct (fold_left _ _ _) as [[lv up] pos].
      destruct (Nat.ltb 0 _); [destruct (_ || _)|destruct (negb _)]; cbn -[app];
        first [eexists; reflexivity | exists []; cbn; now rewrite app_nil_r]. }
    unfold spindle_on at 1. cbn [dflt].
    match goal with |- context [bind (bind ?m ?g) ?h s] => set (m0 := m); set (g0 := g); set (h0 := h) end.
    assert (Hm0 : exists s1, m0 s = (s1, Ok tt) /\ exists num k, out s1 = (out s ++ [Line num (IntWord (if spindle_clockwise c then "M3" else "M4") "S" (trunc (spindle_speed c))) k])%list).
    { subst m0. eexists. split; [reflexivity|]. eexists _, _. reflexivity. }
    destruct Hm0 as (s1 & E1 & num & k & O1).
    unfold bind at 1. rewrite (bind_ok m0 g0 s s1 tt E1).
    assert (X : exists l, out (fst (match g0 tt s1 with (s', Ok a) => h0 a s' | (s', Raise e) => (s', Raise e) end)) = (out s1 ++ l)%list).
    { change (exists l, out (fst (bind (g0 tt) h0 s1)) = (out s1 ++ l)%list). subst g0 h0. apply B.
      - apply W, D.
      - intros _. apply B; [destruct (alt_tool_down c); apply Gc|]. intros _.
        apply B; [intros s2; exists []; cbn; now rewrite app_nil_r|]. intros _.
        apply B; [apply W, D|]. intros _ s2. exists []. cbn. now rewrite app_nil_r. }
    destruct X as [l X]. exists num, k, l.
    transitivity (out s1 ++ l)%list; [exact X|]. rewrite O1, <- app_assoc. reflexivity.
  Qed.
End Single.

(** ** C23 *)
Lemma upper_ascii_idem c : upper_ascii (upper_ascii c) = upper_ascii c.
Proof. destruct c as [[] [] [] [] [] [] [] []]; reflexivity. Qed.
Lemma upper_idem s : upper (upper s) = upper s.
Proof. induction s as [|c s IH]; cbn; [reflexivity|]. now rewrite upper_ascii_idem, IH. Qed.
Lemma canonical_idem s : canonical_cmd (canonical_cmd s) = canonical_cmd s.
Proof.
  unfold canonical_cmd.
  destruct (upper s) as [|a [|b [|d r]]] eqn:E.
  - reflexivity.
  - rewrite <- E, upper_idem, E. reflexivity.
  - destruct (is_digit b) eqn:D.
    + assert (Ha : upper_ascii a = a).
      { pose proof (upper_idem s) as H. rewrite E in H. cbn in H. congruence. }
      assert (Hb : upper_ascii b = b).
      { pose proof (upper_idem s) as H. rewrite E in H. cbn in H. congruence. }
      cbn. rewrite Ha, Hb. reflexivity.
    + rewrite <- E, upper_idem, E, D. reflexivity.
  - rewrite <- E, upper_idem, E. reflexivity.
Qed.
