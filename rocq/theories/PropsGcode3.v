(** * PropsGcode3: default rates (C06) and the tool state of a history (C19). *)
From Coq Require Import String Ascii ZArith NArith List Bool Lia.
From Verif Require Import Num NumF64 Str Gcode GcodeSpec GcodeProofs GcodeProofs2 GcodeProofs3 GcodeProofs4 PropsGcode.
Import ListNotations.
Local Open Scope string_scope.

(** The constructor: XY rate and safe height as given, the Z and A rates default to the XY rate; no axis is scaled,
    shifted or renamed. *)
Theorem C06_constructor {N : NumOps} (xyf zs : N) (zf af : option N) :
  let c := default_config xyf zs zf af in
  xyfeed c = xyf /\ zsafe c = zs /\ (zf = None -> zfeed c = xyf) /\ (af = None -> afeed c = xyf) /\
  (forall z, zf = Some z -> zfeed c = z) /\ (forall a, af = Some a -> afeed c = a) /\
  unit_scale c = of_Z 1 /\ tolerance c = lit 1 (-6) /\ angle_tolerance c = lit 1 (-6) /\ gc_unit c = "in" /\
  (forall k, pget k (axis_scale c) = None /\ pget k (axis_offset c) = None) /\ axis_map c = [] /\
  alt_tool_up c = None /\ alt_tool_down c = None /\ spindle_auto c = false /\ wrap_angles c = false /\ spindle_clockwise c = true /\ show_comments c = true /\ show_line_numbers c = false /\
  tool_wait_up c = of_Z 0 /\ tool_wait_down c = of_Z 0 /\ spindle_wait_on c = of_Z 0 /\ spindle_wait_off c = of_Z 0 /\ ndigits_out c = 6%nat.
Proof. cbv zeta. unfold default_config. cbn. repeat split; auto; intros; subst; auto; try discriminate; destruct k; reflexivity. Qed.

(** ** The tool state *)
Section State.
  Context {N : NumOps}.
  (** The last tool notification was "up"; a new generator has made none. *)
  Fixpoint last_up (l : list (plot_event N)) : bool :=
    match l with
    | [] => false
    | e :: r => if existsb (fun e => match e with PlotUp | PlotDown => true | _ => false end) r then last_up r
                else match e with PlotUp => true | _ => false end
    end.
  Lemma last_up_snoc l e : last_up (l ++ [e]) = match e with PlotUp => true | PlotDown => false | _ => last_up l end.
  Proof.
    induction l as [|x l IH]; cbn [app last_up existsb]; [destruct e; reflexivity|].
    rewrite existsb_app. cbn [existsb]. rewrite orb_false_r.
    destruct e; rewrite ?orb_true_r, ?orb_false_r; auto; destruct (existsb _ l); auto.
  Qed.
  Definition agrees (s : state N) : Prop := is_tool_up s = true -> last_up (plots s) = true.
  Definition quiet {A} (m : M (N:=N) A) : Prop := forall s, plots (fst (m s)) = plots s /\ (is_tool_up (fst (m s)) = true -> is_tool_up s = true).
  Definition keeps_state {A} (m : M (N:=N) A) : Prop := forall s, agrees s -> agrees (fst (m s)).
  Lemma quiet_keeps {A} (m : M A) : quiet m -> keeps_state m.
  Proof. intros H s Hs U. destruct (H s) as [-> K]. auto. Qed.
  Lemma quiet_bind {A B} (m : M A) (f : A -> M B) : quiet m -> (forall a, quiet (f a)) -> quiet (bind m f).
  Proof.
    intros Hm Hf s. unfold bind. specialize (Hm s). destruct (m s) as [s' [a|e]]; cbn in *; auto.
    destruct (Hf a s') as [-> K]. destruct Hm. auto.
  Qed.
  Lemma keeps_state_bind {A B} (m : M A) (f : A -> M B) : keeps_state m -> (forall a, keeps_state (f a)) -> keeps_state (bind m f).
  Proof.
    intros Hm Hf s Hs. unfold bind. specialize (Hm s Hs). destruct (m s) as [s' [a|e]]; cbn in *; auto. now apply Hf.
  Qed.
  Lemma quiet_when b (m : M unit) : quiet m -> quiet (when b m).
  Proof. intros H; destruct b; auto. intros s; split; auto. Qed.
  Lemma quiet_line c b cm : quiet (write_line c b cm). Proof. intros s; split; auto. Qed.
  Lemma quiet_emit i : quiet (@emit N i). Proof. intros s; split; auto. Qed.
  Lemma quiet_dwell c ms cm : quiet (dwell c ms cm).
  Proof. apply quiet_when, quiet_line. Qed.
  Lemma quiet_spindle_on c a b d e : quiet (spindle_on c a b d e).
  Proof. apply quiet_bind; [apply quiet_line|intros _; apply quiet_when, quiet_dwell]. Qed.
  Lemma quiet_spindle_off c a b : quiet (spindle_off c a b).
  Proof. apply quiet_bind; [apply quiet_line|intros _; apply quiet_when, quiet_dwell]. Qed.
  Lemma quiet_gcode c cmd args : quiet (gcode_command c cmd args).
  Proof.
    intros s. unfold gcode_command. destruct (negb (nonempty cmd)); [split; auto|].
    destruct (_ && _); [split; auto|]. 
    assert (U : snd (fst (fold_left (scan_param c (before "." (canonical_cmd cmd)) args) scan_order (last_val s, is_tool_up s, pempty))) = true -> is_tool_up s = true).
    { assert (G : forall l acc, snd (fst (fold_left (scan_param c (before "." (canonical_cmd cmd)) args) l acc)) = true -> snd (fst acc) = true).
      { induction l as [|k l IH]; intros [[lv up] pos] H; cbn [fold_left] in H; auto. apply IH in H. revert H. cbn [scan_param fst snd].
        destruct (pget k (a_vals args)); auto. destruct (_ || _); auto. cbn [fst snd]. destruct (_ && _); auto. discriminate. }
      apply G. }
    destruct (fold_left _ _ _) as [[lv up] pos]. cbn [fst snd] in U.
    destruct (Nat.ltb 0 _); [destruct (_ || _)|destruct (negb _)]; split; auto; exact U.
  Qed.
  Lemma quiet_comment c a semi : quiet (comment c a semi).
  Proof.
    apply quiet_when.
    assert (W : forall o, quiet (@write_comment N semi o)).
    { intros [s|]; unfold write_comment; [destruct (nonempty s)|]; apply quiet_emit. }
    destruct a as [|s|l]; [apply W|apply W|].
    induction l as [|x l IH]; [intros s; split; auto|]. apply quiet_bind; [apply W|intros _; exact IH].
  Qed.
  Lemma quiet_feed_rate c f : quiet (feed_rate c f).
  Proof. intros s. unfold feed_rate. destruct (vF (last_val s)); split; auto. Qed.
  Lemma quiet_header c t cm : quiet (header c t cm).
  Proof.
    unfold header.
    repeat (apply quiet_bind; [first
      [ apply quiet_emit | apply quiet_comment | apply quiet_line
      | apply quiet_feed_rate | idtac ] | intros _]).
    - generalize (header_comments c). intros l. induction l as [|x l IH]; [intros ss; split; auto|].
      apply quiet_bind; [apply quiet_comment|intros _; apply IH].
    - destruct cm; [apply quiet_comment|intros ss; split; auto].
    - destruct (String.eqb _ _); apply quiet_line.
    - unfold blend_line. destruct (blend_mode c); [|intros ss; split; auto].
      destruct (String.eqb _ _).
      + destruct (blend_tolerance c); [destruct (blend_qtolerance c)|]; apply quiet_line.
      + destruct (String.eqb _ _); [apply quiet_line|intros ss; split; auto].
    - apply quiet_emit.
  Qed.
  Lemma quiet_normalize c ax : quiet (normalize_axis_angle c ax).
  Proof.
    intros s. unfold normalize_axis_angle. repeat (destruct (negb _); [split; auto|]).
    destruct (vA (last_val s)); [|split; auto]. destruct (Num.ltb _ _); split; auto.
  Qed.
  Lemma state_tool_up c r w cm : keeps_state (tool_up c r w cm).
  Proof.
    unfold tool_up. apply keeps_state_bind; [apply quiet_keeps; destruct (alt_tool_up c); apply quiet_gcode|intros _].
    apply keeps_state_bind; [apply quiet_keeps, quiet_when, quiet_spindle_off|intros _].
    apply keeps_state_bind; [apply quiet_keeps, quiet_when, quiet_dwell|intros _].
    intros s _ _. cbn. now rewrite last_up_snoc.
  Qed.
  Lemma state_tool_down c z f w cm : keeps_state (tool_down c z f w cm).
  Proof.
    unfold tool_down. apply keeps_state_bind; [apply quiet_keeps, quiet_when, quiet_spindle_on|intros _].
    apply keeps_state_bind; [apply quiet_keeps; destruct (alt_tool_down c); apply quiet_gcode|intros _].
    intros s _ U. exfalso. revert U. rewrite (bind_ok (set_up false) _ s _ tt eq_refl). intros U.
    set (s3 := fst (set_up false s)) in *.
    assert (K : quiet (bind (let w0 := dflt (tool_wait_down c) w in when (Num.ltb (of_Z 0) w0) (dwell c w0 None)) (fun _ => ret tt))).
    { apply quiet_bind; [apply quiet_when, quiet_dwell|intros _ s0; split; auto]. }
    assert (is_tool_up s3 = false) by reflexivity.
    assert (Q : is_tool_up s3 = true); [|congruence]. apply (proj2 (K s3)). revert U.
    unfold bind. change (mkst (last_val s) false (line_number s) (axis_offset_reset s) (out s) (plots s)) with s3. destruct (when _ _ s3) as [s4 [[]|]]; cbn [fst plot ret is_tool_up]; intros U; exact U.
  Qed.
  Lemma state_plot e : (e <> PlotUp /\ e <> PlotDown) -> keeps_state (@plot N e).
  Proof. intros [A B] s Hs U. cbn. rewrite last_up_snoc. destruct e; auto; contradiction. Qed.
  Lemma state_feed c x y z a f cm : keeps_state (Gcode.feed c x y z a f cm).
  Proof.
    unfold Gcode.feed. destruct (feed_default c x y z a f); [|intros s Hs; exact Hs].
    apply keeps_state_bind; [apply quiet_keeps, quiet_gcode|intros _ s Hs]. destruct (endp _ _ _ _ _) as [[[? ?] ?] ?].
    apply state_plot; auto. split; discriminate.
  Qed.
  Lemma state_arc c cw x y i j a z f cm : keeps_state (feed_arc c cw x y i j a z f cm).
  Proof.
    intros s Hs. unfold feed_arc. destruct (vX (last_val s)), (vY (last_val s)); try exact Hs. destruct (negb _); [exact Hs|].
    revert s Hs. apply keeps_state_bind; [apply quiet_keeps, quiet_gcode|intros _ s Hs]. apply state_plot; auto. split; discriminate.
  Qed.
  Lemma state_rapid c x y z a cm : keeps_state (rapid_move c x y z a cm).
  Proof.
    unfold rapid_move. apply keeps_state_bind.
    - intros s Hs. destruct (match vZ (last_val s) with Some _ => _ | None => _ end); cbn [when]; [now apply state_tool_up|exact Hs].
    - intros _. apply keeps_state_bind; [apply quiet_keeps, quiet_gcode|intros _ s Hs]. apply state_plot; auto. split; discriminate.
  Qed.
  Lemma state_op c o : keeps_state (exec c o).
  Proof.
    destruct o; cbn [exec].
    - apply quiet_keeps, quiet_comment.
    - apply quiet_keeps, quiet_header.
    - apply quiet_keeps. unfold footer. apply quiet_bind; [apply quiet_emit|intros _].
      apply quiet_bind; [intros s0|intros _; apply quiet_bind; [apply quiet_line|intros _; apply quiet_emit]].
      destruct (axis_offset_reset s0); [apply quiet_gcode|split; auto].
    - apply quiet_keeps, quiet_feed_rate.
    - apply quiet_keeps, quiet_gcode.
    - apply quiet_keeps, quiet_dwell.
    - apply state_tool_up.
    - apply state_tool_down.
    - apply quiet_keeps, quiet_spindle_on.
    - apply quiet_keeps, quiet_spindle_off.
    - apply quiet_keeps, quiet_normalize.
    - apply state_rapid.
    - apply state_feed.
    - apply state_arc.
    - apply quiet_keeps, quiet_gcode.
  Qed.
  (** After any history the generator takes the tool to be up only if its last tool notification was "up". *)
  Theorem C19_tool_state (c : config N) (ops : list op) : is_tool_up (run c ops init) = true -> last_up (plots (run c ops init)) = true.
  Proof.
    change (agrees (run c ops init)). assert (H : agrees (@init N)) by discriminate.
    revert H. generalize (@init N). induction ops as [|o ops IH]; intros s Hs; cbn; [exact Hs|]. apply IH. now apply state_op.
  Qed.
  (** A rapid move is preceded by a tool-up exactly when the height is unknown, below the safe height, or the tool
      is taken to be up. *)
  Theorem C19_rapid_up (c : config N) x y z a cm s : alt_tool_up c = None ->
    exists e, plots (fst (exec c (ORapid x y z a cm) s)) =
      (plots s ++ (if match pget PZ (last_val s) with None => true | Some h => Num.ltb h (zsafe c) || is_tool_up s end then [PlotUp] else []) ++ [e])%list.
  Proof.
    intros Hu. cbn [exec]. unfold rapid_move, bind at 1. replace (pget PZ (last_val s)) with (vZ (last_val s)) by now destruct (last_val s).
    set (need := match vZ (last_val s) with None => true | Some zp => Num.ltb zp (zsafe c) || is_tool_up s end).
    assert (Q : exists s1, when need (tool_up c true None None) s = (s1, Ok tt) /\ plots s1 = (plots s ++ (if need then [PlotUp] else []))%list).
    { destruct need; cbn [when].
      - destruct (tool_up_spec c true None None s Hu) as (s' & -> & _ & _ & HP & _). eauto.
      - exists s. rewrite app_nil_r. auto. }
    destruct Q as (s1 & -> & Q). unfold bind.
    match goal with |- context[gcode_command ?a ?b ?d s1] => pose proof (gcode_ok a b d s1 eq_refl) as G; pose proof (proj1 (quiet_gcode a b d s1)) as P1; destruct (gcode_command a b d s1) as [s2 [[]|]]; cbn [fst snd] in G, P1; try discriminate end.
    destruct (endp _ _ _ _ _) as [[[? ?] ?] ?]. cbn [plot fst plots]. rewrite P1, Q, <- app_assoc. eauto.
  Qed.
End State.
(** In the demonstration job: down after the arc, up at the end. *)
Example C19_tool_state_example : is_tool_up (run demo_cfg demo init) = true /\ last_up (plots (run demo_cfg demo init)) = true /\
  is_tool_up (run demo_cfg (firstn 5 demo) init) = false.
Proof. vm_compute. auto. Qed.

