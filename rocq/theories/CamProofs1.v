(** * CamProofs1: the Z words of a program come from the calls' Z arguments. *)
From Coq Require Import String Ascii ZArith NArith List Bool Lia.
From Verif Require Import Num Str Gcode GcodeSpec GcodeProofs GcodeProofs2 GcodeProofs3.
Import ListNotations.
Local Open Scope string_scope.

Section ZWords.
  Context {N : NumOps}.
  Variable c : config N.
  Variable Zok : N -> Prop.
  Hypothesis PC : plain_config c.

  (** Every Z word of a motion line is the program text of an allowed height. *)
  Definition item_zok (i : item) : Prop :=
    forall num cmd ws cm, i = Line num (Block cmd ws) cm -> In cmd motion_codes ->
      forall w, In w ws -> wname w = out_name c PZ ->
        exists z, Zok z /\ (wprec w, wval w) = program_value c PZ z.

  Lemma passive_zok i : passive_item i -> item_zok i.
  Proof. intros P num cmd ws cm -> Hc. cbn in P. destruct P as [P _]. apply mem_str_In in Hc. cbn in Hc. congruence. Qed.
  Lemma nonline_zok i : nonline i -> item_zok i.
  Proof. intros P num cmd ws cm ->. destruct P. Qed.

  Definition zpre {A} (m : @M N A) : Prop := pres (fun s : state N => Forall item_zok (out s)) m.
  Lemma zp_bind {A B} (m : M A) (f : A -> M B) : zpre m -> (forall a, zpre (f a)) -> zpre (bind m f).
  Proof. apply pres_bind. Qed.
  Lemma zp_when b m : zpre m -> zpre (when b m).
  Proof. apply pres_when. Qed.
  Lemma zp_same {A} (m : M A) : (forall s, out (fst (m s)) = out s) -> zpre m.
  Proof. intros H s F. now rewrite H. Qed.
  Lemma zp_emit i : nonline i -> zpre (emit i).
  Proof. intros H s F. cbn. apply Forall_app. split; auto. constructor; auto. now apply nonline_zok. Qed.
  Lemma zp_line b cm : passive_item (Line None b None) -> zpre (write_line c b cm).
  Proof.
    intros H s F. cbn. apply Forall_app. split; auto. constructor; auto.
    apply passive_zok. destruct b; exact H.
  Qed.
  Lemma zp_dwell ms cm : zpre (dwell c ms cm).
  Proof. apply zp_when, zp_line. cbn; auto. Qed.
  Lemma zp_spindle_on a b d e : zpre (spindle_on c a b d e).
  Proof.
    apply zp_bind; [apply zp_line|intros _; apply zp_when, zp_dwell].
    cbn. now destruct (dflt (spindle_clockwise c) b).
  Qed.
  Lemma zp_spindle_off a b : zpre (spindle_off c a b).
  Proof. apply zp_bind; [apply zp_line; reflexivity|intros _; apply zp_when, zp_dwell]. Qed.

  (** Values found by the scan come from the arguments. *)
  Lemma scan_from base args l : forall acc,
    (forall k w, pget k (snd acc) = Some w -> k = PZ -> exists v, pget k (a_vals args) = Some v /\ w = to_machine c k v) ->
    forall k w, pget k (snd (fold_left (scan_param c base args) l acc)) = Some w -> k = PZ ->
      exists v, pget k (a_vals args) = Some v /\ w = to_machine c k v.
  Proof.
    induction l as [|k0 l IH]; intros acc H; [exact H|]. cbn [fold_left]. apply IH.
    destruct acc as [[lv up] pos]. unfold scan_param. cbn [snd] in H.
    destruct (pget k0 (a_vals args)) as [v0|] eqn:E0; [|exact H].
    destruct (_ || _ || _); [|exact H]. cbn [snd]. intros k w.
    destruct (param_eq_dec k k0) as [->|NE].
    - rewrite pget_pset_same. intros [= <-] ->. exists v0. split; [exact E0|]. reflexivity.
    - rewrite pget_pset_other by auto. apply H.
  Qed.

  Lemma zp_gcode cmd args : In cmd motion_group -> a_params args = None ->
    (forall z, pget PZ (a_vals args) = Some z -> Zok z) -> zpre (gcode_command c cmd args).
  Proof.
    intros Hc Hp Hz s F. rewrite gcode_motion by auto.
    pose proof (scan_from cmd args scan_order (last_val s, is_tool_up s, pempty)) as SF.
    destruct (fold_left _ _ _) as [[lv up] pos]. cbn [snd] in SF.
    destruct (Nat.ltb 0 _); [destruct (_ || _)|]; cbn [fst out write_line]; auto.
    apply Forall_app. split; auto. constructor; auto.
    intros num cmd' ws cm E _ w Hw Hn. injection E as <- <- <- <-.
    unfold words_of in Hw. apply in_flat_map in Hw as (k & Hk & Hw).
    destruct (pget k pos) as [v|] eqn:Ek; [|destruct Hw]. destruct Hw as [<-|[]]. cbn in Hn |- *.
    assert (k = PZ) as ->.
    { destruct PC as [ND _]. clear -ND Hk Hn.
      destruct k; auto; exfalso; cbn in ND;
        repeat (match goal with H : NoDup (_ :: _) |- _ => inversion H; clear H; subst end);
        cbn in *; rewrite Hn in *; tauto. }
    assert (H0 : forall (k : param) (w : N), pget k (@pempty N) = Some w -> k = PZ ->
       exists v, pget k (a_vals args) = Some v /\ w = to_machine c k v)
      by (intros k0 w0; rewrite pget_pempty; discriminate).
    specialize (SF H0 _ _ Ek eq_refl). destruct SF as (v0 & Ev & ->).
    exists v0. split; [auto|]. rewrite program_value_eq; [reflexivity|]. unfold is_axis; auto.
  Qed.

  Lemma zp_tool_up r w cm : Zok (zsafe c) -> zpre (tool_up c r w cm).
  Proof.
    intros H. unfold tool_up. destruct PC as (_ & _ & -> & _).
    apply zp_bind; [apply zp_gcode; [destruct r; cbn; auto|reflexivity|]|intros _].
    { cbn. intros z [= <-]. exact H. }
    apply zp_bind; [apply zp_when, zp_spindle_off|intros _].
    apply zp_bind; [apply zp_when, zp_dwell|intros _].
    apply zp_bind; [apply zp_same; reflexivity|intros _; apply zp_same; reflexivity].
  Qed.
  Lemma zp_tool_down z f w cm : Zok z -> zpre (tool_down c z f w cm).
  Proof.
    intros H. unfold tool_down. destruct PC as (_ & _ & _ & ->).
    apply zp_bind; [apply zp_when, zp_spindle_on|intros _].
    apply zp_bind; [apply zp_gcode; [cbn; auto|reflexivity|]|intros _].
    { cbn. intros z0 [= <-]. exact H. }
    apply zp_bind; [apply zp_same; reflexivity|intros _].
    apply zp_bind; [apply zp_when, zp_dwell|intros _; apply zp_same; reflexivity].
  Qed.
  Lemma zp_comment a semi : zpre (comment c a semi).
  Proof.
    apply zp_when.
    assert (W : forall o, zpre (write_comment semi o)).
    { intros [s|]; unfold write_comment; [destruct (nonempty s)|]; apply zp_emit; exact I. }
    destruct a as [|s|l]; [apply W|apply W|].
    induction l as [|x l IH]; [apply zp_same; reflexivity|]. apply zp_bind; [apply W|intros _; exact IH].
  Qed.
  Lemma zp_feed_rate f : zpre (feed_rate c f).
  Proof.
    intros s F. unfold feed_rate. destruct (vF (last_val s)); [exact F|].
    cbn -[app]. apply Forall_app. split; auto. constructor; auto.
    intros num cmd ws cm [= <- <- <- <-] Hc. cbn in Hc. intuition discriminate.
  Qed.
  Lemma zp_header t cm : zpre (header c t cm).
  Proof.
    unfold header.
    repeat (apply zp_bind; [first
      [ apply zp_emit; exact I | apply zp_comment | apply zp_line; reflexivity
      | apply zp_feed_rate | idtac ] | intros _]).
    - generalize (header_comments c). intros l. induction l as [|x l IH]; [apply zp_same; reflexivity|].
      apply zp_bind; [apply zp_comment|intros _; apply IH].
    - destruct cm; [apply zp_comment|apply zp_same; reflexivity].
    - destruct (String.eqb _ _); apply zp_line; reflexivity.
    - unfold blend_line. destruct (blend_mode c); [|apply zp_same; reflexivity].
      destruct (String.eqb _ _).
      + destruct (blend_tolerance c); [destruct (blend_qtolerance c)|]; apply zp_line; cbn; auto.
      + destruct (String.eqb _ _); [apply zp_line; reflexivity|apply zp_same; reflexivity].
    - apply zp_emit; exact I.
  Qed.
  Lemma zp_rapid x y z a cm :
    Zok (zsafe c) -> (forall z0, z = Some z0 -> Zok (pymax (zsafe c) z0)) -> zpre (rapid_move c x y z a cm).
  Proof.
    intros H Hz. unfold rapid_move. apply zp_bind.
    - intros s. apply zp_when. now apply zp_tool_up.
    - intros _. apply zp_bind.
      + apply zp_gcode; [cbn; auto|reflexivity|]. cbn. intros z0 [= <-]. destruct z; auto.
      + intros _ s F. exact F.
  Qed.

  (** Heights named by a call. *)
  Definition op_zok (o : @op N) : Prop :=
    match o with
    | OToolUp _ _ _ => Zok (zsafe c)
    | OToolDown z _ _ _ => Zok z
    | ORapid _ _ z _ _ => Zok (zsafe c) /\ forall z0, z = Some z0 -> Zok (pymax (zsafe c) z0)
    | OFeed _ _ z _ _ _ => forall z0, z = Some z0 -> Zok z0
    | OArc _ _ _ _ _ _ z _ _ => forall z0, z = Some z0 -> Zok z0
    | OCommand _ _ | ONormalize _ => False
    | _ => True
    end.
  Lemma zp_exec o : op_zok o -> zpre (exec c o).
  Proof.
    destruct o; cbn [exec op_zok]; intros H; try contradiction.
    - apply zp_comment.
    - apply zp_header.
    - apply zp_bind; [apply zp_emit; exact I|intros _]. apply zp_bind.
      + intros s F. destruct (axis_offset_reset s); cbn [when]; [|exact F].
        unfold gcode_command. cbn -[app]. apply Forall_app. split; auto. constructor; auto.
        intros num cmd ws cm [=].
      + intros _. apply zp_bind; [apply zp_line; reflexivity|intros _; apply zp_emit; exact I].
    - apply zp_feed_rate.
    - intros s F. unfold pause, gcode_command. destruct conditional; cbn -[app];
        (apply Forall_app; split; auto; constructor; auto; intros num cmd ws ? [=]).
    - apply zp_dwell.
    - now apply zp_tool_up.
    - now apply zp_tool_down.
    - apply zp_spindle_on.
    - apply zp_spindle_off.
    - apply zp_rapid; apply H.
    - unfold Gcode.feed. destruct (feed_default _ _ _ _ _ _); [|apply zp_same; reflexivity].
      apply zp_bind; [apply zp_gcode; [cbn; auto|reflexivity|]|intros _ s F; exact F]. exact H.
    - intros s F. unfold feed_arc.
      destruct (vX (last_val s)); [|exact F]. destruct (vY (last_val s)); [|exact F].
      destruct (negb _); [exact F|].
      match goal with |- context [bind ?m ?f] => apply (zp_bind m f) end; auto.
      + apply zp_gcode; [destruct clockwise; cbn; auto|reflexivity|]. exact H.
      + intros _ s' F'; exact F'.
  Qed.
  Lemma zp_run ops s : Forall op_zok ops -> Forall item_zok (out s) -> Forall item_zok (out (run c ops s)).
  Proof.
    intros H. exact (run_pres (fun s : state N => Forall item_zok (out s)) op_zok c zp_exec ops s H).
  Qed.

  (** So the machine is never told to go anywhere else. *)
  Lemma replay_zok prog : forall m m',
    Forall item_zok prog ->
    (forall d, mpos m (out_name c PZ) = Some d -> exists z, Zok z /\ d = program_value c PZ z) ->
    replay (axis_letters c) prog m = Some m' ->
    forall d, mpos m' (out_name c PZ) = Some d -> exists z, Zok z /\ d = program_value c PZ z.
  Proof.
    induction prog as [|i prog IH]; intros m m' F Hm R; [cbn in R; injection R as <-; exact Hm|].
    inversion F as [|? ? Hi F']; subst. cbn [replay] in R.
    destruct (step_item (axis_letters c) m i) as [m1|] eqn:S1; [|discriminate].
    apply (IH m1 m'); auto. clear IH R F F'.
    unfold step_item in S1. destruct i as [t|t cm|num b cm]; try (injection S1 as <-; exact Hm).
    destruct b as [cmd ws|cmd n v|cmd w|t].
    - destruct (mem_str cmd motion_codes) eqn:Em.
      + injection S1 as <-. cbn [mpos]. specialize (Hi num cmd ws cm eq_refl (proj1 (mem_str_In _ _) Em)).
        clear Em. revert Hi Hm. generalize (mpos m). induction ws as [|w ws IH]; intros f Hi Hm; [exact Hm|].
        cbn [move_to]. apply IH; [intros w' Hw'; apply Hi; right; exact Hw'|].
        intros d. destruct (mem_str (wname w) _); [|apply Hm]. unfold upd.
        destruct (String.eqb_spec (wname w) (out_name c PZ)) as [E|]; [|apply Hm].
        intros H. assert (d = (wprec w, wval w)) as -> by congruence. apply Hi; auto. left; reflexivity.
      + destruct (String.eqb cmd ""); [destruct (forallb _ _); [injection S1 as <-; exact Hm|discriminate S1]|].
        match type of S1 with (if ?b then _ else _) = _ => destruct b; [injection S1 as <-; exact Hm|discriminate S1] end.
    - match type of S1 with (if ?b then _ else _) = _ => destruct b; [injection S1 as <-; exact Hm|discriminate S1] end.
    - discriminate.
    - match type of S1 with (if ?b then _ else _) = _ => destruct b; [injection S1 as <-; exact Hm|discriminate S1] end.
  Qed.
  Theorem heights c_ops prefix rest m :
    Forall op_zok c_ops -> out (run c c_ops init) = (prefix ++ rest)%list ->
    replay (axis_letters c) prefix machine0 = Some m -> forall d, mpos m (out_name c PZ) = Some d ->
    exists z, Zok z /\ d = program_value c PZ z.
  Proof.
    intros F E R. apply (replay_zok prefix machine0 m); [|cbn; discriminate|exact R].
    pose proof (zp_run c_ops init F (Forall_nil _)) as G. rewrite E in G. apply Forall_app in G. apply G.
  Qed.
End ZWords.
