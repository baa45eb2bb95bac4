(** * GcodeProofs3: rapid-move safety (C02). *)
From Coq Require Import String Ascii ZArith NArith List Bool Lia.
From Verif Require Import Num Str Gcode GcodeSpec GcodeProofs GcodeProofs2.
Import ListNotations.
Local Open Scope string_scope.

Section Safety.
  Context {N : NumOps}.
  Implicit Types (c : config N) (s : state N).

  (** Every lateral rapid of the program starts and ends at a safe height. *)
  Definition safe_at c (pre : list item) (i : item) : Prop :=
    exists m m' z z',
      replay (axis_letters c) pre machine0 = Some m /\
      step_item (axis_letters c) m i = Some m' /\
      mpos m (out_name c PZ) = Some (program_value c PZ z) /\ ltb z (zsafe c) = false /\
      mpos m' (out_name c PZ) = Some (program_value c PZ z') /\ ltb z' (zsafe c) = false.
  Definition safe_prog c (prog : list item) : Prop :=
    forall pre i post, prog = (pre ++ i :: post)%list -> lateral_rapid c i -> safe_at c pre i.

  Lemma safe_snoc c p i : safe_prog c p -> (lateral_rapid c i -> safe_at c p i) -> safe_prog c (p ++ [i]).
  Proof.
    intros Hp Hi pre j post E L.
    destruct post as [|x post _] using rev_ind.
    - apply app_inj_tail in E as [-> ->]. auto.
    - rewrite app_comm_cons, app_assoc in E. apply app_inj_tail in E as [-> ->].
      eapply Hp; eauto.
  Qed.
  Lemma safe_app c p l : safe_prog c p -> Forall (fun i => ~ lateral_rapid c i) l -> safe_prog c (p ++ l).
  Proof.
    intros Hp Hl. revert p Hp. induction Hl as [|i l Hi Hl IH]; intros p Hp.
    - now rewrite app_nil_r.
    - change (i :: l) with ([i] ++ l)%list. rewrite app_assoc. apply IH, safe_snoc; auto. contradiction.
  Qed.

  Lemma passive_not_lateral c i : passive_item i -> ~ lateral_rapid c i.
  Proof.
    intros P (num & ws & cm & -> & _). cbn in P. destruct P as [P _]. discriminate.
  Qed.

  Definition appends {A} c (m : M A) : Prop :=
    forall s, exists l, out (fst (m s)) = (out s ++ l)%list /\ Forall (fun i => ~ lateral_rapid c i) l.
  Lemma app_same {A} c (m : M A) : (forall s, out (fst (m s)) = out s) -> appends c m.
  Proof. intros H s. exists []. rewrite H, app_nil_r. auto. Qed.
  Lemma app_bind {A B} c (m : M A) (f : A -> M B) :
    appends c m -> (forall a, appends c (f a)) -> appends c (bind m f).
  Proof.
    intros Hm Hf s. unfold bind. destruct (Hm s) as [l [E F]].
    destruct (m s) as [s' [a|e]]; cbn in *; [|eauto].
    destruct (Hf a s') as [l' [E' F']]. exists (l ++ l')%list.
    rewrite E', E, app_assoc. split; auto. apply Forall_app; auto.
  Qed.
  Lemma app_when c b m : appends c m -> appends c (when b m).
  Proof. intros H; destruct b; auto. apply app_same; reflexivity. Qed.
  Lemma app_emit c i : nonline i -> appends c (emit i).
  Proof.
    intros H s. exists [i]. split; [reflexivity|]. constructor; auto.
    intros (? & ? & ? & -> & _). exact H.
  Qed.
  Lemma app_line c c' b cm : passive_item (Line None b None) -> appends c (write_line c' b cm).
  Proof.
    intros H s. eexists. split; [reflexivity|]. constructor; auto.
    apply passive_not_lateral. destruct b; exact H.
  Qed.
  Lemma app_dwell c c' ms cm : appends c (dwell c' ms cm).
  Proof. apply app_when, app_line. cbn; auto. Qed.
  Lemma app_spindle_on c c' a b d e : appends c (spindle_on c' a b d e).
  Proof.
    apply app_bind; [apply app_line|intros _; apply app_when, app_dwell].
    cbn. now destruct (dflt (spindle_clockwise c') b).
  Qed.
  Lemma app_spindle_off c c' a b : appends c (spindle_off c' a b).
  Proof. apply app_bind; [apply app_line; reflexivity|intros _; apply app_when, app_dwell]. Qed.

  Lemma app_gcode_feed c cmd args :
    In cmd ["G01"; "G02"; "G03"] -> a_params args = None -> appends c (gcode_command c cmd args).
  Proof.
    intros Hc Hp s. rewrite gcode_motion; auto; [|cbn in *; tauto].
    destruct (fold_left _ _ _) as [[lv up] pos].
    destruct (Nat.ltb 0 _); [destruct (_ || _)|]; cbn -[app]; (eexists; split; [try reflexivity; try (symmetry; apply app_nil_r)|]); auto.
    constructor; auto. intros (? & ? & ? & E & _). injection E. intros. subst.
    destruct Hc as [E1|[E1|[E1|[]]]]; discriminate.
  Qed.

  Lemma app_tool_up c r w cm : plain_config c -> appends c (tool_up c r w cm).
  Proof.
    intros (ND & _ & Hu & _) s.
    destruct (tool_up_spec c r w cm s Hu) as (s' & -> & _ & _ & _ & _ & num & cm' & rest & Ho & Hr & _).
    cbn [fst]. rewrite Ho. eexists; split; [reflexivity|]. constructor.
    - intros (? & ws & ? & E & word & Hw & Hn). injection E. intros _ <- _ _.
      destruct Hw as [<-|[]]. cbn in Hn.
      cbn in ND. inversion ND as [|? ? N1 ND1]; subst. inversion ND1 as [|? ? N2 ND2]; subst.
      inversion ND2 as [|? ? N3 ND3]; subst.
      destruct Hn as [E1|[E1|[E1|[]]]]; [apply N1; rewrite E1|apply N2; rewrite E1|apply N3; rewrite <- E1]; cbn; auto.
    - eapply Forall_impl; [|exact Hr]. apply passive_not_lateral.
  Qed.
  Lemma app_tool_down c z f w cm : plain_config c -> appends c (tool_down c z f w cm).
  Proof.
    intros (ND & _ & _ & Hd). unfold tool_down. rewrite Hd.
    apply app_bind; [apply app_when, app_spindle_on|intros _].
    apply app_bind; [apply app_gcode_feed; cbn; auto|intros _].
    apply app_bind; [apply app_same; reflexivity|intros _].
    apply app_bind; [apply app_when, app_dwell|intros _; apply app_same; reflexivity].
  Qed.
  Lemma app_comment c c' a semi : appends c (comment c' a semi).
  Proof.
    apply app_when.
    assert (W : forall o, appends c (write_comment semi o)).
    { intros [s|]; unfold write_comment; [destruct (nonempty s)|]; apply app_emit; exact I. }
    destruct a as [|s|l]; [apply W|apply W|].
    induction l as [|x l IH]; [apply app_same; reflexivity|]. apply app_bind; [apply W|intros _; exact IH].
  Qed.
  Lemma app_feed_rate c f : appends c (feed_rate c f).
  Proof.
    intros s. unfold feed_rate. destruct (vF (last_val s)).
    - exists []. cbn. now rewrite app_nil_r.
    - cbn -[app]. eexists; split; [reflexivity|]. constructor; auto.
      intros (? & ? & ? & E & _). discriminate.
  Qed.
  Lemma app_header c t cm : appends c (header c t cm).
  Proof.
    unfold header.
    repeat (apply app_bind; [first
      [ apply app_emit; exact I | apply app_comment | apply app_line; reflexivity
      | apply app_feed_rate | idtac ] | intros _]).
    - generalize (header_comments c). intros l. induction l as [|x l IH]; [apply app_same; reflexivity|].
      apply app_bind; [apply app_comment|intros _; apply IH].
    - destruct cm; [apply app_comment|apply app_same; reflexivity].
    - destruct (String.eqb _ _); apply app_line; reflexivity.
    - unfold blend_line. destruct (blend_mode c); [|apply app_same; reflexivity].
      destruct (String.eqb _ _).
      + destruct (blend_tolerance c); [destruct (blend_qtolerance c)|]; apply app_line; cbn; auto.
      + destruct (String.eqb _ _); [apply app_line; reflexivity|apply app_same; reflexivity].
    - apply app_emit; exact I.
  Qed.

  (** The one source of lateral rapids. *)
  Lemma rapid_safe c x y z a cm s :
    OrderLaws N -> plain_config c -> track_inv c s -> safe_prog c (out s) ->
    safe_prog c (out (fst (rapid_move c x y z a cm s))).
  Proof.
    intros OL P TI SP. unfold rapid_move.
    set (need := match vZ (last_val s) with Some zp => ltb zp (zsafe c) || is_tool_up s | None => true end).
    assert (Hs1 : exists s1, when need (tool_up c true None None) s = (s1, Ok tt) /\
        track_inv c s1 /\ safe_prog c (out s1) /\
        exists z1, vZ (last_val s1) = Some z1 /\ ltb z1 (zsafe c) = false).
    { subst need. destruct (match vZ (last_val s) with Some _ => _ | None => _ end) eqn:E.
      - destruct (tool_up_spec c true None None s) as (s' & Hs & HL & _ ); [apply P|].
        exists s'. cbn [when]. split; [exact Hs|].
        split; [|split].
        + pose proof (track_tool_up c true None None P s TI) as H. now rewrite Hs in H.
        + destruct (app_tool_up c true None None P s) as [l [Ho Fl]]. rewrite Hs in Ho. cbn in Ho.
          rewrite Ho. now apply safe_app.
        + exists (zsafe c). rewrite HL. split; [destruct (last_val s); reflexivity|]. apply (ltb_irrefl N OL).
      - exists s. cbn. split; [reflexivity|]. split; [auto|]. split; [auto|].
        destruct (vZ (last_val s)) as [zp|]; [|discriminate].
        apply orb_false_iff in E as [E _]. eauto. }
    destruct Hs1 as (s1 & Hs1 & TI1 & SP1 & z1 & Hz1 & Lz1).
    unfold bind at 1. fold need. rewrite Hs1.
    set (z' := match z with Some z0 => pymax (zsafe c) z0 | None => zsafe c end).
    assert (Lz' : ltb z' (zsafe c) = false).
    { subst z'. destruct z as [z0|]; [|apply (ltb_irrefl N OL)].
      unfold pymax. destruct (ltb (zsafe c) z0) eqn:E; [now apply (ltb_asym N OL)|apply (ltb_irrefl N OL)]. }
    set (args := mkargs (mkp x y (Some z') None None None a None) None "" cm).
    assert (TI2 : track_inv c (fst (gcode_command c "G00" args s1))).
    { destruct P as [ND _]. apply track_gcode_motion; auto. cbn; auto. }
    assert (Lz2 : exists z2, vZ (last_val (fst (gcode_command c "G00" args s1))) = Some z2 /\ ltb z2 (zsafe c) = false).
    { destruct (gcode_motion_last c "G00" args s1) as [-> _]; [cbn; auto|reflexivity|].
      (* only the Z step of the scan touches Z *)
      assert (Other : forall l acc, ~ In PZ l ->
        vZ (fst (fst (fold_left (scan_param c "G00" args) l acc))) = vZ (fst (fst acc))).
      { induction l as [|k l IH]; intros acc Hn; [reflexivity|]. cbn [fold_left].
        rewrite IH by (intros X; apply Hn; right; exact X).
        destruct acc as [[lv up] pos]. unfold scan_param.
        destruct (pget k (a_vals args)); auto. destruct (_ || _ || _); auto. cbn [fst].
        assert (PZ <> k) as NE by (intros E; apply Hn; left; auto).
        apply (pget_pset_other PZ k _ lv NE). }
      change scan_order with ([PX; PY] ++ [PZ] ++ [PI; PJ; PR; PA; PF])%list.
      rewrite !fold_left_app. rewrite Other by (cbn; intuition discriminate).
      cbn [fold_left].
      pose proof (Other [PX; PY] (last_val s1, is_tool_up s1, pempty)) as O1.
      cbn [fold_left] in O1.
      destruct (scan_param c "G00" args (scan_param c "G00" args (last_val s1, is_tool_up s1, pempty) PX) PY)
        as [[lv up] pos].
      cbn in O1. specialize (O1 ltac:(intuition discriminate)). rewrite Hz1 in O1.
      unfold scan_param at 1. cbn [args a_vals pget vZ].
      destruct (_ || _ || _); cbn.
      - destruct lv; cbn. eauto.
      - rewrite O1. eauto. }
    assert (SP2 : safe_prog c (out (fst (gcode_command c "G00" args s1)))).
    { revert TI2 Lz2. rewrite gcode_motion by (cbn; auto).
      destruct (fold_left _ _ _) as [[lv up] pos].
      destruct (Nat.ltb 0 _); [destruct (_ || _)|]; cbn [fst out]; intros TI2 Lz2; auto.
      unfold write_line in *. cbn [fst out last_val axis_offset_reset] in *.
      apply safe_snoc; auto. intros _.
      destruct TI1 as [_ [m [Hm Hk]]]. destruct TI2 as [_ [m2 [Hm2 Hk2]]].
      cbn [out last_val] in Hm2, Hk2. rewrite replay_app, Hm in Hm2. cbn [replay] in Hm2.
      destruct (step_item (axis_letters c) m _) as [m2'|] eqn:Est; [|discriminate].
      injection Hm2 as ->.
      destruct Lz2 as [z2 [Hz2 Lz2]]. cbn [last_val] in Hz2.
      exists m, m2, z1, z2. repeat split; auto.
      - rewrite Hk by (unfold is_axis; auto). cbn [pget]. now rewrite Hz1.
      - rewrite Hk2 by (unfold is_axis; auto). cbn [pget]. now rewrite Hz2. }
    unfold bind. destruct (gcode_command c "G00" args s1) as [s2 [u|e]]; exact SP2.
  Qed.

  Definition safe_inv c s : Prop := track_inv c s /\ safe_prog c (out s).
  Lemma safe_exec c o : OrderLaws N -> plain_config c -> tracked_op o -> pres (safe_inv c) (exec c o).
  Proof.
    intros OL P To s [TI SP]. split; [now apply track_exec|].
    assert (Hap : appends c (exec c o) -> safe_prog c (out (fst (exec c o s)))).
    { intros A. destruct (A s) as [l [-> Fl]]. now apply safe_app. }
    destruct o; cbn [exec] in *; try contradiction.
    - apply Hap, app_comment.
    - apply Hap, app_header.
    - apply Hap. apply app_bind; [apply app_emit; exact I|intros _].
      apply app_bind.
      + intros s0. destruct (axis_offset_reset s0); cbn [when].
        * unfold gcode_command. cbn -[app]. eexists; split; [reflexivity|].
          constructor; auto. intros (? & ? & ? & E & _). discriminate.
        * exists []. cbn. rewrite app_nil_r. auto.
      + intros _. apply app_bind; [apply app_line; reflexivity|intros _; apply app_emit; exact I].
    - apply Hap, app_feed_rate.
    - apply Hap. intros s0. unfold pause, gcode_command. destruct conditional; cbn -[app];
        (eexists; split; [reflexivity|]; constructor; auto; intros (? & ? & ? & E & _); discriminate).
    - apply Hap, app_dwell.
    - apply Hap; now apply app_tool_up.
    - apply Hap; now apply app_tool_down.
    - apply Hap, app_spindle_on.
    - apply Hap, app_spindle_off.
    - now apply rapid_safe.
    - apply Hap. unfold Gcode.feed. destruct (feed_default _ _ _ _ _ _); [|apply app_same; reflexivity].
      apply app_bind; [apply app_gcode_feed; cbn; auto|intros _; apply app_same; reflexivity].
    - apply Hap. intros s0. unfold feed_arc.
      assert (Nop : exists l, out s0 = (out s0 ++ l)%list /\ Forall (fun i => ~ lateral_rapid c i) l)
        by (exists []; rewrite app_nil_r; auto).
      destruct (vX (last_val s0)); [|exact Nop]. destruct (vY (last_val s0)); [|exact Nop].
      destruct (negb _); [exact Nop|].
      match goal with |- context [bind ?m ?f] => apply (app_bind c m f) end;
        [apply app_gcode_feed; destruct clockwise; cbn; auto|intros _; apply app_same; reflexivity].
  Qed.

  Theorem rapids_safe c ops :
    OrderLaws N -> plain_config c -> Forall tracked_op ops -> safe_prog c (out (run c ops init)).
  Proof.
    intros OL P F.
    apply (run_pres (safe_inv c) tracked_op c (fun o => safe_exec c o OL P) ops init F).
    split; [apply track_init|]. intros pre i post E. destruct pre; discriminate.
  Qed.
End Safety.
