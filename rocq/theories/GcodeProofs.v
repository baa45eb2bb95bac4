(** * GcodeProofs: lemmas about the generator model. *)
From Coq Require Import String Ascii ZArith NArith List Bool Lia.
From Verif Require Import Num Str Gcode GcodeSpec.
Import ListNotations.
Local Open Scope string_scope.

(** ** pmap *)
Lemma pget_pset_same {A} k (v : A) m : pget k (pset k v m) = Some v.
Proof. destruct m, k; reflexivity. Qed.
Lemma pget_pset_other {A} k k' (v : A) m : k <> k' -> pget k (pset k' v m) = pget k m.
Proof. destruct m, k, k'; intros; try reflexivity; congruence. Qed.
Lemma pget_pempty {A} k : pget k (@pempty A) = None.
Proof. destruct k; reflexivity. Qed.
Lemma param_eq_dec (a b : param) : {a = b} + {a <> b}.
Proof. decide equality. Qed.

Lemma plen_F_only {A} (m : pmap A) k :
  Nat.ltb 1 (plen m) = false -> pget PF m <> None -> k <> PF -> pget k m = None.
Proof.
  destruct m as [x y z i j r a f]; unfold plen; cbn [pget vX vY vZ vI vJ vR vA vF].
  destruct f as [f|]; [|intros _ H; congruence].
  intros H _ Hk.
  destruct k; try congruence; cbn;
    destruct x, y, z, i, j, r, a; cbn in H; first [discriminate | reflexivity].
Qed.
Lemma plen_0 {A} (m : pmap A) k : Nat.ltb 0 (plen m) = false -> pget k m = None.
Proof.
  destruct m as [x y z i j r a f]; unfold plen; cbn [pget vX vY vZ vI vJ vR vA vF].
  intros H.
  destruct x, y, z, i, j, r, a, f; cbn in H; try discriminate; destruct k; reflexivity.
Qed.

Section Proofs.
  Context {N : NumOps}.
  Implicit Types (c : config N) (s : state N).

  (** ** Preservation of state predicates *)
  Definition pres {A} (P : state N -> Prop) (m : M A) : Prop := forall s, P s -> P (fst (m s)).

  Lemma pres_ret {A} P (a : A) : pres P (ret a). Proof. intros s H; exact H. Qed.
  Lemma pres_raise {A} P e : pres P (@raise N A e). Proof. intros s H; exact H. Qed.
  Lemma pres_bind {A B} P (m : M A) (f : A -> M B) :
    pres P m -> (forall a, pres P (f a)) -> pres P (bind m f).
  Proof.
    intros Hm Hf s H. unfold bind. specialize (Hm s H).
    destruct (m s) as [s' [a|e]]; cbn in *; auto. apply Hf; auto.
  Qed.
  Lemma pres_when P b (m : M unit) : pres P m -> pres P (when b m).
  Proof. intros H; destruct b; [exact H | apply pres_ret]. Qed.

  Lemma run_pres (P : state N -> Prop) (Q : @op N -> Prop) c :
    (forall o, Q o -> pres P (exec c o)) ->
    forall ops s, Forall Q ops -> P s -> P (run c ops s).
  Proof.
    intros H ops; induction ops as [|o ops IH]; intros s HQ Hs; cbn; auto.
    inversion HQ; subst. apply IH; auto. apply H; auto.
  Qed.

  (** ** The scan loop of gcode_command *)
  Lemma to_machine_eq c k v :
    to_machine c k v =
    (if is_angular k then degrees (scaled c k v)
     else if is_linear k then mul (scaled c k v) (unit_scale c) else scaled c k v).
  Proof. reflexivity. Qed.

  Definition scan_inv c (lv0 : pmap N) (acc : pmap N * bool * pmap N) : Prop :=
    let '(lv, up, pos) := acc in
    forall k, match pget k pos with
              | Some w => exists v, pget k lv = Some v /\ w = to_machine c k v
              | None => pget k lv = pget k lv0
              end.

  Lemma scan_param_inv c base args lv0 acc k :
    scan_inv c lv0 acc -> scan_inv c lv0 (scan_param c base args acc k).
  Proof.
    destruct acc as [[lv up] pos]. unfold scan_param.
    destruct (pget k (a_vals args)) as [v0|]; auto.
    destruct (_ || _ || _); auto.
    intros H k'. destruct (param_eq_dec k' k) as [->|NE].
    - rewrite !pget_pset_same. eauto.
    - rewrite !pget_pset_other by auto. apply (H k').
  Qed.

  Lemma scan_inv_fold c base args lv0 l acc :
    scan_inv c lv0 acc -> scan_inv c lv0 (fold_left (scan_param c base args) l acc).
  Proof.
    revert acc; induction l as [|k l IH]; intros acc H; cbn; auto.
    apply IH, scan_param_inv, H.
  Qed.

  Lemma scan_inv_start c lv up : scan_inv c lv (lv, up, pempty).
  Proof. intros k. rewrite pget_pempty. reflexivity. Qed.

  (** ** Replay *)
  Lemma replay_app axes p q m :
    replay axes (p ++ q) m =
    match replay axes p m with Some m' => replay axes q m' | None => None end.
  Proof.
    revert m; induction p as [|i p IH]; intros m; cbn; auto.
    destruct (step_item axes m i); auto.
  Qed.

  Lemma mem_str_In (s : string) l : mem_str s l = true <-> In s l.
  Proof.
    unfold mem_str. rewrite existsb_exists. split.
    - intros [x [H E]]. apply String.eqb_eq in E. subst; auto.
    - intros H; exists s; split; auto. apply String.eqb_refl.
  Qed.

  (** Effect of the words of a line on the axis coordinates. *)
  Definition pos_words c (pos : pmap N) (l : list param) : list word :=
    flat_map (fun k => match pget k pos with
                       | Some v => [mkword (out_name c k) (ndigits_out c) (fmt (ndigits_out c) v)]
                       | None => []
                       end) l.

  Lemma move_words_notin c axes pos l f name :
    ~ In name (map (out_name c) l) ->
    move_to axes (pos_words c pos l) f name = f name.
  Proof.
    revert f; induction l as [|k l IH]; intros f H; cbn; auto.
    cbn in H. destruct (pget k pos) as [v|]; cbn; [|apply IH; tauto].
    rewrite IH by tauto. destruct (mem_str _ _); auto.
    unfold upd. destruct (String.eqb_spec (out_name c k) name); auto. tauto.
  Qed.

  Lemma move_words c axes pos l f k :
    NoDup (map (out_name c) l) -> In k l -> In (out_name c k) axes ->
    move_to axes (pos_words c pos l) f (out_name c k) =
    match pget k pos with
    | Some v => Some (ndigits_out c, fmt (ndigits_out c) v)
    | None => f (out_name c k)
    end.
  Proof.
    revert f; induction l as [|k0 l IH]; intros f ND Hin Hax; [destruct Hin|].
    cbn in ND. inversion ND as [|? ? Hn ND']; subst.
    destruct Hin as [->|Hin].
    - cbn. destruct (pget k pos) as [v|]; cbn.
      + rewrite (move_words_notin c axes pos l) by auto.
        apply mem_str_In in Hax. rewrite Hax. unfold upd. now rewrite String.eqb_refl.
      + apply move_words_notin; auto.
    - assert (NE : out_name c k0 <> out_name c k).
      { intros E. apply Hn. rewrite E. apply in_map, Hin. }
      cbn. destruct (pget k0 pos) as [v|]; cbn; [|apply IH; auto].
      rewrite IH by auto. destruct (pget k pos); auto.
      destruct (mem_str _ _); auto. unfold upd.
      destruct (String.eqb_spec (out_name c k0) (out_name c k)); congruence.
  Qed.

  (** ** C01: the tracking invariant *)
  Definition track_inv c (s : state N) : Prop :=
    axis_offset_reset s = false /\
    exists m, replay (axis_letters c) (out s) machine0 = Some m /\
      forall k, is_axis k ->
        mpos m (out_name c k) = option_map (program_value c k) (pget k (last_val s)).

  Lemma axis_letter_in c k : is_axis k -> In (out_name c k) (axis_letters c).
  Proof. intros [->|[->|[->| ->]]]; cbn; auto. Qed.

  Lemma program_value_eq c k v : is_axis k ->
    program_value c k v = (ndigits_out c, fmt (ndigits_out c) (to_machine c k v)).
  Proof. intros [->|[->|[->| ->]]]; reflexivity. Qed.

  Lemma canonical_motion cmd :
    In cmd motion_group -> canonical_cmd cmd = cmd /\ before "." cmd = cmd.
  Proof. intros [<-|[<-|[<-|[<-|[]]]]]; split; reflexivity. Qed.

  (** A motion command through gcode_command, unfolded once and for all. *)
  Lemma gcode_motion c cmd args s :
    In cmd motion_group -> a_params args = None ->
    gcode_command c cmd args s =
    (let '(lv, up, pos) :=
       fold_left (scan_param c cmd args) scan_order (last_val s, is_tool_up s, pempty) in
     let s' := mkst lv up (line_number s) (axis_offset_reset s) (out s) (plots s) in
     if Nat.ltb 0 (plen pos) then
       if Nat.ltb 1 (plen pos) || (match pget PF pos with None => true | _ => false end) then
         write_line c (Block cmd (words_of c pos)) (a_comment args) s'
       else (s', Ok tt)
     else (s', Ok tt)).
  Proof.
    intros Hc Hp. unfold gcode_command.
    destruct (canonical_motion cmd Hc) as [-> ->].
    assert (nonempty cmd = true) as -> by (destruct Hc as [<-|[<-|[<-|[<-|[]]]]]; reflexivity).
    rewrite Hp. cbn [negb]. rewrite andb_false_r.
    destruct (fold_left _ _ _) as [[lv up] pos].
    destruct (Nat.ltb 0 (plen pos)); auto.
    assert (mem_str cmd motion_group = true) as -> by (apply mem_str_In, Hc).
    reflexivity.
  Qed.

  Lemma step_motion axes m num cmd ws cm :
    In cmd motion_group ->
    step_item axes m (Line num (Block cmd ws) cm) =
    Some (mkmach (move_to axes ws (mpos m)) (feed_of ws (mfeed m)) (Some cmd)).
  Proof.
    intros H. unfold step_item.
    assert (mem_str cmd motion_codes = true) as -> by (apply mem_str_In, H). reflexivity.
  Qed.

  Lemma track_gcode_motion c cmd args :
    NoDup (map (out_name c) out_order) ->
    In cmd motion_group -> a_params args = None ->
    pres (track_inv c) (gcode_command c cmd args).
  Proof.
    intros ND Hc Hp s [Hr [m [Hm Hk]]]. rewrite gcode_motion by auto.
    pose proof (scan_inv_fold c cmd args (last_val s) scan_order _
                  (scan_inv_start c (last_val s) (is_tool_up s))) as SI.
    destruct (fold_left _ _ _) as [[lv up] pos]. cbn in SI.
    assert (Quiet : (forall k, is_axis k -> pget k pos = None) ->
       track_inv c (mkst lv up (line_number s) (axis_offset_reset s) (out s) (plots s))).
    { intros Q. split; auto. exists m; split; auto. intros k Ak. cbn.
      rewrite Hk by auto. specialize (SI k). rewrite Q in SI by auto. now rewrite SI. }
    destruct (Nat.ltb 0 (plen pos)) eqn:L0.
    2:{ apply Quiet. intros k Ak. now apply plen_0. }
    destruct (Nat.ltb 1 (plen pos) || _) eqn:L1.
    2:{ apply Quiet. intros k Ak. apply orb_false_iff in L1 as [L1 LF].
        apply plen_F_only; auto.
        - destruct (pget PF pos); congruence.
        - destruct Ak as [->|[->|[->| ->]]]; congruence. }
    unfold write_line; cbn [fst]. split; auto. cbn [out last_val].
    eexists. rewrite replay_app, Hm. cbn [replay]. rewrite step_motion by auto.
    split; [reflexivity|]. intros k Ak. cbn [mpos].
    change (words_of c pos) with (pos_words c pos out_order).
    rewrite move_words; auto.
    - specialize (SI k). destruct (pget k pos) as [w|].
      + destruct SI as [v [-> ->]]. cbn. now rewrite program_value_eq.
      + rewrite SI. auto.
    - destruct Ak as [->|[->|[->| ->]]]; cbn; tauto.
    - now apply axis_letter_in.
  Qed.

  (** Lines that move nothing. *)
  Definition passive_item (i : item) : Prop :=
    match i with
    | Raw _ | CLine _ _ => True
    | Line _ (Block cmd _) _ =>
        mem_str cmd motion_codes = false /\ String.eqb cmd "" = false /\ mem_str cmd passive_codes = true
    | Line _ (IntWord cmd _ _) _ | Line _ (Opaque cmd) _ => mem_str cmd passive_codes = true
    | Line _ (EqWord _ _) _ => False
    end.
  Lemma step_passive axes m i : passive_item i -> step_item axes m i = Some m.
  Proof.
    destruct i as [|? ?|num b cm]; cbn; auto.
    destruct b; cbn; intros H; try (now rewrite H); try contradiction.
    destruct H as [-> [-> ->]]. reflexivity.
  Qed.
  Lemma track_passive c s s' i :
    passive_item i -> out s' = (out s ++ [i])%list -> last_val s' = last_val s ->
    axis_offset_reset s' = axis_offset_reset s ->
    track_inv c s -> track_inv c s'.
  Proof.
    intros P Ho Hl Hr [R [m [Hm Hk]]]. split; [congruence|].
    exists m. rewrite Ho, replay_app, Hm. cbn. rewrite step_passive by auto.
    split; auto. intros k Ak. rewrite Hl. auto.
  Qed.

  Lemma track_emit c i : passive_item i -> pres (track_inv c) (emit i).
  Proof. intros P s H. apply (track_passive c s _ i); auto. Qed.
  Lemma track_write_line c c' b cm :
    passive_item (Line None b None) -> pres (track_inv c) (write_line c' b cm).
  Proof.
    intros P s H. eapply track_passive with (i := Line _ b _); [|reflexivity..|exact H].
    destruct b; exact P.
  Qed.
  Lemma track_set_up c b : pres (track_inv c) (set_up b).
  Proof. intros s H; exact H. Qed.
  Lemma track_plot c e : pres (track_inv c) (plot e).
  Proof. intros s H; exact H. Qed.

  Lemma track_dwell c c' ms cm : pres (track_inv c) (dwell c' ms cm).
  Proof. apply pres_when, track_write_line. cbn. auto. Qed.
  Lemma track_spindle_on c c' a b d e : pres (track_inv c) (spindle_on c' a b d e).
  Proof.
    apply pres_bind; [apply track_write_line|intros _; apply pres_when, track_dwell].
    cbn. now destruct (dflt (spindle_clockwise c') b).
  Qed.
  Lemma track_spindle_off c c' a b : pres (track_inv c) (spindle_off c' a b).
  Proof.
    apply pres_bind; [apply track_write_line; reflexivity|intros _; apply pres_when, track_dwell].
  Qed.
  Lemma track_tool_up c r w cm : plain_config c -> pres (track_inv c) (tool_up c r w cm).
  Proof.
    intros (ND & _ & Hu & _). unfold tool_up. rewrite Hu.
    apply pres_bind; [apply track_gcode_motion; auto; destruct r; cbn; auto|intros _].
    apply pres_bind; [apply pres_when, track_spindle_off|intros _].
    apply pres_bind; [apply pres_when, track_dwell|intros _].
    apply pres_bind; [apply track_set_up|intros _]. apply track_plot.
  Qed.
  Lemma track_tool_down c z f w cm : plain_config c -> pres (track_inv c) (tool_down c z f w cm).
  Proof.
    intros (ND & _ & _ & Hd). unfold tool_down. rewrite Hd.
    apply pres_bind; [apply pres_when, track_spindle_on|intros _].
    apply pres_bind; [apply track_gcode_motion; auto; cbn; auto|intros _].
    apply pres_bind; [apply track_set_up|intros _].
    apply pres_bind; [apply pres_when, track_dwell|intros _]. apply track_plot.
  Qed.

  Lemma track_write_comment c semi o : pres (track_inv c) (write_comment semi o).
  Proof.
    destruct o as [s|]; unfold write_comment; [destruct (nonempty s)|]; apply track_emit; exact I.
  Qed.
  Lemma track_comment c c' a semi : pres (track_inv c) (comment c' a semi).
  Proof.
    apply pres_when. destruct a as [|s|l]; try apply track_write_comment.
    induction l as [|x l IH]; [apply pres_ret|].
    apply pres_bind; [apply track_write_comment|intros _; apply IH].
  Qed.
  Lemma track_feed_rate c f : plain_config c -> pres (track_inv c) (feed_rate c f).
  Proof.
    intros _ s H. unfold feed_rate. destruct (vF (last_val s)); [exact H|].
    destruct H as [R [m [Hm Hk]]]. split; [exact R|].
    cbn [bind write_line fst out last_val].
    eexists. rewrite replay_app, Hm. split; [reflexivity|].
    intros k Ak. cbn [mpos]. rewrite pget_pset_other by (destruct Ak as [->|[->|[->| ->]]]; congruence). auto.
  Qed.

  Lemma track_header c t cm : plain_config c -> pres (track_inv c) (header c t cm).
  Proof.
    intros P. unfold header.
    repeat (apply pres_bind; [first
      [ apply track_emit; exact I | apply track_comment | apply track_write_line; reflexivity
      | now apply track_feed_rate | idtac ] | intros _]).
    - generalize (header_comments c). intros l. induction l as [|x l IH]; [apply pres_ret|].
      apply pres_bind; [apply track_comment|intros _; apply IH].
    - destruct cm; [apply track_comment|apply pres_ret].
    - destruct (String.eqb _ _); apply track_write_line; reflexivity.
    - unfold blend_line.
      destruct (blend_mode c); [|apply pres_ret].
      destruct (String.eqb _ _).
      + destruct (blend_tolerance c); [destruct (blend_qtolerance c)|];
          apply track_write_line; cbn; auto.
      + destruct (String.eqb _ _); [apply track_write_line; reflexivity|apply pres_ret].
    - apply track_emit; exact I.
  Qed.

  Lemma track_footer c : pres (track_inv c) (footer c).
  Proof.
    apply pres_bind; [apply track_emit; exact I|intros _].
    apply pres_bind; [|intros _; apply pres_bind; [apply track_write_line; reflexivity|intros _; apply track_emit; exact I]].
    intros s H. destruct H as [R H]. rewrite R. split; auto.
  Qed.

  Lemma track_rapid c x y z a cm : plain_config c -> pres (track_inv c) (rapid_move c x y z a cm).
  Proof.
    intros P. apply pres_bind.
    - intros s H. destruct (match _ with Some _ => _ | None => _ end); [|exact H].
      apply track_tool_up; auto.
    - intros _. apply pres_bind.
      + destruct P as (ND & _). apply track_gcode_motion; auto. cbn; auto.
      + intros _ s H. exact H.
  Qed.
  Lemma track_feed c x y z a f cm : plain_config c -> pres (track_inv c) (feed c x y z a f cm).
  Proof.
    intros P. unfold feed. destruct (feed_default _ _ _ _ _ _); [|apply pres_ret].
    apply pres_bind.
    - destruct P as (ND & _). apply track_gcode_motion; auto. cbn; auto.
    - intros _ s H. exact H.
  Qed.
  Lemma track_arc c cw x y i j a z f cm : plain_config c -> pres (track_inv c) (feed_arc c cw x y i j a z f cm).
  Proof.
    intros P s H. unfold feed_arc.
    destruct (vX (last_val s)); [|exact H]. destruct (vY (last_val s)); [|exact H].
    destruct (negb _); [exact H|]. revert s H. apply pres_bind.
    - destruct P as (ND & _). apply track_gcode_motion; auto. destruct cw; cbn; auto.
    - intros _ s H. exact H.
  Qed.
  Lemma track_pause c b cm : pres (track_inv c) (pause c b cm).
  Proof.
    intros s H. unfold pause, gcode_command, no_args. destruct b; cbn -[track_inv];
      (eapply track_passive; [|reflexivity| | |exact H]; reflexivity).
  Qed.

  Lemma track_exec c o : plain_config c -> tracked_op o -> pres (track_inv c) (exec c o).
  Proof.
    intros P To. destruct o; cbn [exec]; try contradiction.
    - apply track_comment.
    - now apply track_header.
    - apply track_footer.
    - now apply track_feed_rate.
    - apply track_pause.
    - apply track_dwell.
    - now apply track_tool_up.
    - now apply track_tool_down.
    - apply track_spindle_on.
    - apply track_spindle_off.
    - now apply track_rapid.
    - now apply track_feed.
    - now apply track_arc.
  Qed.

  Lemma track_init c : track_inv c init.
  Proof.
    split; [reflexivity|]. exists machine0. split; [reflexivity|]. intros k _. cbn.
    now rewrite pget_pempty.
  Qed.

  Theorem tracking c ops :
    plain_config c -> Forall tracked_op ops ->
    exists m, replay (axis_letters c) (out (run c ops init)) machine0 = Some m /\
      forall k, is_axis k ->
        mpos m (out_name c k) = option_map (program_value c k) (pget k (last_val (run c ops init))).
  Proof.
    intros P F.
    destruct (run_pres (track_inv c) tracked_op c (fun o => track_exec c o P) ops init F (track_init c))
      as [_ H]. exact H.
  Qed.
End Proofs.
