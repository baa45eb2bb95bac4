(** * GcodeFeed: the feed rate of the machine (C07), wrapped angles (C15), arcs
      (C16), axis offsets (C18), over the reals; with counterexamples. *)
From Coq Require Import String Ascii ZArith NArith List Bool Lia Reals Lra.
From Verif Require Import Num NumR NumF64 Str Gcode GcodeSpec GcodeProofs GcodeProofs2 GcodeProofs3
  GcodeProofs4 GcodeProofs5 GcodeR.
Import ListNotations.
Local Open Scope string_scope.

Section FeedSync.
  Variable c : config ROps.
  Hypothesis PC : plain_config c.
  Hypothesis FS : pget PF (axis_scale c) = None.
  Hypothesis FO : pget PF (axis_offset c) = None.
  Implicit Types (s : state ROps).

  Definition fword (v : R) : decimal := (ndigits_out c, Rfmt (ndigits_out c) v).
  Definition finv s : Prop :=
    axis_offset_reset s = false /\ exists m, replay (axis_letters c) (out s) machine0 = Some m /\
      mfeed m = option_map fword (vF (last_val s)).

  Lemma fin_passive s s' i :
    passive_item i -> out s' = (out s ++ [i])%list -> vF (last_val s') = vF (last_val s) ->
    axis_offset_reset s' = axis_offset_reset s -> finv s -> finv s'.
  Proof.
    intros P Ho Hl Hr [R [m [Hm Hk]]]. split; [congruence|]. exists m. rewrite Ho, replay_app, Hm. cbn [replay]. rewrite step_passive by auto.
    split; auto. congruence.
  Qed.
  Lemma fin_emit i : passive_item i -> pres finv (emit i).
  Proof. intros P s H. apply (fin_passive s _ i); auto. Qed.
  Lemma fin_line b cm : passive_item (Line None b None) -> pres finv (write_line c b cm).
  Proof.
    intros P s H. eapply fin_passive with (i := Line _ b _); [|reflexivity..|exact H]. destruct b; exact P.
  Qed.
  Lemma fin_dwell ms cm : pres finv (dwell c ms cm).
  Proof. apply pres_when, fin_line. cbn. auto. Qed.
  Lemma fin_spindle_on a b d e : pres finv (spindle_on c a b d e).
  Proof.
    apply pres_bind; [apply fin_line|intros _; apply pres_when, fin_dwell].
    cbn. now destruct (dflt (spindle_clockwise c) b).
  Qed.
  Lemma fin_spindle_off a b : pres finv (spindle_off c a b).
  Proof. apply pres_bind; [apply fin_line; reflexivity|intros _; apply pres_when, fin_dwell]. Qed.
  (** The F word of a block. *)
  Lemma feed_words pos l f : In PF l -> NoDup (map (out_name c) l) ->
    feed_of (pos_words c pos l) f =
    match pget PF pos with Some w => Some (ndigits_out c, Rfmt (ndigits_out c) w) | None => f end.
  Proof.
    destruct PC as (_ & NF & _).
    assert (K : forall l f, ~ In "F" (map (out_name c) l) -> feed_of (pos_words c pos l) f = f).
    { clear l f. induction l as [|k l IH]; intros f H; [reflexivity|].
      unfold pos_words. cbn [flat_map]. fold (pos_words c pos l). cbn [map In] in H.
      destruct (pget k pos); cbn [app feed_of wname]; [|apply IH; tauto].
      destruct (String.eqb_spec (out_name c k) "F"); [tauto|]. apply IH; tauto. }
    revert f. induction l as [|k l IH]; intros f Hin ND; [destruct Hin|].
    cbn [map] in ND. inversion ND as [|? ? Hn ND']; subst.
    unfold pos_words. cbn [flat_map]. fold (pos_words c pos l).
    destruct (param_eq_dec k PF) as [->|NE].
    - rewrite NF in Hn. destruct (pget PF pos) as [w|]; cbn [app feed_of wname wprec wval].
      + rewrite NF. cbn [String.eqb Ascii.eqb Bool.eqb]. now rewrite K.
      + now rewrite K.
    - destruct Hin as [|Hin]; [congruence|].
      assert (out_name c k <> "F").
      { intros E. apply Hn. rewrite E, <- NF. now apply in_map. }
      destruct (pget k pos); cbn [app feed_of wname]; [|apply IH; auto].
      destruct (String.eqb_spec (out_name c k) "F"); [congruence|]. apply IH; auto.
  Qed.

  Lemma to_machine_F v : to_machine c PF v = v.
  Proof. unfold to_machine, scaled. rewrite FS, FO. cbn. lra. Qed.

  (** A motion command keeps the feed rates together unless it changes F silently. *)
  Lemma fin_gcode cmd args s :
    In cmd motion_group -> a_params args = None -> finv s ->
    let s' := fst (gcode_command c cmd args s) in
    (vF (last_val s') = vF (last_val s) \/ out s' <> out s) -> finv s'.
  Proof.
    intros Hc Hp [HR [m [Hm Hk]]]. rewrite gcode_motion by auto. cbv zeta.
    pose proof (scan_inv_fold c cmd args (last_val s) scan_order _
                  (scan_inv_start c (last_val s) (is_tool_up s))) as SI.
    destruct (fold_left _ _ _) as [[lv up] pos]. cbn [fst snd] in SI. specialize (SI PF).
    destruct (Nat.ltb 0 (plen pos)) eqn:L0.
    2:{ intros _. split; auto. exists m. split; auto. cbn. pose proof (plen_0 pos PF L0) as E0. cbn in E0, SI. rewrite E0 in SI. rewrite SI. exact Hk. }
    destruct (Nat.ltb 1 (plen pos) || _) eqn:L1.
    2:{ cbn [fst last_val out]. intros [H|H]; [|congruence]. split; auto. exists m. split; auto. cbn [last_val]. congruence. }
    intros _. unfold write_line; cbn [fst]. split; [exact HR|]. exists (mkmach (move_to (axis_letters c) (words_of c pos) (mpos m))
      (feed_of (words_of c pos) (mfeed m)) (Some cmd)).
    cbn [out last_val]. rewrite replay_app, Hm. cbn [replay]. rewrite step_motion by auto.
    split; [reflexivity|]. cbn [mfeed].
    change (words_of c pos) with (pos_words c pos out_order).
    rewrite feed_words; [|cbn; tauto|apply PC].
    cbn [pget] in SI |- *. destruct (vF pos) as [w|].
    - destruct SI as [v [E ->]]. rewrite E. cbn [option_map]. unfold fword. do 3 f_equal. apply to_machine_F.
    - rewrite SI. exact Hk.
  Qed.
  (** Commands that carry no F word. *)
  Lemma fin_gcode_noF cmd args :
    In cmd motion_group -> a_params args = None -> vF (a_vals args) = None -> pres finv (gcode_command c cmd args).
  Proof.
    intros Hc Hp HF s H. apply fin_gcode; auto. left.
    rewrite gcode_motion by auto.
    pose proof (fold_none c cmd args PF scan_order (last_val s, is_tool_up s, pempty) HF) as FN.
    destruct (fold_left _ _ _) as [[lv up] pos]. cbn in FN.
    destruct (Nat.ltb 0 _); [destruct (_ || _)|]; cbn; congruence.
  Qed.
  Lemma fin_tool_up r w cm : pres finv (tool_up c r w cm).
  Proof.
    destruct PC as (ND & _ & Hu & _). unfold tool_up. rewrite Hu.
    apply pres_bind; [apply fin_gcode_noF; auto; destruct r; cbn; auto|intros _].
    apply pres_bind; [apply pres_when, fin_spindle_off|intros _].
    apply pres_bind; [apply pres_when, fin_dwell|intros _].
    apply pres_bind; intros ? ?; assumption || (intros; assumption).
  Qed.
  Lemma fin_comment a semi : pres finv (comment c a semi).
  Proof.
    assert (W : forall o, pres finv (write_comment semi o)).
    { intros [s|]; unfold write_comment; [destruct (nonempty s)|]; apply fin_emit; exact I. }
    apply pres_when. destruct a as [|s|l]; try apply W.
    induction l as [|x l IH]; [apply pres_ret|]. apply pres_bind; [apply W|intros _; apply IH].
  Qed.
  Lemma fin_feed_rate f : pres finv (feed_rate c f).
  Proof.
    intros s [HR [m [Hm Hk]]]. unfold feed_rate.
    destruct (vF (last_val s)) eqn:EF; [split; [exact HR|exists m; split; [exact Hm|cbn [fst last_val raise]; congruence]]|].
    cbn [bind write_line fst]. split; [exact HR|]. eexists. cbn [out]. rewrite replay_app, Hm. split; [reflexivity|].
    cbn [mfeed last_val]. destruct (last_val s). reflexivity.
  Qed.
  Lemma fin_header t cm : pres finv (header c t cm).
  Proof.
    unfold header.
    repeat (apply pres_bind; [first
      [ apply fin_emit; exact I | apply fin_comment | apply fin_line; reflexivity
      | now apply fin_feed_rate | idtac ] | intros _]).
    - generalize (header_comments c). intros l. induction l as [|x l IH]; [apply pres_ret|].
      apply pres_bind; [apply fin_comment|intros _; apply IH].
    - destruct cm; [apply fin_comment|apply pres_ret].
    - destruct (String.eqb _ _); apply fin_line; reflexivity.
    - unfold blend_line.
      destruct (blend_mode c); [|apply pres_ret].
      destruct (String.eqb _ _).
      + destruct (blend_tolerance c); [destruct (blend_qtolerance c)|]; apply fin_line; cbn; auto.
      + destruct (String.eqb _ _); [apply fin_line; reflexivity|apply pres_ret].
    - apply fin_emit; exact I.
  Qed.

  (** A call whose feed change comes with no change of the reported position. *)
  Definition silent_feed_change (o : @op ROps) s : Prop :=
    let s' := fst (exec c o s) in
    match o with
    | OFeed _ _ _ _ _ _ | OToolDown _ _ _ _ =>
        vF (last_val s') <> vF (last_val s) /\
        forall k, is_axis k -> pget k (last_val s') = pget k (last_val s)
    | _ => False
    end.

  (** If the reported position changes, the line is written. *)
  Lemma moved_written cmd args s :
    In cmd motion_group -> a_params args = None ->
    let s' := fst (gcode_command c cmd args s) in
    (exists k, is_axis k /\ pget k (last_val s') <> pget k (last_val s)) -> out s' <> out s.
  Proof.
    intros Hc Hp. rewrite gcode_motion by auto. cbv zeta.
    pose proof (scan_inv_fold c cmd args (last_val s) scan_order _
                  (scan_inv_start c (last_val s) (is_tool_up s))) as SI.
    destruct (fold_left _ _ _) as [[lv up] pos]. unfold scan_inv in SI.
    intros [k [Ak Hne]].
    assert (Hpos : pget k pos <> None).
    { intros E. specialize (SI k). rewrite E in SI. apply Hne.
      destruct (Nat.ltb 0 _); [destruct (_ || _)|]; cbn [write_line fst last_val]; exact SI. }
    destruct (Nat.ltb 0 (plen pos)) eqn:L0; [|exfalso; apply Hpos, plen_0, L0].
    destruct (Nat.ltb 1 (plen pos) || _) eqn:L1.
    - cbn [write_line fst out]. intros E. apply (f_equal (@length item)) in E. rewrite app_length in E. cbn in E. lia.
    - exfalso. apply Hpos. apply orb_false_iff in L1 as [L1 LF]. apply plen_F_only; auto.
      + destruct (pget PF pos); congruence.
      + destruct Ak as [->|[->|[->| ->]]]; congruence.
  Qed.

  Lemma axes_dec (l l' : pmap ROps) :
    (forall k, is_axis k -> pget k l = pget k l') \/ exists k, is_axis k /\ pget k l <> pget k l'.
  Proof.
    assert (D : forall a b : option R, {a = b} + {a <> b}).
    { intros [a|] [b|]; try (right; congruence); [|left; auto]. destruct (Req_EM_T a b); [left|right]; congruence. }
    destruct (D (pget PX l) (pget PX l')); [|right; exists PX; unfold is_axis; tauto].
    destruct (D (pget PY l) (pget PY l')); [|right; exists PY; unfold is_axis; tauto].
    destruct (D (pget PZ l) (pget PZ l')); [|right; exists PZ; unfold is_axis; tauto].
    destruct (D (pget PA l) (pget PA l')); [|right; exists PA; unfold is_axis; tauto].
    left. intros k [->|[->|[->| ->]]]; auto.
  Qed.
  Lemma F_dec (l l' : pmap ROps) : vF l = vF l' \/ vF l <> vF l'.
  Proof.
    destruct (vF l) as [a|], (vF l') as [b|]; try (right; congruence); [|left; auto].
    destruct (Req_EM_T a b); [left|right]; congruence.
  Qed.

  (** prefix ;; motion ;; suffix, where prefix and suffix track nothing. *)
  Lemma fin_seq (m1 : M unit) cmd args (rest : unit -> M unit) s :
    pres finv m1 -> keeps m1 -> oks m1 -> In cmd motion_group -> a_params args = None ->
    (forall u, pres finv (rest u)) -> (forall u, keeps (rest u)) -> finv s ->
    let s' := fst (bind m1 (fun _ => bind (gcode_command c cmd args) rest) s) in
    (vF (last_val s') = vF (last_val s) \/ exists k, is_axis k /\ pget k (last_val s') <> pget k (last_val s)) ->
    finv s'.
  Proof.
    intros P1 K1 O1 Hc Hp P3 K3 H. cbv zeta.
    specialize (P1 s H). specialize (K1 s). specialize (O1 s).
    destruct (m1 s) as [s1 r1] eqn:E1. cbn [fst snd] in *. subst r1.
    rewrite (bind_ok m1 _ s s1 tt E1).
    pose proof (fin_gcode cmd args s1 Hc Hp P1) as G. pose proof (moved_written cmd args s1 Hc Hp) as W.
    pose proof (gcode_ok c cmd args s1 Hp) as GO. cbv zeta in G, W.
    destruct (gcode_command c cmd args s1) as [s2 r2] eqn:E2. cbn [fst snd] in *. subst r2.
    rewrite (bind_ok _ rest s1 s2 tt E2). rewrite (K3 tt s2), <- K1.
    intros D. apply P3, G. destruct D as [D|D]; [left; exact D|right; apply W, D].
  Qed.

  Lemma not_silent o s : ~ silent_feed_change o s ->
    (match o with OFeed _ _ _ _ _ _ | OToolDown _ _ _ _ => True | _ => False end) ->
    vF (last_val (fst (exec c o s))) = vF (last_val s) \/
    exists k, is_axis k /\ pget k (last_val (fst (exec c o s))) <> pget k (last_val s).
  Proof.
    intros NS Ho. destruct (F_dec (last_val (fst (exec c o s))) (last_val s)) as [|NF]; [auto|right].
    destruct (axes_dec (last_val (fst (exec c o s))) (last_val s)) as [E|]; [|auto].
    exfalso. apply NS. destruct o; try contradiction; split; auto.
  Qed.

  Lemma fin_exec o s : tracked_op o -> finv s -> ~ silent_feed_change o s -> finv (fst (exec c o s)).
  Proof.
    pose proof PC as (ND & NF & Hu & Hd).
    intros To H NS. destruct o; cbn [exec]; try contradiction.
    - now apply fin_comment.
    - now apply fin_header.
    - clear NS. revert s H. apply pres_bind; [apply fin_emit; exact I|intros _].
      apply pres_bind; [|intros _; apply pres_bind; [apply fin_line; reflexivity|intros _; apply fin_emit; exact I]].
      intros s H. destruct H as [HR H]. rewrite HR. split; auto.
    - now apply fin_feed_rate.
    - unfold pause, gcode_command, no_args. destruct conditional; cbn -[finv];
      (eapply fin_passive; [|reflexivity| | |exact H]; reflexivity).
    - now apply fin_dwell.
    - now apply fin_tool_up.
    - apply not_silent in NS; [|exact I]. cbn [exec] in NS. revert NS. unfold tool_down. rewrite Hd.
      apply fin_seq; auto.
      + apply pres_when, fin_spindle_on.
      + apply keeps_when, keeps_spindle_on.
      + apply oks_when, oks_spindle_on.
      + cbn; auto.
      + intros _. apply pres_bind; [intros ? ?; assumption|intros _].
        apply pres_bind; [apply pres_when, fin_dwell|intros _ ? ?; assumption].
      + intros _. apply keeps_bind; [intros ?; reflexivity|intros _].
        apply keeps_bind; [apply keeps_when, keeps_dwell|intros _ ?; reflexivity].
    - now apply fin_spindle_on.
    - now apply fin_spindle_off.
    - revert s H NS. intros s H _. revert s H. apply pres_bind.
      + intros s H. destruct (match _ with Some _ => _ | None => _ end); [|exact H]. apply fin_tool_up; auto.
      + intros _. apply pres_bind; [apply fin_gcode_noF; auto; cbn; auto|intros _ ? ?; assumption].
    - apply not_silent in NS; [|exact I]. cbn [exec] in NS. revert NS. unfold Gcode.feed.
      destruct (feed_default _ _ _ _ _ _); [|intros _; exact H].
      match goal with |- context [bind ?g ?r s] =>
        change (bind g r s) with (bind (ret tt) (fun _ => bind g r) s) end.
      apply fin_seq; auto.
      + apply pres_ret.
      + intros ?; reflexivity.
      + intros ?; reflexivity.
      + cbn; auto.
      + intros _ ? ?; assumption.
      + intros _ ?; reflexivity.
    - (* arcs are always written *)
      clear NS. unfold feed_arc.
      destruct (vX (last_val s)) as [px|]; [|exact H]. destruct (vY (last_val s)) as [py|]; [|exact H].
      destruct (negb _); [exact H|].
      match goal with |- context [gcode_command c ?G ?A] => set (args := A); set (g := G) end.
      assert (Hg : In g motion_group) by (subst g; destruct clockwise; cbn; auto).
      pose proof (fin_gcode g args s Hg eq_refl H) as G. cbv zeta in G.
      pose proof (gcode_motion c g args s Hg eq_refl) as GM.
      pose proof (scan_forced c g args PI scan_order (last_val s, is_tool_up s, pempty) scan_order_nodup
        ltac:(cbn; tauto) eq_refl arc_x eq_refl eq_refl) as FI.
      pose proof (scan_forced c g args PJ scan_order (last_val s, is_tool_up s, pempty) scan_order_nodup
        ltac:(cbn; tauto) eq_refl arc_y eq_refl eq_refl) as FJ.
      destruct (fold_left _ _ _) as [[lv up] pos]. cbn [snd] in FI, FJ.
      assert (L1 : Nat.ltb 1 (plen pos) = true).
      { clear - FI FJ. destruct pos as [[x'|] [y'|] [z'|] [i'|] [j'|] [r'|] [a'|] [f'|]]; cbn in FI, FJ;
          try discriminate; reflexivity. }
      assert (L0 : Nat.ltb 0 (plen pos) = true) by (apply Nat.ltb_lt; apply Nat.ltb_lt in L1; lia).
      rewrite L0, L1 in GM. cbn [orb] in GM.
      rewrite GM in G. unfold bind. rewrite GM. unfold write_line in *. cbn [fst snd] in *.
      apply G. right. cbn [out]. intros E. apply (f_equal (@length item)) in E. rewrite app_length in E. cbn in E. lia.
  Qed.

  (** Histories in which no feed or tool_down changes the feed rate silently. *)
  Fixpoint no_silent (ops : list (@op ROps)) s : Prop :=
    match ops with
    | [] => True
    | o :: r => ~ silent_feed_change o s /\ no_silent r (fst (exec c o s))
    end.
  Theorem feed_sync ops :
    Forall tracked_op ops -> no_silent ops init ->
    exists m, replay (axis_letters c) (out (run c ops init)) machine0 = Some m /\
      mfeed m = option_map fword (vF (last_val (run c ops init))).
  Proof.
    intros F NS. enough (finv (run c ops init)) as [_ X] by exact X.
    assert (H0 : finv init) by (split; [reflexivity|exists machine0; split; reflexivity]).
    revert NS H0. generalize (@init ROps). induction F as [|o ops Ho F IH]; intros s NS Hs; [exact Hs|].
    destruct NS as [N1 N2]. apply (IH (fst (exec c o s))); auto. now apply fin_exec.
  Qed.
End FeedSync.

(** C07 refuted in binary64: a feed-only change is remembered but never written. *)
Definition f10 (z : Z) : f64 := f64_of_Z z.
Definition cfg0 : config F64Ops := default_config (N := F64Ops) (f10 10) (f10 1) None None.
Definition stale_history : list (@op F64Ops) :=
  [ @OFeed F64Ops (Some (f10 1)) None None None (Some (f10 100)) None;
    @OFeed F64Ops (Some (f10 1)) None None None (Some (f10 200)) None;
    @OFeed F64Ops (Some (f10 2)) None None None (Some (f10 200)) None ].
Lemma stale_feed :
  exists m, replay (axis_letters cfg0) (out (run cfg0 stale_history init)) machine0 = Some m /\ mfeed m = Some (6%nat, DFin false 100000000%N) /\ vF (last_val (run cfg0 stale_history init)) = Some (f10 200) /\ mpos m "X" = Some (6%nat, DFin false 2000000%N).
Proof. eexists. split; [vm_compute; reflexivity|]. vm_compute. auto. Qed.

Local Open Scope R_scope.

(** ** C15 *)
Lemma Rfmod_spec x y : 0 < y -> (exists n : Z, Rfmod x y = x - y * IZR n) /\ Rabs (Rfmod x y) < y.
Proof.
  intros Hy. unfold Rfmod. split; [eauto|].
  unfold Ztrunc. destruct (Rlt_dec (x / y) 0) as [L|L].
  - pose proof (Zfloor_spec (- (x / y))) as [A B]. set (k := Zfloor (- (x / y))) in *.
    rewrite opp_IZR. assert (E : x = y * (x / y)) by (field; lra).
    assert (- (y) < x + y * IZR k <= 0) by nra.
    replace (x - y * - IZR k) with (x + y * IZR k) by ring. apply Rabs_def1; lra.
  - pose proof (Zfloor_spec (x / y)) as [A B]. set (k := Zfloor (x / y)) in *.
    assert (E : x = y * (x / y)) by (field; lra).
    assert (0 <= x - y * IZR k < y) by nra. apply Rabs_def1; lra.
Qed.

Definition a_bounded (s : state ROps) : Prop :=
  match vA (last_val s) with Some v => Rabs v < 2 * Rtrigo1.PI | None => True end.

Lemma twopi_pos : 0 < 2 * Rtrigo1.PI.
Proof. pose proof PI_gt_3. lra. Qed.

Section Wrap.
  Variable c : config ROps.
  Hypothesis W : wrap_angles c = true.

  Lemma ab_keeps (m : @M ROps unit) : keeps m -> pres a_bounded m.
  Proof. intros K s H. unfold a_bounded. rewrite K. exact H. Qed.
  Lemma ab_scan base args l : forall acc,
    (match vA (fst (fst acc)) with Some v => Rabs v < 2 * Rtrigo1.PI | None => True end) ->
    match vA (fst (fst (fold_left (scan_param c base args) l acc))) with Some v => Rabs v < 2 * Rtrigo1.PI | None => True end.
  Proof.
    induction l as [|k l IH]; intros acc H; [exact H|]. cbn [fold_left]. apply IH.
    destruct acc as [[lv up] pos]. unfold scan_param. cbn [fst] in *.
    destruct (pget k (a_vals args)) as [v|]; [|exact H].
    destruct (_ || _ || _); [|exact H]. cbn [fst].
    destruct k; destruct lv; cbn in *; auto.
    cbn [is_angular andb]. rewrite W. apply (Rfmod_spec v (2 * Rtrigo1.PI)), twopi_pos.
  Qed.
  Lemma ab_gcode cmd args : pres a_bounded (gcode_command c cmd args).
  Proof.
    unfold gcode_command. destruct (negb (nonempty cmd)); [apply pres_ret|].
    destruct (mem_str _ _ && _); [apply pres_raise|].
    intros s H. pose proof (ab_scan (before "." (canonical_cmd cmd)) args scan_order (last_val s, is_tool_up s, pempty) H) as X.
    destruct (fold_left _ _ _) as [[lv up] pos]. cbn [fst] in X.
    destruct (Nat.ltb 0 _); [destruct (_ || _)|destruct (negb _)]; exact X.
  Qed.
  Lemma ab_feed_rate f : pres a_bounded (feed_rate c f).
  Proof.
    intros s H. unfold feed_rate. destruct (vF (last_val s)); [exact H|].
    unfold a_bounded in *. cbn. destruct (last_val s). exact H.
  Qed.
  Lemma ab_header t cm : pres a_bounded (header c t cm).
  Proof.
    unfold header.
    repeat (apply pres_bind; [first
      [ apply ab_keeps, keeps_emit | apply ab_keeps, keeps_comment | apply ab_keeps, keeps_line
      | apply ab_feed_rate | idtac ] | intros _]).
    - generalize (header_comments c). intros l. induction l as [|x l IH]; [apply pres_ret|].
      apply pres_bind; [apply ab_keeps, keeps_comment|intros _; apply IH].
    - destruct cm; [apply ab_keeps, keeps_comment|apply pres_ret].
    - destruct (String.eqb _ _); apply ab_keeps, keeps_line.
    - unfold blend_line.
      destruct (blend_mode c); [|apply pres_ret].
      destruct (String.eqb _ _).
      + destruct (blend_tolerance c); [destruct (blend_qtolerance c)|]; apply ab_keeps, keeps_line.
      + destruct (String.eqb _ _); [apply ab_keeps, keeps_line|apply pres_ret].
    - apply ab_keeps, keeps_emit.
  Qed.
  Lemma ab_tool_up r w cm : pres a_bounded (tool_up c r w cm).
  Proof.
    apply pres_bind; [destruct (alt_tool_up c); apply ab_gcode|intros _].
    apply pres_bind; [apply ab_keeps, keeps_when, keeps_spindle_off|intros _].
    apply pres_bind; [apply ab_keeps, keeps_when, keeps_dwell|intros _].
    apply pres_bind; [intros ? ?; assumption|intros _ ? ?; assumption].
  Qed.
  Lemma ab_exec o : pres a_bounded (exec c o).
  Proof.
    destruct o; cbn [exec].
    - apply ab_keeps, keeps_comment.
    - apply ab_header.
    - apply pres_bind; [apply ab_keeps, keeps_emit|intros _].
      apply pres_bind; [|intros _; apply pres_bind; [apply ab_keeps, keeps_line|intros _; apply ab_keeps, keeps_emit]].
      intros s H. destruct (axis_offset_reset s); [apply ab_gcode|]; exact H.
    - apply ab_feed_rate.
    - apply ab_gcode.
    - apply ab_keeps, keeps_dwell.
    - apply ab_tool_up.
    - apply pres_bind; [apply ab_keeps, keeps_when, keeps_spindle_on|intros _].
      apply pres_bind; [destruct (alt_tool_down c); apply ab_gcode|intros _].
      apply pres_bind; [intros ? ?; assumption|intros _].
      apply pres_bind; [apply ab_keeps, keeps_when, keeps_dwell|intros _ ? ?; assumption].
    - apply ab_keeps, keeps_spindle_on.
    - apply ab_keeps, keeps_spindle_off.
    - intros s H. unfold normalize_axis_angle.
      repeat (destruct (negb _); [exact H|]).
      pose proof H as H'. unfold a_bounded in H'.
      destruct (vA (last_val s)) as [v|]; [|exact H].
      destruct (ltb _ _) eqn:L; [|exact H].
      exfalso. unfold two_pi in L. rnum. rbool. lra.
    - apply pres_bind.
      + intros s H. destruct (match _ with Some _ => _ | None => _ end); [apply ab_tool_up|]; exact H.
      + intros _. apply pres_bind; [apply ab_gcode|intros _ ? ?; assumption].
    - unfold Gcode.feed. destruct (feed_default _ _ _ _ _ _); [|apply pres_ret].
      apply pres_bind; [apply ab_gcode|intros _ ? ?; assumption].
    - intros s H. unfold feed_arc. destruct (vX (last_val s)); [|exact H]. destruct (vY (last_val s)); [|exact H].
      destruct (negb _); [exact H|]. revert s H. apply pres_bind; [apply ab_gcode|intros _ ? ?; assumption].
    - apply ab_gcode.
  Qed.
  Theorem wrap_bound ops : a_bounded (run c ops init).
  Proof.
    assert (H : a_bounded init) by exact I. revert H. generalize (@init ROps).
    induction ops as [|o ops IH]; intros s H; [exact H|]. apply (IH (fst (exec c o s))), ab_exec, H.
  Qed.
End Wrap.

(** ** C16: the radius test never fires *)
Theorem arc_never_rejected (c : config ROps) cw x y i j a z f cm s :
  0 < tolerance c -> snd (feed_arc c cw x y i j a z f cm s) <> Raise GCodeException.
Proof.
  intros T. unfold feed_arc. destruct (vX (last_val s)) as [px|]; [|discriminate].
  destruct (vY (last_val s)) as [py|]; [|discriminate].
  assert (float_eq c (hypot (sub px (add i px)) (sub py (add j py))) (hypot i j) = true) as ->.
  { unfold float_eq. rnum. unfold Rhypot. apply Rltb_true.
    match goal with |- Rabs (?a - ?b) < _ => replace (a - b) with 0 end.
    - rewrite Rabs_R0; auto.
    - replace ((px - (i + px)) * (px - (i + px)) + (py - (j + py)) * (py - (j + py))) with (i * i + j * j) by ring. ring. }
  cbn [negb].
  match goal with |- context [bind (gcode_command c ?G ?A) ?r s] =>
    pose proof (gcode_ok c G A s eq_refl) as GO; destruct (gcode_command c G A s) as [s1 r1] eqn:E;
    cbn [snd] in GO; subst r1; rewrite (bind_ok _ r s s1 tt E) end.
  discriminate.
Qed.

(** An arc from (0,0) about (1,0) that "ends" at (5,5) is written. *)
Definition bad_arc : list (@op F64Ops) :=
  [ @OFeed F64Ops (Some (f10 0)) (Some (f10 0)) None None None None;
    @OArc F64Ops true (f10 5) (f10 5) (f10 1) (f10 0) None None None None ].
Lemma bad_arc_written :
  snd (exec cfg0 (@OArc F64Ops true (f10 5) (f10 5) (f10 1) (f10 0) None None None None)
        (run cfg0 [@OFeed F64Ops (Some (f10 0)) (Some (f10 0)) None None None None] init)) = Ok tt /\ exists n ws cm, In (Line n (Block "G02" ws) cm) (out (run cfg0 bad_arc init)).
Proof. split; [vm_compute; reflexivity|]. eexists _, _, _. vm_compute. right. left. reflexivity. Qed.

(** ** C18: an offset of 10 machine units moves the machine by 254 *)
Definition cfg_mm : config F64Ops :=
  @mkcfg F64Ops (f10 10) (f10 10) (f10 10) (f10 1) (f64_lit 254 (-1)) (f64_lit 1 (-6)) (f64_lit 1 (-6))
    (f10 0) (f10 0) None None (f10 0) (f10 0) true (f10 0) false false true false [] None None None "mm" 6
    pempty (pset PX (f10 10) pempty) [].
Lemma offset_scaled :
  exists m, replay (axis_letters cfg_mm) (out (run cfg_mm [@OFeed F64Ops (Some (f10 0)) None None None None None] init)) machine0 = Some m /\ mpos m "X" = Some (6%nat, DFin false 254000000%N).
Proof. eexists. split; [vm_compute; reflexivity|]. vm_compute. reflexivity. Qed.
