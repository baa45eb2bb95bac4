(** * GcodeProofs4: requested versus reported positions, previews, single-call facts. *)
From Coq Require Import String Ascii ZArith NArith List Bool Lia.
From Verif Require Import Num Str Gcode GcodeSpec GcodeProofs GcodeProofs2 GcodeProofs3.
Import ListNotations.
Local Open Scope string_scope.

(** ** Specification: what a call asks for *)
(** The value a call asks axis [k] to reach (None: the call leaves the axis alone). *)
Definition request {N : NumOps} (c : config N) (o : @op N) (k : param) : option N :=
  match o, k with
  | OToolUp _ _ _, PZ => Some (zsafe c)
  | OToolDown z _ _ _, PZ => Some z
  | ORapid x _ _ _ _, PX => x
  | ORapid _ y _ _ _, PY => y
  | ORapid _ _ z _ _, PZ => Some (match z with
                                  | Some z => if ltb (zsafe c) z then z else zsafe c
                                  | None => zsafe c end)
  | ORapid _ _ _ a _, PA => a
  | OFeed x _ _ _ _ _, PX => x
  | OFeed _ y _ _ _ _, PY => y
  | OFeed _ _ z _ _ _, PZ => z
  | OFeed _ _ _ a _ _, PA => a
  | OArc _ x _ _ _ _ _ _ _, PX => Some x
  | OArc _ _ y _ _ _ _ _ _, PY => Some y
  | OArc _ _ _ _ _ _ z _ _, PZ => z
  | OArc _ _ _ _ _ a _ _ _, PA => a
  | OCommand cmd args, _ => if nonempty cmd then pget k (a_vals args) else None
  | _, _ => None
  end.

(** The last value successfully asked for on axis [k] by a history. *)
Fixpoint last_request {N : NumOps} (c : config N) (ops : list (@op N)) (s : state N)
         (k : param) (acc : option N) : option N :=
  match ops with
  | [] => acc
  | o :: r =>
      let acc' := match snd (exec c o s), request c o k with
                  | Ok _, Some v => Some v
                  | _, _ => acc
                  end in
      last_request c r (fst (exec c o s)) k acc'
  end.

Definition axis_tol {N : NumOps} (c : config N) (k : param) : N :=
  match k with PA => angle_tolerance c | _ => tolerance c end.
(** With wrap_angles the A axis is asked to go to the wrapped angle. *)
Definition wrapped {N : NumOps} (c : config N) (k : param) (v : N) : N :=
  match k with PA => if wrap_angles c then fmod v two_pi else v | _ => v end.

Section P4.
  Context {N : NumOps}.
  Implicit Types (c : config N) (s : state N).

  Definition close c (k : param) (v : N) (lv : pmap N) : Prop :=
    exists l, pget k lv = Some l /\ ltb (axis_tol c k) (abs (sub (wrapped c k v) l)) = false.

  Definition keeps {A} (m : M A) : Prop := forall s, last_val (fst (m s)) = last_val s.
  Lemma keeps_bind {A B} (m : M A) (f : A -> M B) : keeps m -> (forall a, keeps (f a)) -> keeps (bind m f).
  Proof.
    intros Hm Hf s. unfold bind. specialize (Hm s). destruct (m s) as [s' [a|e]]; cbn in *; auto.
    rewrite Hf; auto.
  Qed.
  Lemma keeps_refl {A} (m : M A) : (forall s, last_val (fst (m s)) = last_val s) -> keeps m.
  Proof. auto. Qed.
  Lemma keeps_when b (m : M unit) : keeps m -> keeps (when b m).
  Proof. intros H; destruct b; auto. intros s; reflexivity. Qed.
  Lemma keeps_line c b cm : keeps (write_line c b cm). Proof. intros s; reflexivity. Qed.
  Lemma keeps_emit i : keeps (@emit N i). Proof. intros s; reflexivity. Qed.
  Lemma keeps_dwell c ms cm : keeps (dwell c ms cm).
  Proof. apply keeps_when, keeps_line. Qed.
  Lemma keeps_spindle_on c a b d e : keeps (spindle_on c a b d e).
  Proof. apply keeps_bind; [apply keeps_line|intros _; apply keeps_when, keeps_dwell]. Qed.
  Lemma keeps_spindle_off c a b : keeps (spindle_off c a b).
  Proof. apply keeps_bind; [apply keeps_line|intros _; apply keeps_when, keeps_dwell]. Qed.
  Lemma keeps_comment c a semi : keeps (comment c a semi).
  Proof.
    apply keeps_when.
    assert (W : forall o, keeps (@write_comment N semi o)).
    { intros [s|]; unfold write_comment; [destruct (nonempty s)|]; apply keeps_emit. }
    destruct a as [|s|l]; [apply W|apply W|].
    induction l as [|x l IH]; [intros s; reflexivity|]. apply keeps_bind; [apply W|intros _; exact IH].
  Qed.

  Definition oks (m : M unit) : Prop := forall s : state N, snd (m s) = Ok tt.
  Lemma oks_bind (m : M unit) (f : unit -> M unit) : oks m -> (forall a, oks (f a)) -> oks (bind m f).
  Proof.
    intros Hm Hf s. unfold bind. specialize (Hm s). destruct (m s) as [s' r]; cbn in *. subst. apply Hf.
  Qed.
  Lemma oks_when b (m : M unit) : oks m -> oks (when b m).
  Proof. intros H; destruct b; auto. intros s; reflexivity. Qed.
  Lemma oks_line c b cm : oks (write_line c b cm). Proof. intros s; reflexivity. Qed.
  Lemma oks_dwell c ms cm : oks (dwell c ms cm). Proof. apply oks_when, oks_line. Qed.
  Lemma oks_spindle_on c a b d e : oks (spindle_on c a b d e).
  Proof. apply oks_bind; [apply oks_line|intros _; apply oks_when, oks_dwell]. Qed.
  Lemma oks_spindle_off c a b : oks (spindle_off c a b).
  Proof. apply oks_bind; [apply oks_line|intros _; apply oks_when, oks_dwell]. Qed.

  (** ** gcode_command: effect on the tracked values *)
  Lemma fold_none c base args k l acc :
    pget k (a_vals args) = None ->
    pget k (fst (fst (fold_left (scan_param c base args) l acc))) = pget k (fst (fst acc)).
  Proof.
    intros H. revert acc; induction l as [|k' l IH]; intros acc; [reflexivity|].
    cbn [fold_left]. rewrite IH. destruct acc as [[lv up] pos]. unfold scan_param.
    destruct (pget k' (a_vals args)) eqn:E; auto. destruct (_ || _ || _); auto.
    cbn [fst]. apply pget_pset_other. congruence.
  Qed.

  Lemma gcode_effect c cmd args s k :
    no_self_change c ->
    match snd (gcode_command c cmd args s), (if nonempty cmd then pget k (a_vals args) else None) with
    | Ok _, Some v => close c k v (last_val (fst (gcode_command c cmd args s)))
    | _, _ => pget k (last_val (fst (gcode_command c cmd args s))) = pget k (last_val s)
    end.
  Proof.
    intros NS. unfold gcode_command. destruct (nonempty cmd) eqn:NE; cbn [negb]; [|reflexivity].
    destruct (mem_str _ _ && _); [reflexivity|].
    set (base := before "." (canonical_cmd cmd)).
    pose proof (fold_settles c base args scan_order (last_val s, is_tool_up s, pempty) NS scan_order_nodup) as FS.
    pose proof (fold_none c base args k scan_order (last_val s, is_tool_up s, pempty)) as FN.
    destruct (fold_left _ _ _) as [[lv up] pos]. cbn [fst] in *.
    match goal with |- context [snd ?t] => assert (R : snd t = Ok tt /\ last_val (fst t) = lv) end.
    { destruct (Nat.ltb 0 _); [destruct (_ || _)|destruct (negb _)]; split; reflexivity. }
    destruct R as [-> ->].
    destruct (pget k (a_vals args)) as [v|] eqn:Ev; [|auto].
    rewrite Forall_forall in FS. specialize (FS k).
    assert (In k scan_order) as Hin by (destruct k; cbn; tauto).
    specialize (FS Hin). unfold settled in FS. rewrite Ev in FS.
    destruct (pget k lv) as [l|] eqn:El; [|contradiction].
    exists l. split; auto. destruct k; exact FS.
  Qed.

  Lemma gcode_ok c cmd args s : a_params args = None -> snd (gcode_command c cmd args s) = Ok tt.
  Proof.
    intros Hp. unfold gcode_command. destruct (negb (nonempty cmd)); [reflexivity|].
    rewrite Hp, andb_false_r. destruct (fold_left _ _ _) as [[lv up] pos].
    destruct (Nat.ltb 0 _); [destruct (_ || _)|destruct (negb _)]; reflexivity.
  Qed.
  Lemma keeps_gcode_noargs c cmd cm : keeps (gcode_command c cmd (no_args cm)).
  Proof.
    intros s. unfold gcode_command. destruct (negb (nonempty cmd)); [reflexivity|].
    cbn [no_args a_params]. rewrite andb_false_r. cbn.
    destruct (negb _); reflexivity.
  Qed.

  Lemma bind_ok {A B} (m : M A) (f : A -> M B) s s' a : m s = (s', Ok a) -> bind m f s = f a s'.
  Proof. intros H. unfold bind. now rewrite H. Qed.

  (** Effect of any call (except normalize_axis_angle) on one axis. *)
  Lemma op_effect c o s k :
    no_self_change c -> alt_tool_up c = None -> alt_tool_down c = None ->
    (forall ax, o <> ONormalize ax) -> is_axis k ->
    match snd (exec c o s), request c o k with
    | Ok _, Some v => close c k v (last_val (fst (exec c o s)))
    | _, _ => pget k (last_val (fst (exec c o s))) = pget k (last_val s)
    end.
  Proof.
    intros NS Hu Hd Hn Ak.
    assert (K : forall m : M unit, keeps m -> forall (r : option N), r = None ->
       match snd (m s), r with
       | Ok _, Some v => close c k v (last_val (fst (m s)))
       | _, _ => pget k (last_val (fst (m s))) = pget k (last_val s) end).
    { intros m Hm r ->. rewrite Hm. now destruct (snd (m s)). }
    destruct o; cbn [exec].
    - apply K; [apply keeps_comment|reflexivity].
    - (* header: only F *)
      assert (H : pget k (last_val (fst (header c today cm s))) = pget k (last_val s)).
      { assert (KK : forall (m : M unit), (forall s, pget k (last_val (fst (m s))) = pget k (last_val s)) ->
                      forall f : unit -> M unit, (forall s, pget k (last_val (fst (f tt s))) = pget k (last_val s)) ->
                      forall s, pget k (last_val (fst (bind m f s))) = pget k (last_val s)).
        { intros m Hm f Hf s0. unfold bind. specialize (Hm s0). destruct (m s0) as [s' [[]|e]]; cbn in *; auto.
          rewrite Hf; auto. }
        assert (KE : forall (m : M unit), keeps m -> forall s, pget k (last_val (fst (m s))) = pget k (last_val s)).
        { intros m Hm s0. now rewrite Hm. }
        unfold header.
        repeat (apply KK; [first [apply KE; first [apply keeps_emit | apply keeps_comment | apply keeps_line] | idtac] | intros ?]).
        1-4: apply KE.
        - generalize (header_comments c). intros l. induction l as [|x l IH]; [intros ss; reflexivity|].
          apply keeps_bind; [apply keeps_comment|intros _; apply IH].
        - destruct cm; [apply keeps_comment|intros ss; reflexivity].
        - destruct (String.eqb _ _); apply keeps_line.
        - unfold blend_line. destruct (blend_mode c); [|intros ss; reflexivity].
          destruct (String.eqb _ _).
          + destruct (blend_tolerance c); [destruct (blend_qtolerance c)|]; apply keeps_line.
          + destruct (String.eqb _ _); [apply keeps_line|intros ss; reflexivity].
        - intros ss. unfold feed_rate.
          destruct (vF (last_val ss)); [reflexivity|]. cbn.
          apply pget_pset_other. destruct Ak as [->|[->|[->| ->]]]; discriminate.
        - reflexivity. }
      cbn [request]. now destruct (snd (header c today cm s)).
    - apply K; [|reflexivity]. apply keeps_bind; [apply keeps_emit|intros _].
      apply keeps_bind; [intros s0|intros _; apply keeps_bind; [apply keeps_line|intros _; apply keeps_emit]].
      destruct (axis_offset_reset s0); [apply keeps_gcode_noargs|reflexivity].
    - cbn [request]. assert (pget k (last_val (fst (feed_rate c f s))) = pget k (last_val s)) as H.
      { unfold feed_rate. destruct (vF (last_val s)); [reflexivity|]. cbn.
        apply pget_pset_other. destruct Ak as [->|[->|[->| ->]]]; discriminate. }
      now destruct (snd (feed_rate c f s)).
    - apply K; [|reflexivity]. apply keeps_gcode_noargs.
    - apply K; [apply keeps_dwell|reflexivity].
    - destruct (tool_up_spec c rapid wait cm s Hu) as (s' & -> & HL & _). cbn [fst snd]. rewrite HL.
      destruct Ak as [->|[->|[->| ->]]]; cbn [request].
      + apply pget_pset_other; discriminate.
      + apply pget_pset_other; discriminate.
      + exists (zsafe c). split; [apply pget_pset_same|]. apply NS.
      + apply pget_pset_other; discriminate.
    - unfold tool_down. rewrite Hd.
      set (pre := when (spindle_auto c) (spindle_on c None None None None)).
      assert (Hpre : keeps pre) by apply keeps_when, keeps_spindle_on.
      assert (Opre : snd (pre s) = Ok tt).
      { apply oks_when, oks_spindle_on. }
      destruct (pre s) as [s1 r1] eqn:E1. cbn in Opre. subst r1.
      specialize (Hpre s). rewrite E1 in Hpre. cbn in Hpre.
      rewrite (bind_ok _ _ s s1 tt E1).
      set (args := mkargs (pset PZ z (pset PF (dflt (zfeed c) feed) pempty)) None "" cm).
      pose proof (gcode_effect c "G01" args s1 k NS) as GE.
      pose proof (gcode_ok c "G01" args s1 eq_refl) as GO.
      destruct (gcode_command c "G01" args s1) as [s2 r2] eqn:E2. cbn [fst snd] in *. subst r2.
      rewrite (bind_ok _ _ s1 s2 tt E2).
      match goal with |- context [snd (?m s2)] =>
        assert (Km : keeps m) end.
      { apply keeps_bind; [intros s0; reflexivity|intros _].
        apply keeps_bind; [apply keeps_when, keeps_dwell|intros _ s0; reflexivity]. }
      match goal with |- context [snd (?m s2)] =>
        assert (Om : snd (m s2) = Ok tt) end.
      { apply oks_bind; [intros ss; reflexivity|intros _].
        apply oks_bind; [apply oks_when, oks_dwell|intros _ ss; reflexivity]. }
      rewrite Om, Km.
      destruct Ak as [->|[->|[->| ->]]]; cbn [request]; cbn in GE; cbn [pget]; rewrite <- ?Hpre; exact GE.
    - apply K; [apply keeps_spindle_on|reflexivity].
    - apply K; [apply keeps_spindle_off|reflexivity].
    - exfalso. now apply (Hn axis).
    - unfold rapid_move.
      match goal with |- context [bind ?m ?f s] => set (pre := m); set (post := f) end.
      assert (Hpre : exists s1, pre s = (s1, Ok tt) /\ (k <> PZ -> pget k (last_val s1) = pget k (last_val s))).
      { subst pre. cbn beta. destruct (match vZ (last_val s) with Some _ => _ | None => _ end); cbn [when].
        - destruct (tool_up_spec c true None None s Hu) as (s' & -> & HL & _).
          exists s'. split; auto. intros NE. rewrite HL. now apply pget_pset_other.
        - exists s. auto. }
      destruct Hpre as (s1 & E1 & H1). rewrite (bind_ok _ _ s s1 tt E1). subst post pre. cbv beta.
      match goal with |- context [gcode_command c "G00" ?A] => set (args := A) end.
      pose proof (gcode_effect c "G00" args s1 k NS) as GE.
      pose proof (gcode_ok c "G00" args s1 eq_refl) as GO.
      destruct (gcode_command c "G00" args s1) as [s2 r2] eqn:E2. cbn [fst snd] in *. subst r2.
      rewrite (bind_ok _ _ s1 s2 tt E2). cbn [endp plot fst snd last_val].
      destruct Ak as [->|[->|[->| ->]]]; cbn [request]; cbn in GE.
      + destruct x; [exact GE|]. cbn [pget] in *. rewrite GE. apply H1; discriminate.
      + destruct y; [exact GE|]. cbn [pget] in *. rewrite GE. apply H1; discriminate.
      + exact GE.
      + destruct a; [exact GE|]. cbn [pget] in *. rewrite GE. apply H1; discriminate.
    - unfold Gcode.feed. destruct (feed_default c x y z a feed) as [fd|] eqn:FD.
      + set (args := mkargs (mkp x y z None None None a (Some fd)) None "" cm).
        pose proof (gcode_effect c "G01" args s k NS) as GE.
        pose proof (gcode_ok c "G01" args s eq_refl) as GO.
        destruct (gcode_command c "G01" args s) as [s2 r2] eqn:E2. cbn [fst snd] in *. subst r2.
        rewrite (bind_ok _ _ s s2 tt E2). cbn [endp plot fst snd last_val].
        destruct Ak as [->|[->|[->| ->]]]; cbn [request]; cbn in GE; exact GE.
      + assert (x = None /\ y = None /\ z = None /\ a = None) as (-> & -> & -> & ->).
        { unfold feed_default in FD. destruct feed; [discriminate|].
          destruct x, y, z, a; cbn in FD; try discriminate; auto. }
        cbn. now destruct Ak as [->|[->|[->| ->]]].
    - unfold feed_arc. 
      destruct (vX (last_val s)) eqn:EX; [|reflexivity]. destruct (vY (last_val s)) eqn:EY; [|reflexivity].
      destruct (negb _); [reflexivity|].
      match goal with |- context [gcode_command c ?G ?A] => set (args := A); set (g := G) end.
      assert (Hg : nonempty g = true) by (subst g; destruct clockwise; reflexivity).
      pose proof (gcode_effect c g args s k NS) as GE.
      pose proof (gcode_ok c g args s eq_refl) as GO.
      destruct (gcode_command c g args s) as [s2 r2] eqn:E2. cbn [fst snd] in *. subst r2.
      rewrite (bind_ok _ _ s s2 tt E2). cbn [endp plot fst snd last_val].
      rewrite Hg in GE.
      destruct Ak as [->|[->|[->| ->]]]; cbn [request]; cbn in GE; exact GE.
    - apply gcode_effect; auto.
  Qed.

  (** ** C05 *)
  Theorem requests_close c ops s k acc :
    no_self_change c -> alt_tool_up c = None -> alt_tool_down c = None ->
    Forall (fun o => forall ax, o <> ONormalize ax) ops -> is_axis k ->
    (forall v, acc = Some v -> close c k v (last_val s)) ->
    forall v, last_request c ops s k acc = Some v -> close c k v (last_val (run c ops s)).
  Proof.
    intros NS Hu Hd F Ak. revert s acc.
    induction ops as [|o ops IH]; intros s acc H v E; cbn in *; auto.
    inversion F; subst. eapply IH; eauto.
    intros v' E'. pose proof (op_effect c o s k NS Hu Hd ltac:(auto) Ak) as OE.
    destruct (snd (exec c o s)); [destruct (request c o k) as [r|]|].
    - injection E' as ->. exact OE.
    - destruct (H v' E') as [l [E1 E2]]. exists l. rewrite OE. auto.
    - destruct (H v' E') as [l [E1 E2]]. exists l. rewrite OE. auto.
  Qed.

  (** ** C19: previews *)
  (** The end point announced on axis [k] of an event. *)
  Definition event_coord (e : plot_event N) (k : param) : option (option N) :=
    match e, k with
    | (PlotMove x _ _ _ | PlotFeed x _ _ _ | PlotArc _ _ x _ _ _ _), PX => Some x
    | (PlotMove _ y _ _ | PlotFeed _ y _ _ | PlotArc _ _ _ y _ _ _), PY => Some y
    | (PlotMove _ _ z _ | PlotFeed _ _ z _ | PlotArc _ _ _ _ z _ _), PZ => Some z
    | (PlotMove _ _ _ a | PlotFeed _ _ _ a | PlotArc _ _ _ _ _ a _), PA => Some a
    | _, _ => None
    end.

  (** Which notifications a call makes: kind of events, in order. *)
  Inductive ekind := KMove | KFeed | KArc (cw : bool) | KDown | KUp.
  Definition kind (e : plot_event N) : ekind :=
    match e with
    | PlotMove _ _ _ _ => KMove | PlotFeed _ _ _ _ => KFeed
    | PlotArc _ _ _ _ _ _ cw => KArc cw | PlotDown => KDown | PlotUp => KUp
    end.

  Definition plot_ok c (o : op) s (es : list (plot_event N)) (s' : state N) : Prop :=
    match o with
    | OToolUp _ _ _ => map kind es = [KUp]
    | OToolDown _ _ _ _ => map kind es = [KDown]
    | ORapid _ _ _ _ _ => map kind es = [KMove] \/ map kind es = [KUp; KMove]
    | OFeed x y z a f _ =>
        (map kind es = [KFeed] /\ (f <> None \/ x <> None \/ y <> None \/ z <> None \/ a <> None)) \/
        (es = [] /\ f = None /\ x = None /\ y = None /\ z = None /\ a = None)
    | OArc cw _ _ i j _ _ _ _ =>
        map kind es = [KArc cw] /\
        exists cx cy x y z a, es = [PlotArc cx cy x y z a cw] /\
          (exists px py, vX (last_val s) = Some px /\ vY (last_val s) = Some py /\
             cx = add i px /\ cy = add j py)
    | _ => es = []
    end /\
    Forall (fun e => forall k, is_axis k ->
       match event_coord e k with
       | None => True
       | Some None => pget k (last_val s') = None
       | Some (Some v) => request c o k = Some v \/ (request c o k = None /\ pget k (last_val s') = Some v)
       end) es.

  Definition silent {A} (m : M A) : Prop := forall s, plots (fst (m s)) = plots s.
  Lemma silent_bind {A B} (m : M A) (f : A -> M B) : silent m -> (forall a, silent (f a)) -> silent (bind m f).
  Proof.
    intros Hm Hf s. unfold bind. specialize (Hm s). destruct (m s) as [s' [a|e]]; cbn in *; auto.
    rewrite Hf; auto.
  Qed.
  Lemma silent_when b (m : M unit) : silent m -> silent (when b m).
  Proof. intros H; destruct b; auto. intros s; reflexivity. Qed.
  Lemma silent_line c b cm : silent (write_line c b cm). Proof. intros s; reflexivity. Qed.
  Lemma silent_emit i : silent (@emit N i). Proof. intros s; reflexivity. Qed.
  Lemma silent_dwell c ms cm : silent (dwell c ms cm).
  Proof. apply silent_when, silent_line. Qed.
  Lemma silent_spindle_on c a b d e : silent (spindle_on c a b d e).
  Proof. apply silent_bind; [apply silent_line|intros _; apply silent_when, silent_dwell]. Qed.
  Lemma silent_spindle_off c a b : silent (spindle_off c a b).
  Proof. apply silent_bind; [apply silent_line|intros _; apply silent_when, silent_dwell]. Qed.
  Lemma silent_gcode c cmd args : silent (gcode_command c cmd args).
  Proof.
    intros s. unfold gcode_command. destruct (negb (nonempty cmd)); [reflexivity|].
    destruct (_ && _); [reflexivity|]. destruct (fold_left _ _ _) as [[lv up] pos].
    destruct (Nat.ltb 0 _); [destruct (_ || _)|destruct (negb _)]; reflexivity.
  Qed.
  Lemma silent_comment c a semi : silent (comment c a semi).
  Proof.
    apply silent_when.
    assert (W : forall o, silent (@write_comment N semi o)).
    { intros [s|]; unfold write_comment; [destruct (nonempty s)|]; apply silent_emit. }
    destruct a as [|s|l]; [apply W|apply W|].
    induction l as [|x l IH]; [intros s; reflexivity|]. apply silent_bind; [apply W|intros _; exact IH].
  Qed.
  Lemma silent_feed_rate c f : silent (feed_rate c f).
  Proof. intros s. unfold feed_rate. destruct (vF (last_val s)); reflexivity. Qed.
  Lemma silent_header c t cm : silent (header c t cm).
  Proof.
    unfold header.
    repeat (apply silent_bind; [first
      [ apply silent_emit | apply silent_comment | apply silent_line
      | apply silent_feed_rate | idtac ] | intros _]).
    - generalize (header_comments c). intros l. induction l as [|x l IH]; [intros ss; reflexivity|].
      apply silent_bind; [apply silent_comment|intros _; apply IH].
    - destruct cm; [apply silent_comment|intros ss; reflexivity].
    - destruct (String.eqb _ _); apply silent_line.
    - unfold blend_line. destruct (blend_mode c); [|intros ss; reflexivity].
      destruct (String.eqb _ _).
      + destruct (blend_tolerance c); [destruct (blend_qtolerance c)|]; apply silent_line.
      + destruct (String.eqb _ _); [apply silent_line|intros ss; reflexivity].
    - apply silent_emit.
  Qed.
  Lemma silent_normalize c ax : silent (normalize_axis_angle c ax).
  Proof.
    intros s. unfold normalize_axis_angle. repeat (destruct (negb _); [reflexivity|]).
    destruct (vA (last_val s)); [|reflexivity]. destruct (ltb _ _); reflexivity.
  Qed.

  Lemma orelse_cases (r t : option N) :
    match orelse r t with
    | None => t = None
    | Some v => r = Some v \/ (r = None /\ t = Some v)
    end.
  Proof. destruct r; cbn; auto. destruct t; auto. Qed.

  Theorem preview c o s :
    alt_tool_up c = None ->
    exists es, plots (fst (exec c o s)) = (plots s ++ es)%list /\
      match snd (exec c o s) with
      | Ok _ => plot_ok c o s es (fst (exec c o s))
      | Raise _ => es = []
      end.
  Proof.
    intros Hu.
    assert (K : forall m : M unit, silent m -> m s = exec c o s ->
        (forall s', plot_ok c o s [] s') ->
        exists es, plots (fst (m s)) = (plots s ++ es)%list /\
          match snd (m s) with Ok _ => plot_ok c o s es (fst (m s)) | Raise _ => es = [] end).
    { intros m Hm _ Hp. exists []. rewrite Hm, app_nil_r. split; auto. destruct (snd (m s)); auto. }
    destruct o; cbn [exec] in *.
    - apply K; [apply silent_comment|reflexivity|split; [reflexivity|constructor]].
    - apply K; [apply silent_header|reflexivity|split; [reflexivity|constructor]].
    - apply K; [|reflexivity|split; [reflexivity|constructor]].
      apply silent_bind; [apply silent_emit|intros _].
      apply silent_bind; [intros s0|intros _; apply silent_bind; [apply silent_line|intros _; apply silent_emit]].
      destruct (axis_offset_reset s0); [apply silent_gcode|reflexivity].
    - apply K; [apply silent_feed_rate|reflexivity|split; [reflexivity|constructor]].
    - apply K; [apply silent_gcode|reflexivity|split; [reflexivity|constructor]].
    - apply K; [apply silent_dwell|reflexivity|split; [reflexivity|constructor]].
    - destruct (tool_up_spec c rapid wait cm s Hu) as (s' & -> & _ & _ & HP & _). cbn [fst snd].
      exists [PlotUp]. split; [exact HP|]. split; [reflexivity|]. constructor; [|constructor].
      intros k _. exact I.
    - unfold tool_down.
      match goal with |- context [bind ?m ?f s] => set (m1 := m); set (f1 := f) end.
      assert (H1 : silent m1) by apply silent_when, silent_spindle_on.
      assert (O1 : snd (m1 s) = Ok tt).
      { apply oks_when, oks_spindle_on. }
      destruct (m1 s) as [s1 r1] eqn:E1. cbn in O1. subst r1. specialize (H1 s). rewrite E1 in H1. cbn in H1.
      rewrite (bind_ok _ _ s s1 tt E1). subst f1. cbv beta.
      match goal with |- context [bind ?m ?f s1] => set (m2 := m); set (f2 := f) end.
      assert (H2 : silent m2) by (subst m2; destruct (alt_tool_down c); apply silent_gcode).
      assert (O2 : snd (m2 s1) = Ok tt) by (subst m2; destruct (alt_tool_down c); apply gcode_ok; reflexivity).
      destruct (m2 s1) as [s2 r2] eqn:E2. cbn in O2. subst r2. specialize (H2 s1). rewrite E2 in H2. cbn in H2.
      rewrite (bind_ok _ _ s1 s2 tt E2). subst f2. cbv beta.
      rewrite (bind_ok (set_up false) _ s2 _ tt eq_refl).
      match goal with |- context [bind ?m ?f ?q] => set (m3 := m); set (f3 := f); set (s3 := q) end.
      assert (H3 : silent m3) by apply silent_when, silent_dwell.
      assert (O3 : snd (m3 s3) = Ok tt).
      { apply oks_when, oks_dwell. }
      destruct (m3 s3) as [s4 r4] eqn:E3. cbn in O3. subst r4. specialize (H3 s3). rewrite E3 in H3. cbn in H3.
      rewrite (bind_ok _ _ s3 s4 tt E3). subst f3. cbn.
      exists [PlotDown]. rewrite H3. subst s3. cbn. rewrite H2, H1. split; [reflexivity|].
      split; [reflexivity|]. constructor; [|constructor]. intros k _. exact I.
    - apply K; [apply silent_spindle_on|reflexivity|split; [reflexivity|constructor]].
    - apply K; [apply silent_spindle_off|reflexivity|split; [reflexivity|constructor]].
    - apply K; [apply silent_normalize|reflexivity|split; [reflexivity|constructor]].
    - unfold rapid_move.
      match goal with |- context [bind ?m ?f s] => set (pre := m); set (post := f) end.
      assert (Hpre : exists s1 b, pre s = (s1, Ok tt) /\ plots s1 = (plots s ++ (if b : bool then [PlotUp] else []))%list).
      { subst pre. cbn beta. destruct (match vZ (last_val s) with Some _ => _ | None => _ end); cbn [when].
        - destruct (tool_up_spec c true None None s Hu) as (s' & -> & _ & _ & HP & _).
          exists s', true. auto.
        - exists s, false. rewrite app_nil_r. auto. }
      destruct Hpre as (s1 & b & E1 & H1). rewrite (bind_ok _ _ s s1 tt E1). subst post pre. cbv beta.
      match goal with |- context [gcode_command c "G00" ?A] => set (args := A) end.
      pose proof (silent_gcode c "G00" args s1) as H2.
      pose proof (gcode_ok c "G00" args s1 eq_refl) as GO.
      destruct (gcode_command c "G00" args s1) as [s2 r2] eqn:E2. cbn [fst snd] in *. subst r2.
      rewrite (bind_ok _ _ s1 s2 tt E2). cbn [endp plot fst snd plots last_val].
      rewrite H2, H1, <- app_assoc. eexists. split; [reflexivity|].
      assert (FF : Forall (fun e => forall k, is_axis k ->
         match event_coord e k with
         | None => True
         | Some None => pget k (last_val s2) = None
         | Some (Some v) => request c (ORapid x y z a cm) k = Some v \/ (request c (ORapid x y z a cm) k = None /\ pget k (last_val s2) = Some v)
         end) [PlotMove (orelse x (vX (last_val s2))) (orelse y (vY (last_val s2)))
                 (orelse (Some (match z with Some z0 => pymax (zsafe c) z0 | None => zsafe c end)) (vZ (last_val s2)))
                 (orelse a (vA (last_val s2)))]).
      { constructor; [|constructor]. intros k [->|[->|[->| ->]]]; cbn [event_coord request pget].
        - apply orelse_cases.
        - apply orelse_cases.
        - left. reflexivity.
        - apply orelse_cases. }
      destruct b; cbn [app]; split; cbn [map kind]; auto.
      constructor; [intros k _; exact I|exact FF].
    - unfold Gcode.feed. destruct (feed_default c x y z a feed) as [fd|] eqn:FD.
      + set (args := mkargs (mkp x y z None None None a (Some fd)) None "" cm).
        pose proof (silent_gcode c "G01" args s) as H2.
        pose proof (gcode_ok c "G01" args s eq_refl) as GO.
        destruct (gcode_command c "G01" args s) as [s2 r2] eqn:E2. cbn [fst snd] in *. subst r2.
        rewrite (bind_ok _ _ s s2 tt E2). cbn [endp plot fst snd plots last_val].
        rewrite H2. eexists. split; [reflexivity|]. split.
        * left. split; [reflexivity|]. unfold feed_default in FD.
          destruct feed; [left; discriminate|]. right.
          destruct x; [left; discriminate|]. right. destruct y; [left; discriminate|]. right.
          destruct z; [left; discriminate|]. right. destruct a; [discriminate|]. discriminate.
        * constructor; [|constructor]. intros k [->|[->|[->| ->]]]; cbn [event_coord request pget]; apply orelse_cases.
      + exists []. cbn. rewrite app_nil_r. split; [reflexivity|]. split; [|constructor].
        right. unfold feed_default in FD. destruct feed; [discriminate|].
        destruct x, y, z, a; cbn in FD; try discriminate. auto 6.
    - unfold feed_arc.
      destruct (vX (last_val s)) as [px|] eqn:EX; [|exists []; cbn; rewrite app_nil_r; auto].
      destruct (vY (last_val s)) as [py|] eqn:EY; [|exists []; cbn; rewrite app_nil_r; auto].
      destruct (negb _); [exists []; cbn; rewrite app_nil_r; auto|].
      match goal with |- context [gcode_command c ?G ?A] => set (args := A); set (g := G) end.
      pose proof (silent_gcode c g args s) as H2.
      pose proof (gcode_ok c g args s eq_refl) as GO.
      destruct (gcode_command c g args s) as [s2 r2] eqn:E2. cbn [fst snd] in *. subst r2.
      rewrite (bind_ok _ _ s s2 tt E2). cbn [endp plot fst snd plots last_val].
      rewrite H2. eexists. split; [reflexivity|]. split.
      + split; [reflexivity|]. eexists _, _, _, _, _, _. split; [reflexivity|]. exists px, py. auto.
      + constructor; [|constructor]. intros k [->|[->|[->| ->]]]; cbn [event_coord request pget]; try apply orelse_cases; cbn; auto.
    - apply K; [apply silent_gcode|reflexivity|split; [reflexivity|constructor]].
  Qed.

  (** ** C06 *)
  Lemma feed_defaults c x y z a cm s :
    (x <> None \/ y <> None -> feed c x y z a None cm s = feed c x y z a (Some (xyfeed c)) cm s) /\
    (x = None -> y = None -> z <> None -> feed c x y z a None cm s = feed c x y z a (Some (zfeed c)) cm s) /\
    (x = None -> y = None -> z = None -> a <> None -> feed c x y z a None cm s = feed c x y z a (Some (afeed c)) cm s) /\
    (x = None -> y = None -> z = None -> a = None -> feed c x y z a None cm s = (s, Ok tt)).
  Proof.
    repeat split; intros; subst; unfold feed, feed_default.
    - destruct x; [reflexivity|]. destruct y; [reflexivity|]. destruct H; congruence.
    - destruct z; [reflexivity|congruence].
    - destruct a; [reflexivity|congruence].
    - reflexivity.
  Qed.
End P4.
