(** * GcodeProofs2: safety, retract, redundancy, structure of the program. *)
From Coq Require Import String Ascii ZArith NArith List Bool Lia.
From Verif Require Import Num Str Gcode GcodeSpec GcodeProofs.
Import ListNotations.
Local Open Scope string_scope.

Section Proofs2.
  Context {N : NumOps}.
  Implicit Types (c : config N) (s : state N).

  (** ** Induction principle over the primitives of the writer *)
  Definition nonline (i : item) : Prop := match i with Line _ _ _ => False | _ => True end.

  (** Every body a call can write. *)
  Definition body_ok c (b : body) : Prop :=
    match b with
    | Block cmd ws =>
        (exists pos, ws = words_of c pos) \/
        (cmd = "G04" /\ exists x : N, ws = [mkword "P" 4 (fmt 4 x)]) \/
        (cmd = "" /\ exists x : N, ws = [mkword "F" (ndigits_out c) (fmt (ndigits_out c) x)]) \/
        (cmd = "G64" /\ (exists x : N, ws = [mkword "P" (ndigits_out c) (fmt (ndigits_out c) x)]) \/
         cmd = "G64" /\ exists x y : N, ws = [mkword "P" (ndigits_out c) (fmt (ndigits_out c) x);
                            mkword "Q" (ndigits_out c) (fmt (ndigits_out c) y)])
    | IntWord cmd n _ => (cmd = "M3" \/ cmd = "M4") /\ n = "S"
    | EqWord cmd w => cmd = "G92" /\ exists x : N, w = mkword "A" (ndigits_out c) (fmt (ndigits_out c) x)
    | Opaque _ => True
    end.
  Definition is_eq_body (b : body) : bool := match b with EqWord _ _ => true | _ => false end.

  Section Prim.
    Variable c : config N.
    Variable P : state N -> Prop.
    Hypothesis Hemit : forall i, nonline i -> (show_comments c = false -> exists t, i = Raw t /\ t <> ";" ++ newline) -> pres P (emit i).
    Hypothesis Hline : forall b cm, body_ok c b -> is_eq_body b = false -> pres P (write_line c b cm).
    Hypothesis Hst : forall s lv up pl, P s ->
      P (mkst lv up (line_number s) (axis_offset_reset s) (out s) pl).
    Hypothesis Hnorm : forall s (x v : N), P s ->
      P (mkst (pset PA v (last_val s)) (is_tool_up s)
           (if show_line_numbers c then (line_number s + 1)%N else line_number s) true
           (out s ++ [Line (if show_line_numbers c then Some (line_number s) else None)
                       (EqWord "G92" (mkword "A" (ndigits_out c) (fmt (ndigits_out c) x)))
                       (shown c (Some "Normalize axis angle"))]) (plots s)).

    Lemma prim_plot e : pres P (plot e).
    Proof. intros s H. apply (Hst s (last_val s) (is_tool_up s)), H. Qed.
    Lemma prim_set_up b : pres P (set_up b).
    Proof. intros s H. apply (Hst s (last_val s) b), H. Qed.

    Lemma prim_gcode cmd args : pres P (gcode_command c cmd args).
    Proof.
      unfold gcode_command. destruct (negb (nonempty cmd)); [apply pres_ret|].
      destruct (mem_str _ _ && _); [apply pres_raise|].
      intros s H. destruct (fold_left _ _ _) as [[lv up] pos].
      destruct (Nat.ltb 0 _).
      - destruct (_ || _); [apply Hline; [left; eauto|reflexivity|]|]; apply Hst; exact H.
      - destruct (negb _); [apply Hline; [exact I|reflexivity|]|]; apply Hst; exact H.
    Qed.
    Lemma prim_dwell ms cm : pres P (dwell c ms cm).
    Proof. apply pres_when, Hline; [|reflexivity]. right; left; eauto. Qed.
    Lemma prim_spindle_on a b d e : pres P (spindle_on c a b d e).
    Proof.
      apply pres_bind; [apply Hline; [|reflexivity]|intros _; apply pres_when, prim_dwell].
      split; auto. destruct (dflt _ _); auto.
    Qed.
    Lemma prim_spindle_off a b : pres P (spindle_off c a b).
    Proof. apply pres_bind; [apply Hline; [exact I|reflexivity]|intros _; apply pres_when, prim_dwell]. Qed.
    Lemma prim_tool_up r w cm : pres P (tool_up c r w cm).
    Proof.
      apply pres_bind; [destruct (alt_tool_up c); apply prim_gcode|intros _].
      apply pres_bind; [apply pres_when, prim_spindle_off|intros _].
      apply pres_bind; [apply pres_when, prim_dwell|intros _].
      apply pres_bind; [apply prim_set_up|intros _; apply prim_plot].
    Qed.
    Lemma prim_tool_down z f w cm : pres P (tool_down c z f w cm).
    Proof.
      apply pres_bind; [apply pres_when, prim_spindle_on|intros _].
      apply pres_bind; [destruct (alt_tool_down c); apply prim_gcode|intros _].
      apply pres_bind; [apply prim_set_up|intros _].
      apply pres_bind; [apply pres_when, prim_dwell|intros _; apply prim_plot].
    Qed.
    Lemma prim_comment a semi : pres P (comment c a semi).
    Proof.
      unfold comment. destruct (show_comments c) eqn:SC; [|apply pres_ret]. unfold when.
      assert (W : forall o, pres P (write_comment semi o)).
      { intros [s|]; unfold write_comment; [destruct (nonempty s)|]; apply Hemit; cbn; auto; discriminate. }
      destruct a as [|s|l]; [apply W|apply W|].
      induction l as [|x l IH]; [apply pres_ret|]. apply pres_bind; [apply W|intros _; exact IH].
    Qed.
    Lemma prim_feed_rate f : pres P (feed_rate c f).
    Proof.
      intros s H. unfold feed_rate. destruct (vF (last_val s)); [exact H|].
      revert s H. apply pres_bind; [apply Hline; [|reflexivity]|].
      - right; right; left; eauto.
      - intros _ s H. apply (Hst s _ (is_tool_up s)), H.
    Qed.
    Lemma prim_raw t : t <> ";" ++ newline -> pres P (emit (Raw t)).
    Proof. intros H. apply Hemit; [exact I|]. eauto. Qed.
    Lemma prim_header t cm : pres P (header c t cm).
    Proof.
      unfold header.
      repeat (apply pres_bind; [first
        [ apply prim_raw; discriminate | apply prim_comment
        | apply Hline; [exact I|reflexivity]
        | apply prim_feed_rate | idtac ] | intros _]).
      - generalize (header_comments c). intros l. induction l as [|x l IH]; [apply pres_ret|].
        apply pres_bind; [apply prim_comment|intros _; apply IH].
      - destruct cm; [apply prim_comment|apply pres_ret].
      - destruct (String.eqb _ _); apply Hline; first [exact I|reflexivity].
      - unfold blend_line. destruct (blend_mode c); [|apply pres_ret].
        destruct (String.eqb _ _).
        + destruct (blend_tolerance c); [destruct (blend_qtolerance c)|];
            (apply Hline; [|reflexivity]); try exact I; right; right; right; [right|left]; eauto.
        + destruct (String.eqb _ _); [apply Hline; [exact I|reflexivity]|apply pres_ret].
      - apply prim_raw; discriminate.
    Qed.
    Lemma prim_footer : pres P (footer c).
    Proof.
      apply pres_bind; [apply prim_raw; discriminate|intros _].
      apply pres_bind; [|intros _; apply pres_bind; [apply Hline; [exact I|reflexivity]|intros _; apply prim_raw; discriminate]].
      intros s H. destruct (axis_offset_reset s); [apply prim_gcode|]; exact H.
    Qed.
    Lemma prim_rapid x y z a cm : pres P (rapid_move c x y z a cm).
    Proof.
      apply pres_bind.
      - intros s H. destruct (match _ with Some _ => _ | None => _ end); [apply prim_tool_up|]; exact H.
      - intros _. apply pres_bind; [apply prim_gcode|intros _ s H; apply prim_plot, H].
    Qed.
    Lemma prim_feed x y z a f cm : pres P (feed c x y z a f cm).
    Proof.
      unfold feed. destruct (feed_default _ _ _ _ _ _); [|apply pres_ret].
      apply pres_bind; [apply prim_gcode|intros _ s H; apply prim_plot, H].
    Qed.
    Lemma prim_arc cw x y i j a z f cm : pres P (feed_arc c cw x y i j a z f cm).
    Proof.
      intros s H. unfold feed_arc.
      destruct (vX (last_val s)); [|exact H]. destruct (vY (last_val s)); [|exact H].
      destruct (negb _); [exact H|]. revert s H.
      apply pres_bind; [apply prim_gcode|intros _ s H; apply prim_plot, H].
    Qed.
    Lemma prim_normalize ax : pres P (normalize_axis_angle c ax).
    Proof.
      intros s H. unfold normalize_axis_angle.
      repeat (destruct (negb _); [exact H|]).
      destruct (vA (last_val s)) as [v|]; [|exact H].
      destruct (ltb _ _); [|exact H]. cbn. apply Hnorm, H.
    Qed.
    Lemma prim_exec o : pres P (exec c o).
    Proof.
      destruct o; cbn [exec].
      - apply prim_comment.
      - apply prim_header.
      - apply prim_footer.
      - apply prim_feed_rate.
      - apply prim_gcode.
      - apply prim_dwell.
      - apply prim_tool_up.
      - apply prim_tool_down.
      - apply prim_spindle_on.
      - apply prim_spindle_off.
      - apply prim_normalize.
      - apply prim_rapid.
      - apply prim_feed.
      - apply prim_arc.
      - apply prim_gcode.
    Qed.
    Lemma prim_run ops s : P s -> P (run c ops s).
    Proof.
      revert s; induction ops as [|o ops IH]; intros s H; cbn; auto. apply IH, prim_exec, H.
    Qed.
  End Prim.

  (** ** C10: reset flag and footer *)
  Definition rotary_shifted (prog : list item) : bool :=
    existsb (fun i => match i with Line _ (EqWord _ _) _ => true | _ => false end) prog.
  Lemma rotary_app p q : rotary_shifted (p ++ q) = rotary_shifted p || rotary_shifted q.
  Proof. apply existsb_app. Qed.

  Lemma reset_flag c ops : axis_offset_reset (run c ops init) = rotary_shifted (out (run c ops init)).
  Proof.
    apply (prim_run c (fun s => axis_offset_reset s = rotary_shifted (out s))); [..|reflexivity].
    - intros i Hi _ s H. cbn. rewrite rotary_app, <- H. destruct i; cbn; try contradiction; now rewrite orb_false_r.
    - intros b cm _ Hb s H. cbn. rewrite rotary_app, <- H. destruct b; cbn in *; try discriminate; now rewrite orb_false_r.
    - intros; assumption.
    - intros s x v H. cbn. rewrite rotary_app. cbn. now rewrite orb_true_r.
  Qed.

  Lemma footer_shape c s :
    snd (footer c s) = Ok tt /\
    exists n1 n2 k1 k2,
      out (fst (footer c s)) =
      (out s ++ [Raw newline] ++
       (if axis_offset_reset s then [Line n1 (Opaque "G92.1") k1] else []) ++
       [Line n2 (Opaque "M2") k2; Raw ("%" ++ newline)])%list.
  Proof.
    unfold footer, bind, emit, write_line, when, gcode_command. cbn -[newline].
    destruct (axis_offset_reset s); cbn -[newline]; split; try reflexivity.
    - eexists _, _, _, _. rewrite <- !app_assoc. cbn -[newline]. reflexivity.
    - exists None. eexists. exists None. eexists. rewrite <- !app_assoc. cbn -[newline]. reflexivity.
  Qed.

  (** ** C11: line numbers *)
  Definition line_nums (prog : list item) : list (option N.t) :=
    flat_map (fun i => match i with Line n _ _ => [n] | _ => [] end) prog.
  Definition nseq (k : nat) : list N.t := map N.of_nat (seq 0 k).

  Lemma nseq_S k : nseq (S k) = (nseq k ++ [N.of_nat k])%list.
  Proof. unfold nseq. rewrite seq_S, map_app. reflexivity. Qed.

  Lemma line_nums_app p q : line_nums (p ++ q) = (line_nums p ++ line_nums q)%list.
  Proof. apply flat_map_app. Qed.

  Definition num_inv c s : Prop :=
    if show_line_numbers c
    then exists k, line_number s = N.of_nat k /\ line_nums (out s) = map Some (nseq k)
    else Forall (fun n => n = None) (line_nums (out s)).

  Lemma num_line c lv up rs l b cm pl ln :
    num_inv c (mkst lv up ln rs l pl) ->
    forall lv' up' rs' pl',
    num_inv c (mkst lv' up' (if show_line_numbers c then (ln + 1)%N else ln) rs'
      (l ++ [Line (if show_line_numbers c then Some ln else None) b cm]) pl').
  Proof.
    intros H lv' up' rs' pl'. unfold num_inv in *. cbn [out line_number] in *.
    destruct (show_line_numbers c).
    - destruct H as [k [-> H]]. exists (S k). split; [lia|].
      rewrite line_nums_app, H, nseq_S, map_app. reflexivity.
    - rewrite line_nums_app. apply Forall_app; split; auto. cbn. auto.
  Qed.

  Lemma numbering c ops : num_inv c (run c ops init).
  Proof.
    apply prim_run.
    - intros i Hi _ s H. unfold num_inv in *. unfold emit; cbn [out line_number fst].
      rewrite line_nums_app. destruct i; cbn; try contradiction; now rewrite app_nil_r.
    - intros b cm _ _ s H. apply (num_line c (last_val s) (is_tool_up s) (axis_offset_reset s) _ b _ (plots s)).
      destruct s; exact H.
    - intros s lv up pl H. exact H.
    - intros s x v H. apply (num_line c (last_val s) (is_tool_up s) (axis_offset_reset s) _ _ _ (plots s)).
      destruct s; exact H.
    - unfold num_inv. cbn. destruct (show_line_numbers c); [exists 0%nat; auto|constructor].
  Qed.

  (** ** C12 (first half): no comment when comments are off *)
  Definition no_comment (i : item) : Prop :=
    match i with CLine _ _ => False | Line _ _ (Some _) => False | Raw t => t <> ";" ++ newline | _ => True end.
  Lemma comments_off c ops : show_comments c = false -> Forall no_comment (out (run c ops init)).
  Proof.
    intros SC. apply (prim_run c (fun s => Forall no_comment (out s))); [..|constructor].
    - intros i Hi H s Hs. apply Forall_app; split; auto. constructor; auto.
      destruct (H SC) as [t [-> Ht]]. exact Ht.
    - intros b cm _ _ s Hs. cbn. apply Forall_app; split; auto. constructor; auto.
      unfold shown. rewrite SC. exact I.
    - intros; assumption.
    - intros s x v Hs. cbn. apply Forall_app; split; auto. constructor; auto.
      unfold shown. rewrite SC. exact I.
  Qed.

  (** ** C13: precision of every word *)
  Definition item_words (i : item) : list word :=
    match i with Line _ (Block _ ws) _ => ws | Line _ (EqWord _ w) _ => [w] | _ => [] end.
  Lemma words_prec c pos : Forall (fun w => wprec w = ndigits_out c) (words_of c pos).
  Proof.
    unfold words_of. apply Forall_forall. intros w H. apply in_flat_map in H as [k [_ H]].
    destruct (pget k pos); [|destruct H]. destruct H as [<-|[]]. reflexivity.
  Qed.
  Lemma precision_all c ops :
    Forall (fun i => forall w, In w (item_words i) ->
              wprec w = ndigits_out c \/ (wname w = "P" /\ wprec w = 4%nat))
           (out (run c ops init)).
  Proof.
    apply (prim_run c (fun s => Forall _ (out s))); [..|constructor].
    - intros i Hi _ s Hs. apply Forall_app; split; auto. constructor; auto.
      destruct i; cbn in *; tauto.
    - intros b cm Hb _ s Hs. cbn. apply Forall_app; split; auto. constructor; auto.
      cbn. destruct b as [cmd ws|? ? ?|? w0|?]; cbn; try tauto.
      + destruct Hb as [[pos ->]|[[-> [x ->]]|[[-> [x ->]]|[[-> [x ->]]|[-> [x [y ->]]]]]]].
        * intros w Hw. left. revert w Hw. apply Forall_forall, words_prec.
        * intros w [<-|[]]; cbn; auto.
        * intros w [<-|[]]; cbn; auto.
        * intros w [<-|[]]; cbn; auto.
        * intros w [<-|[<-|[]]]; cbn; auto.
      + destruct Hb as [_ [x ->]]. intros w [<-|[]]; cbn; auto.
    - intros; assumption.
    - intros s x v Hs. cbn. apply Forall_app; split; auto. constructor; auto.
      intros w [<-|[]]; cbn; auto.
  Qed.

  (** ** Straight-line characterisations *)
  Lemma upd_all_eq {A} (m : pmap A) : mkp (vX m) (vY m) (vZ m) (vI m) (vJ m) (vR m) (vA m) (vF m) = m.
  Proof. destruct m; reflexivity. Qed.

  (** tool_up, first step: the forced Z word. *)
  Lemma tool_up_command c (rapid : bool) cm s :
    gcode_command c (if rapid then "G00" else "G01") (mkargs (pset PZ (zsafe c) pempty) None "Z" cm) s =
    (mkst (pset PZ (zsafe c) (last_val s))
          (if is_tool_up s && ltb (scaled c PZ (zsafe c)) (zsafe c) then false else is_tool_up s)
          (if show_line_numbers c then (line_number s + 1)%N else line_number s)
          (axis_offset_reset s)
          (out s ++ [Line (if show_line_numbers c then Some (line_number s) else None)
                          (Block (if rapid then "G00" else "G01")
                             [mkword (out_name c PZ) (ndigits_out c)
                                 (fmt (ndigits_out c) (to_machine c PZ (zsafe c)))])
                          (shown c cm)]) (plots s), Ok tt).
  Proof.
    rewrite gcode_motion by (destruct rapid; cbn; auto).
    destruct s as [lv up ln rs o pl]. destruct rapid; cbn; reflexivity.
  Qed.

  (** C03 *)
  Lemma tool_up_spec c (rapid : bool) w cm s :
    alt_tool_up c = None ->
    exists s', tool_up c rapid w cm s = (s', Ok tt) /\
      last_val s' = pset PZ (zsafe c) (last_val s) /\ is_tool_up s' = true /\
      plots s' = (plots s ++ [PlotUp])%list /\ axis_offset_reset s' = axis_offset_reset s /\
      exists num cm' rest,
        out s' = (out s ++
          Line num (Block (if rapid then "G00" else "G01")
                 [mkword (out_name c PZ) (ndigits_out c) (fmt (ndigits_out c) (to_machine c PZ (zsafe c)))]) cm'
          :: rest)%list /\ Forall passive_item rest /\
          (spindle_auto c = true -> exists n k, In (Line n (Opaque "M5") k) rest).
  Proof.
    intros Ha. unfold tool_up. rewrite Ha.
    unfold bind at 1. rewrite tool_up_command.
    unfold spindle_off, dwell, when, bind, write_line, set_up, plot, ret.
    destruct (spindle_auto c) eqn:SA; cbn -[dflt app];
    repeat match goal with |- context [if ?b then _ else _] =>
      match b with
      | ltb (of_Z 0) _ => destruct b eqn:?
      end end; cbn -[dflt app];
    (eexists; split; [reflexivity|]; cbn -[dflt app];
     repeat (split; [reflexivity|]);
     eexists _, _, _; split; [rewrite <- ?app_assoc; cbn [app]; reflexivity|];
     split; [repeat constructor|intros E; try discriminate E; eexists _, _; left; reflexivity]).
  Qed.

  (** ** C04: repetition *)
  Definition no_self_change c : Prop :=
    (forall v : N, ltb (tolerance c) (abs (sub v v)) = false) /\
    (forall v : N, ltb (angle_tolerance c) (abs (sub v v)) = false).

  (** After a pass, a second pass over the same arguments changes nothing. *)
  Definition settled c args (lv : pmap N) (k : param) : Prop :=
    match pget k (a_vals args) with
    | None => True
    | Some v0 =>
        let v := if is_angular k && wrap_angles c then fmod v0 two_pi else v0 in
        match pget k lv with
        | None => False
        | Some l => ltb (if is_angular k then angle_tolerance c else tolerance c) (abs (sub v l)) = false
        end
    end.

  Lemma scan_settled_step c cmd args lv up pos k :
    settled c args lv k -> a_force args = "" -> mem_str cmd nonmodal_group = false ->
    scan_param c cmd args (lv, up, pos) k = (lv, up, pos).
  Proof.
    unfold settled, scan_param. intros H -> NM.
    destruct (pget k (a_vals args)) as [v0|]; auto.
    destruct (pget k lv) as [l|]; [|contradiction].
    rewrite H, NM. reflexivity.
  Qed.
  Lemma scan_settled_other c cmd args acc k k' :
    k <> k' -> settled c args (fst (fst acc)) k -> settled c args (fst (fst (scan_param c cmd args acc k'))) k.
  Proof.
    destruct acc as [[lv up] pos]. unfold scan_param, settled.
    intros NE H. destruct (pget k' (a_vals args)); auto.
    destruct (_ || _ || _); cbn in *; auto. rewrite pget_pset_other by auto. exact H.
  Qed.
  Lemma scan_settles c cmd args acc k :
    no_self_change c -> settled c args (fst (fst (scan_param c cmd args acc k))) k.
  Proof.
    intros [T1 T2]. destruct acc as [[lv up] pos]. unfold scan_param, settled.
    destruct (pget k (a_vals args)) as [v0|] eqn:E; [|exact I].
    destruct (str_mem _ _ || _ || _) eqn:B; cbn; rewrite ?E.
    - rewrite pget_pset_same. destruct (is_angular k); auto.
    - apply orb_false_iff in B as [B _]. apply orb_false_iff in B as [_ B].
      destruct (pget k lv) as [l|]; [exact B|discriminate B].
  Qed.
  Lemma fold_settles c cmd args l acc :
    no_self_change c -> NoDup l ->
    Forall (settled c args (fst (fst (fold_left (scan_param c cmd args) l acc)))) l.
  Proof.
    intros NS. revert acc. induction l as [|k l IH]; intros acc ND; cbn; [constructor|].
    inversion ND as [|? ? Hn ND']; subst. constructor; [|apply IH; auto].
    pose proof (scan_settles c cmd args acc k NS) as H.
    revert H. generalize (scan_param c cmd args acc k). clear IH ND. intros acc'. revert acc'.
    induction l as [|k' l IH]; intros acc' H; cbn; auto.
    apply IH.
    - intros X; apply Hn; right; exact X.
    - inversion ND'; auto.
    - apply scan_settled_other; auto. intros ->. apply Hn. left; reflexivity.
  Qed.
  Lemma fold_settled_id c cmd args l lv up pos :
    Forall (settled c args lv) l -> a_force args = "" -> mem_str cmd nonmodal_group = false ->
    fold_left (scan_param c cmd args) l (lv, up, pos) = (lv, up, pos).
  Proof.
    intros H HF HN. induction l as [|k l IH]; [reflexivity|]. inversion H; subst.
    cbn [fold_left]. rewrite scan_settled_step; auto.
  Qed.

  Lemma scan_order_nodup : NoDup scan_order.
  Proof. repeat constructor; cbn; intuition congruence. Qed.

  Lemma gcode_motion_last c cmd args s :
    In cmd motion_group -> a_params args = None ->
    last_val (fst (gcode_command c cmd args s)) =
    fst (fst (fold_left (scan_param c cmd args) scan_order (last_val s, is_tool_up s, pempty))) /\
    snd (gcode_command c cmd args s) = Ok tt /\
    plots (fst (gcode_command c cmd args s)) = plots s /\
    axis_offset_reset (fst (gcode_command c cmd args s)) = axis_offset_reset s.
  Proof.
    intros Hc Hp. rewrite gcode_motion by auto.
    destruct (fold_left _ _ _) as [[lv up] pos].
    destruct (Nat.ltb 0 _); [destruct (_ || _)|]; cbn; auto.
  Qed.

  Lemma gcode_motion_twice c cmd args s :
    no_self_change c -> In cmd motion_group -> a_params args = None -> a_force args = "" ->
    gcode_command c cmd args (fst (gcode_command c cmd args s)) = (fst (gcode_command c cmd args s), Ok tt).
  Proof.
    intros NS Hc Hp Hf.
    destruct (gcode_motion_last c cmd args s Hc Hp) as [HL _].
    set (s' := fst (gcode_command c cmd args s)) in *.
    rewrite (gcode_motion c cmd args s') by auto.
    rewrite fold_settled_id; auto.
    - cbn. destruct s'; reflexivity.
    - rewrite HL. apply fold_settles; auto. apply scan_order_nodup.
    - destruct Hc as [<-|[<-|[<-|[<-|[]]]]]; reflexivity.
  Qed.

  (** Later states with the same tracked values also suppress the repeat. *)
  Lemma gcode_motion_settled c cmd args s s2 :
    no_self_change c -> In cmd motion_group -> a_params args = None -> a_force args = "" ->
    last_val s2 = last_val (fst (gcode_command c cmd args s)) ->
    gcode_command c cmd args s2 = (s2, Ok tt).
  Proof.
    intros NS Hc Hp Hf HE.
    destruct (gcode_motion_last c cmd args s Hc Hp) as [HL _].
    rewrite (gcode_motion c cmd args s2) by auto.
    rewrite fold_settled_id; auto.
    - cbn. destruct s2; reflexivity.
    - rewrite HE, HL. apply fold_settles; auto. apply scan_order_nodup.
    - destruct Hc as [<-|[<-|[<-|[<-|[]]]]]; reflexivity.
  Qed.

  Lemma feed_twice c x y z a f cm s :
    no_self_change c ->
    let s1 := fst (feed c x y z a f cm s) in
    let s2 := fst (feed c x y z a f cm s1) in
    snd (feed c x y z a f cm s1) = Ok tt /\ out s2 = out s1 /\ last_val s2 = last_val s1 /\
    line_number s2 = line_number s1 /\ is_tool_up s2 = is_tool_up s1.
  Proof.
    intros NS. cbv zeta. unfold feed. destruct (feed_default c x y z a f) as [fd|]; [|cbn; auto].
    set (args := mkargs (mkp x y z None None None a (Some fd)) None "" cm).
    pose proof (gcode_motion_last c "G01" args s) as HL.
    destruct HL as [_ [HO _]]; [cbn; auto|reflexivity|].
    unfold bind.
    destruct (gcode_command c "G01" args s) as [s1 r1] eqn:E1. cbn [snd] in HO. subst r1.
    match goal with |- context [gcode_command c "G01" args ?S] =>
      assert (gcode_command c "G01" args S = (S, Ok tt)) as ->
    end; [|cbn; auto].
    apply (gcode_motion_settled c "G01" args s); auto; [cbn; auto|].
    rewrite E1. reflexivity.
  Qed.
End Proofs2.
