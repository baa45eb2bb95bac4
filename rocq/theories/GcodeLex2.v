(** * GcodeLex2: whole histories read back; counterexamples for G92 'A=' and for
      comments that contain a closing parenthesis or a newline. *)
From Coq Require Import String Ascii ZArith NArith List Bool Lia.
From Verif Require Import Num NumF64 Str Gcode GcodeSpec GcodeProofs GcodeProofs2 GcodeProofs5 GcodeLexSpec GcodeLex.
Import ListNotations.
Local Open Scope string_scope.

Definition clean_opt (o : option string) : bool := match o with Some s => clean s | None => true end.
Definition clean_arg (a : comment_arg) : bool :=
  match a with CNone => true | CStr s => clean s | CList l => forallb clean_opt l end.
(** Every comment string passed to a call. *)
Definition clean_op {N : NumOps} (o : @op N) : bool :=
  match o with
  | OComment a _ => clean_arg a
  | OHeader d cm => clean d && match cm with Some a => clean_arg a | None => true end
  | OPause _ cm | ODwell _ cm | OToolUp _ _ cm | OToolDown _ _ _ cm | OSpindleOn _ _ _ cm
  | OSpindleOff _ cm | ORapid _ _ _ _ cm | OFeed _ _ _ _ _ cm | OArc _ _ _ _ _ _ _ _ cm => clean_opt cm
  | OCommand _ args => clean_opt (a_comment args)
  | _ => true
  end.
(** One-letter axis names, at least one decimal, clean header comments. *)
Definition letter_names {N : NumOps} (c : config N) : Prop :=
  forall k, exists a, out_name c k = String a "" /\ is_letter a = true.

Lemma clean_app a b : clean (a ++ b) = clean a && clean b.
Proof. induction a as [|x a IH]; cbn; [reflexivity|]. now rewrite IH, andb_assoc. Qed.
Lemma clean_digit d : (d < 10)%N -> negb (Ascii.eqb (digit_char d) ")") && negb (Ascii.eqb (digit_char d) nl) = true.
Proof.
  intros H. destruct (digit_char_spec d H) as [H1 _].
  destruct (Ascii.eqb_spec (digit_char d) ")") as [E|]; [rewrite E in H1; discriminate|].
  destruct (Ascii.eqb_spec (digit_char d) nl) as [E|]; [rewrite E in H1; discriminate|]. reflexivity.
Qed.
Lemma clean_fixed n : forall x acc, clean acc = true -> clean (fixed n x acc) = true.
Proof.
  induction n as [|n IH]; intros x acc H; [exact H|]. cbn [fixed]. apply IH. cbn [clean].
  rewrite clean_digit by (apply N.mod_upper_bound; lia). exact H.
Qed.
Lemma clean_dec n d : clean (dec_text n d) = true.
Proof.
  destruct d as [neg mag|neg|]; [|destruct neg; reflexivity|reflexivity]. unfold dec_text, N_text.
  rewrite !clean_app. rewrite !clean_fixed by reflexivity. now destruct neg.
Qed.

Section ReadBack.
  Context {N : NumOps}.
  Variable c : config N.
  Hypothesis LN : letter_names c.
  Hypothesis ND : (0 < ndigits_out c)%nat.
  Hypothesis HC : forallb clean_arg (header_comments c) = true.
  Hypothesis AU : alt_tool_up c = None.
  Hypothesis AD : alt_tool_down c = None.

  Definition rd (s : state N) : Prop := Forall item_readable (out s).
  Lemma rd_emit i : item_readable i -> pres rd (emit i).
  Proof. intros H s Hs. apply Forall_app; split; auto. Qed.
  Lemma rd_line b cm : body_readable b -> clean_opt cm = true -> pres rd (write_line c b cm).
  Proof.
    intros H Hc s Hs. apply Forall_app; split; auto. constructor; auto. split; auto.
    unfold shown. destruct (show_comments c); [|exact I]. destruct cm as [t|]; [|exact I].
    destruct (nonempty t); [exact Hc|exact I].
  Qed.
  Lemma rd_same {A} (m : @M N A) : (forall s, out (fst (m s)) = out s) -> pres rd m.
  Proof. intros H s Hs. unfold rd. rewrite H. exact Hs. Qed.
  Lemma rd_comment a semi : clean_arg a = true -> pres rd (comment c a semi).
  Proof.
    intros H.
    assert (W : forall o, clean_opt o = true -> pres rd (write_comment semi o)).
    { intros [t|] Ht; unfold write_comment; [destruct (nonempty t)|]; apply rd_emit; cbn; auto. }
    apply pres_when. destruct a as [|t|l]; try (apply W; exact H).
    cbn [clean_arg] in H. induction l as [|x l IH]; [apply pres_ret|].
    cbn [forallb] in H. apply andb_true_iff in H as [H1 H2].
    apply pres_bind; [apply W, H1|intros _; apply IH, H2].
  Qed.
  Lemma rd_dwell ms cm : clean_opt cm = true -> pres rd (dwell c ms cm).
  Proof.
    intros H. apply pres_when, rd_line.
    - split; [discriminate|]. split; [left; discriminate|]. constructor; [|constructor].
      cbn. split; [lia|]. exists "P"%char. auto.
    - destruct cm; [exact H|]. cbn [clean_opt]. unfold pause_text. rewrite !clean_app, clean_dec. reflexivity.
  Qed.
  Lemma rd_words pos : Forall (fun w => (0 < wprec w)%nat /\ exists a, wname w = String a "" /\ is_letter a = true) (words_of c pos).
  Proof.
    apply Forall_forall. intros w Hw. unfold words_of in Hw. apply in_flat_map in Hw as [k [_ Hk]].
    destruct (pget k pos); [|destruct Hk]. destruct Hk as [<-|[]]. cbn. auto.
  Qed.
  Lemma rd_motion cmd args :
    In cmd motion_group -> a_params args = None -> clean_opt (a_comment args) = true ->
    pres rd (gcode_command c cmd args).
  Proof.
    intros Hc Hp Hk s Hs. rewrite gcode_motion by auto.
    destruct (fold_left _ _ _) as [[lv up] pos].
    destruct (Nat.ltb 0 _); [destruct (_ || _)|]; try exact Hs.
    apply rd_line; [|exact Hk|exact Hs]. split; [|split; [|apply rd_words]].
    - destruct Hc as [<-|[<-|[<-|[<-|[]]]]]; discriminate.
    - left. destruct Hc as [<-|[<-|[<-|[<-|[]]]]]; discriminate.
  Qed.
  Lemma rd_spindle_on a b d cm : clean_opt cm = true -> pres rd (spindle_on c a b d cm).
  Proof.
    intros H. apply pres_bind; [apply rd_line; auto|intros _; apply pres_when, rd_dwell; reflexivity].
    destruct (dflt (spindle_clockwise c) b); (split; [discriminate|split; [discriminate|exists "S"%char; auto]]).
  Qed.
  Lemma rd_spindle_off w cm : clean_opt cm = true -> pres rd (spindle_off c w cm).
  Proof.
    intros H. apply pres_bind; [apply rd_line; auto|intros _; apply pres_when, rd_dwell; reflexivity].
    split; discriminate.
  Qed.
  Lemma rd_tool_up r w cm : clean_opt cm = true -> pres rd (tool_up c r w cm).
  Proof.
    intros H. unfold tool_up. rewrite AU.
    apply pres_bind; [apply rd_motion; auto; destruct r; cbn; auto|intros _].
    apply pres_bind; [apply pres_when, rd_spindle_off; reflexivity|intros _].
    apply pres_bind; [apply pres_when, rd_dwell; reflexivity|intros _].
    apply pres_bind; [intros ? ?; assumption|intros _ ? ?; assumption].
  Qed.
  Lemma rd_feed_rate f : pres rd (feed_rate c f).
  Proof.
    intros s H. unfold feed_rate. destruct (vF (last_val s)); [exact H|].
    assert (X : rd (fst (write_line c (Block "" [mkword "F" (ndigits_out c) (fmt (ndigits_out c) f)]) None s))).
    { apply rd_line; auto. split; [discriminate|]. split; [right; discriminate|]. constructor; [|constructor].
      cbn. split; auto. exists "F"%char. auto. }
    exact X.
  Qed.
  Lemma rd_header d cm : clean d = true -> (match cm with Some a => clean_arg a | None => true end) = true ->
    pres rd (header c d cm).
  Proof.
    intros Hd Hcm. unfold header.
    repeat (apply pres_bind; [first
      [ apply rd_emit; cbn; tauto | apply rd_comment; reflexivity | apply rd_line; [split; discriminate|reflexivity]
      | apply rd_feed_rate | idtac ] | intros _]).
    - apply rd_comment. cbn [clean_arg]. rewrite clean_app, Hd. reflexivity.
    - revert HC. generalize (header_comments c). intros l. induction l as [|x l IH]; intros Hl; [apply pres_ret|].
      cbn [forallb] in Hl. apply andb_true_iff in Hl as [H1 H2].
      apply pres_bind; [apply rd_comment, H1|intros _; apply IH, H2].
    - destruct cm; [apply rd_comment, Hcm|apply pres_ret].
    - destruct (String.eqb _ _); apply rd_line; try (split; discriminate); reflexivity.
    - unfold blend_line. destruct (blend_mode c); [|apply pres_ret].
      destruct (String.eqb _ _).
      + destruct (blend_tolerance c); [destruct (blend_qtolerance c)|]; apply rd_line; try reflexivity.
        * split; [discriminate|]. split; [left; discriminate|].
          repeat constructor; auto; cbn; [exists "P"%char|exists "Q"%char]; auto.
        * split; [discriminate|]. split; [left; discriminate|].
          repeat constructor; auto; cbn; exists "P"%char; auto.
        * split; discriminate.
      + destruct (String.eqb _ _); [apply rd_line; [split; discriminate|reflexivity]|apply pres_ret].
    - apply rd_emit. cbn. tauto.
  Qed.

  Lemma rd_exec o : tracked_op o -> clean_op o = true -> pres rd (exec c o).
  Proof.
    intros To Hc. destruct o; cbn [exec clean_op] in *; try contradiction.
    - now apply rd_comment.
    - apply andb_true_iff in Hc as [H1 H2]. now apply rd_header.
    - apply pres_bind; [apply rd_emit; cbn; tauto|intros _].
      apply pres_bind; [|intros _; apply pres_bind; [apply rd_line; [split; discriminate|reflexivity]|intros _; apply rd_emit; cbn; tauto]].
      intros s H. destruct (axis_offset_reset s); [|exact H]. cbn [when]. unfold gcode_command, no_args. cbn -[rd shown].
      apply Forall_app. split; [exact H|]. constructor; [|constructor].
      split; [split; discriminate|]. unfold shown. destruct (show_comments c); exact I || reflexivity.
    - apply rd_feed_rate.
    - intros s H. unfold pause, gcode_command, no_args.
      destruct conditional; cbn -[rd shown]; apply Forall_app; (split; [exact H|]); (constructor; [|constructor]);
        (split; [split; discriminate|]); unfold shown; (destruct (show_comments c); [|exact I]);
        (destruct cm as [t|]; [destruct (nonempty t); [exact Hc|exact I]|exact I]).
    - now apply rd_dwell.
    - now apply rd_tool_up.
    - unfold tool_down. rewrite AD.
      apply pres_bind; [apply pres_when, rd_spindle_on; reflexivity|intros _].
      apply pres_bind; [apply rd_motion; auto; cbn; auto|intros _].
      apply pres_bind; [intros ? ?; assumption|intros _].
      apply pres_bind; [apply pres_when, rd_dwell; reflexivity|intros _ ? ?; assumption].
    - now apply rd_spindle_on.
    - now apply rd_spindle_off.
    - apply pres_bind.
      + intros s H. destruct (match _ with Some _ => _ | None => _ end); [apply rd_tool_up; auto|]; exact H.
      + intros _. apply pres_bind; [apply rd_motion; auto; cbn; auto|intros _ ? ?; assumption].
    - unfold Gcode.feed. destruct (feed_default _ _ _ _ _ _); [|apply pres_ret].
      apply pres_bind; [apply rd_motion; auto; cbn; auto|intros _ ? ?; assumption].
    - intros s H. unfold feed_arc. destruct (vX (last_val s)); [|exact H]. destruct (vY (last_val s)); [|exact H].
      destruct (negb _); [exact H|]. revert s H.
      apply pres_bind; [apply rd_motion; auto; destruct clockwise; cbn; auto|intros _ ? ?; assumption].
  Qed.

  Theorem read_back ops :
    Forall tracked_op ops -> forallb clean_op ops = true ->
    Forall item_finite (out (run c ops init)) ->
    exists L, all_some (map block_tokens (exe (out (run c ops init)))) = Some L /\
      read_program (render (out (run c ops init))) = Some L.
  Proof.
    intros F CL FI.
    assert (H : rd (run c ops init)).
    { assert (H0 : rd init) by constructor. revert H0. clear FI. generalize (@init N).
      induction F as [|o ops Ho F IH]; intros s Hs; [exact Hs|].
      cbn [forallb] in CL. apply andb_true_iff in CL as [C1 C2].
      apply (IH C2 (fst (exec c o s))), rd_exec; auto. }
    destruct (read_items _ H FI []) as [L [A B]]. exists L. split; auto.
    unfold read_program. rewrite B. reflexivity.
  Qed.
End ReadBack.

(** ** C21 refuted for normalize_axis_angle: its line is not RS274. *)
Lemma eq_line_unreadable num cmd w cm D :
  lex_str (item_text (Line num (EqWord cmd (mkword "A" (wprec w) (wval w))) cm)) (mklex D [] Gap) = None \/ cmd <> "G92".
Proof.
  destruct (String.eqb_spec cmd "G92") as [->|NE]; [left|right; auto].
  cbn [item_text body_text wname].
  assert (H0 : exists C, lex_str (match num with Some n => "N" ++ N_text n ++ " " | None => "" end) (mklex D [] Gap) = Some (mklex D C Gap)).
  { destruct num as [n|]; [|eexists; reflexivity]. eexists. cbn [append lex_str].
    rewrite lex_letter by reflexivity. rewrite (lex_app_some _ _ _ _ (lex_N_start n D [] "N")).
    cbn [lex_str]. unfold lex_char. cbn [lmode_].
    change (is_digit " ") with false. cbn [Ascii.eqb Bool.eqb]. unfold close_num. cbn [lmode_ ldone lcur].
    destruct (Nat.eqb_spec (ndigits n) 0); [pose proof (ndigits_gt n); lia|]. reflexivity. }
  destruct H0 as [C H0]. rewrite (lex_app_some _ _ _ _ H0). reflexivity.
Qed.

(** ** C22 refuted on the text: a comment that ends itself. *)
Definition f10 (z : Z) : f64 := f64_of_Z z.
Definition cfgL : config F64Ops := default_config (N := F64Ops) (f10 10) (f10 1) None None.
Definition benign : list (@op F64Ops) := [@OFeed F64Ops (Some (f10 1)) None None None None (Some "ok")].
Definition hostile : list (@op F64Ops) := [@OFeed F64Ops (Some (f10 1)) None None None None (Some "x) Z-5 (")].
Definition hostile_nl : list (@op F64Ops) :=
  [@OComment F64Ops (CStr ("x" ++ newline ++ "G00 Z-5")) true].
Lemma injection_paren :
  strip_ops hostile = strip_ops benign /\
  read_program (render (out (run cfgL benign init))) =
    Some [[("G"%char, mkl false 1 0); ("X"%char, mkl false 1000000 6); ("F"%char, mkl false 10000000 6)]] /\
  read_program (render (out (run cfgL hostile init))) =
    Some [[("G"%char, mkl false 1 0); ("X"%char, mkl false 1000000 6); ("F"%char, mkl false 10000000 6); ("Z"%char, mkl true 5 0)]].
Proof. repeat split; vm_compute; reflexivity. Qed.
Lemma injection_newline :
  strip_ops hostile_nl = [] /\
  read_program (render (out (run cfgL hostile_nl init))) = Some [[("G"%char, mkl false 0 0); ("Z"%char, mkl true 5 0)]].
Proof. split; [reflexivity|vm_compute; reflexivity]. Qed.
