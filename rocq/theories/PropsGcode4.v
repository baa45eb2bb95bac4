(** * PropsGcode4: commands passed to the generator directly (C149). *)
From Coq Require Import ZArith String Ascii List Bool Lia.
From Verif Require Import Num NumF64 Str Gcode GcodeSpec GcodeProofs PropsGcode.
Import ListNotations.
Local Open Scope string_scope.

(** ** Specification *)
(** A new line at the end of the program; the numbers of lines and comments appear only if asked for. *)
Definition adds {N : NumOps} (c : config N) (b : body) (cm : option string) (s s' : state N) : Prop :=
  out s' = (out s ++ [Line (if show_line_numbers c then Some (line_number s) else None) b
                           (if show_comments c then (match cm with Some "" => None | _ => cm end) else None)])%list /\
  line_number s' = (if show_line_numbers c then line_number s + 1 else line_number s)%N /\ plots s' = plots s.
(** The G codes that act once only *)
Definition acts_once (g : string) : Prop := In g ["G04"; "G10"; "G28"; "G30"; "G53"; "G92"].
Definition moves (g : string) : Prop := In g ["G00"; "G01"; "G02"; "G03"].

(** ** C149 *)
Section Direct.
  Context {N : NumOps}.
  Lemma write_line_adds (c : config N) b cm s : adds c b cm s (fst (write_line c b cm s)).
  Proof.
    unfold adds, write_line, shown. cbn [fst out line_number plots]. repeat split. destruct (show_comments c), cm as [[|]|]; reflexivity.
  Qed.
  (** pause writes M00, the conditional one M01, and changes nothing else. *)
  Theorem C149_pause (c : config N) conditional cm s :
    snd (pause c conditional cm s) = Ok tt /\ adds c (Opaque (if conditional then "M01" else "M00")) cm s (fst (pause c conditional cm s)) /\
    last_val (fst (pause c conditional cm s)) = last_val s /\ is_tool_up (fst (pause c conditional cm s)) = is_tool_up s.
  Proof.
    destruct s as [lv up ln ar o p]. destruct conditional; (split; [reflexivity|split; [|split; reflexivity]]);
      unfold adds, pause, gcode_command; cbn; unfold shown; repeat split; destruct (show_comments c), cm as [[|]|]; reflexivity.
  Qed.
  (** The comment of a wait, if none is given, states the very number of seconds of the command. *)
  Theorem C149_dwell_text (c : config N) ms s : ltb (of_Z 0) ms = true ->
    let w := mkword "P" 4 (fmt 4 (div ms (of_Z 1000))) in
    snd (dwell c ms None s) = Ok tt /\
    adds c (Block "G04" [w]) (Some ("Pause tool for " ++ dec_text (wprec w) (wval w) ++ " seconds")) s (fst (dwell c ms None s)).
  Proof.
    intros H w. unfold dwell, when. rewrite H. split; [reflexivity|]. apply write_line_adds.
  Qed.
  Lemma scan_all (c : config N) base args : mem_str base nonmodal_group = true -> forall l acc, NoDup l -> (forall k, In k l -> pget k (snd acc) = None) ->
    let acc' := fold_left (scan_param c base args) l acc in
    (forall k, pget k (snd acc') = if in_dec param_eq_dec k l then
       option_map (fun v => to_machine c k (if is_angular k && wrap_angles c then fmod v two_pi else v)) (pget k (a_vals args)) else pget k (snd acc)).
  Proof.
    intros B. induction l as [|k l IH]; intros acc ND Fr acc' k'; [reflexivity|]. subst acc'. cbn [fold_left].
    inversion ND as [|? ? NI ND']; subst. rewrite (IH (scan_param c base args acc k) ND').
    2: { intros q Q. unfold scan_param. destruct acc as [[lv up] pos]. destruct (pget k (a_vals args)); [|apply Fr; now right]. rewrite B, orb_true_r. cbn [snd].
         rewrite pget_pset_other by (intros ->; contradiction). apply (Fr q). now right. }
    destruct (in_dec param_eq_dec k' l) as [I|I].
    - destruct (in_dec param_eq_dec k' (k :: l)) as [_|J]; [reflexivity|exfalso; apply J; now right].
    - destruct acc as [[lv up] pos]. unfold scan_param. destruct (param_eq_dec k' k) as [->|NE].
      + destruct (in_dec param_eq_dec k (k :: l)) as [_|J]; [|exfalso; apply J; now left].
        destruct (pget k (a_vals args)); [|cbn [option_map]; apply (Fr k); now left]. rewrite B, orb_true_r. cbn [snd option_map]. apply pget_pset_same.
      + destruct (in_dec param_eq_dec k' (k :: l)) as [[->|J]|J]; [congruence|contradiction|].
        destruct (pget k (a_vals args)); [|reflexivity]. rewrite B, orb_true_r. cbn [snd]. now apply pget_pset_other.
  Qed.
  (** A G code that acts once is written with every value given, also those that the machine already has. *)
  Theorem C149_nonmodal (c : config N) cmd args s : cmd <> "" -> acts_once (before "." (canonical_cmd cmd)) ->
    (exists k v, k <> PF /\ pget k (a_vals args) = Some v) ->
    snd (gcode_command c cmd args s) = Ok tt /\
    adds c (Block (canonical_cmd cmd) (flat_map (fun k => match pget k (a_vals args) with
        | Some v => [mkword (out_name c k) (ndigits_out c) (fmt (ndigits_out c) (to_machine c k (if is_angular k && wrap_angles c then fmod v two_pi else v)))]
        | None => [] end) [PX; PY; PZ; PA; PI; PJ; PR; PF])) (a_comment args) s (fst (gcode_command c cmd args s)).
  Proof.
    intros Ne B (k & v & KF & KV).
    assert (MB : mem_str (before "." (canonical_cmd cmd)) nonmodal_group = true).
    { unfold acts_once in B. cbn in B. destruct B as [<- |[<- |[<- |[<- |[<- |[<- |[]]]]]]]; reflexivity. }
    assert (MG : mem_str (canonical_cmd cmd) motion_group = false).
    { destruct (mem_str (canonical_cmd cmd) motion_group) eqn:M; [|reflexivity]. exfalso. unfold mem_str, motion_group in M. cbn [existsb] in M.
      rewrite !orb_true_iff, !String.eqb_eq in M. destruct M as [M|[M|[M|[M|M]]]]; try discriminate; rewrite M in MB; discriminate. }
    unfold gcode_command. rewrite MG. destruct cmd as [|ch cmd]; [congruence|]. cbn [nonempty negb andb].
    pose proof (scan_all c (before "." (canonical_cmd (String ch cmd))) args MB scan_order (last_val s, is_tool_up s, pempty)
      ltac:(repeat constructor; cbn; intuition discriminate) ltac:(intros; apply pget_pempty)) as SA. cbv zeta in SA.
    destruct (fold_left _ scan_order _) as [[lv up] pos]. cbn [snd] in SA.
    assert (PG : forall q, pget q pos = option_map (fun v => to_machine c q (if is_angular q && wrap_angles c then fmod v two_pi else v)) (pget q (a_vals args))).
    { intros q. rewrite SA. destruct (in_dec param_eq_dec q scan_order) as [_|NI]; [reflexivity|]. exfalso. apply NI. destruct q; cbn; auto 10. }
    assert (L : Nat.ltb 0 (plen pos) = true /\ (Nat.ltb 1 (plen pos) || (match pget PF pos with None => true | _ => false end)) = true).
    { pose proof (PG k) as GK. rewrite KV in GK. cbn [option_map] in GK. clear - KF GK. unfold plen, scan_order. destruct pos as [x y z i j r a f]. cbn [filter pget vX vY vZ vI vJ vR vA vF] in *.
      destruct k; cbn in GK; subst; try congruence; destruct f; split; repeat (match goal with |- context[match ?o with Some _ => _ | None => _ end] => is_var o; destruct o end); reflexivity. }
    destruct L as [-> ->]. split; [reflexivity|].
    replace (words_of c pos) with (flat_map (fun k => match pget k (a_vals args) with
        | Some v => [mkword (out_name c k) (ndigits_out c) (fmt (ndigits_out c) (to_machine c k (if is_angular k && wrap_angles c then fmod v two_pi else v)))]
        | None => [] end) [PX; PY; PZ; PA; PI; PJ; PR; PF]); [|].
    - match goal with |- adds _ _ _ _ (fst (write_line _ _ _ ?s0)) => exact (write_line_adds c _ (a_comment args) s0) end.
    - unfold words_of. change out_order with [PX; PY; PZ; PA; PI; PJ; PR; PF]. apply flat_map_ext. intros q. rewrite PG. destruct (pget q (a_vals args)); reflexivity.
  Qed.
  (** Any other command without values is written as it is, in its two digit form, with its parameters; only the motion codes write nothing and
      refuse parameters. *)
  Theorem C149_plain (c : config N) cmd params cm s : cmd <> "" -> ~ moves (before "." (canonical_cmd cmd)) ->
    snd (gcode_command c cmd (mkargs pempty (Some params) "" cm) s) = Ok tt /\
    adds c (Opaque (if String.eqb params "" then canonical_cmd cmd else canonical_cmd cmd ++ " " ++ params)) cm s
         (fst (gcode_command c cmd (mkargs pempty (Some params) "" cm) s)).
  Proof.
    intros Ne B. assert (MB : mem_str (before "." (canonical_cmd cmd)) motion_group = false).
    { destruct (mem_str _ _) eqn:M; [|reflexivity]. exfalso. apply B. unfold mem_str, motion_group in M. cbn [existsb] in M.
      rewrite !orb_true_iff, !String.eqb_eq in M. unfold moves. cbn. destruct M as [M|[M|[M|[M|M]]]]; try discriminate; rewrite M; auto. }
    assert (MG : mem_str (canonical_cmd cmd) motion_group = false).
    { destruct (mem_str (canonical_cmd cmd) motion_group) eqn:M; [|reflexivity]. exfalso. unfold mem_str, motion_group in M. cbn [existsb] in M.
      rewrite !orb_true_iff, !String.eqb_eq in M. destruct M as [M|[M|[M|[M|M]]]]; try discriminate; rewrite M in MB; discriminate. }
    unfold gcode_command. rewrite MG, MB. destruct cmd as [|ch cmd]; [congruence|]. cbn [nonempty negb andb fold_left scan_order].
    unfold scan_param. cbn [a_vals a_params a_comment pget pempty vX vY vZ vI vJ vR vA vF]. change (Nat.ltb 0 (plen pempty)) with false. cbn iota. split; [reflexivity|].
    destruct params as [|p0 ps]; cbn [nonempty String.eqb]; match goal with |- adds _ _ _ _ (fst (write_line _ _ _ ?s0)) => exact (write_line_adds c _ cm s0) end.
  Qed.
End Direct.

(** Example: on a machine at X0 a G92 with X0 is written. *)
Example C149_example : 
  let args := mkargs (mkp (Some (of_Z (n:=F64Ops) 0)) None None None None None None None) None "" None in
  let s := fst (gcode_command demo_cfg "G0" args init) in
  out (fst (gcode_command demo_cfg "G0" args s)) = out s /\ List.length (out (fst (gcode_command demo_cfg "G92" args s))) = S (List.length (out s)).
Proof. vm_compute. split; reflexivity. Qed.
