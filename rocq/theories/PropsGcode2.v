(** * PropsGcode2: C98-C100, reading and setting the generator's attributes, plunging, program header. *)
From Coq Require Import String Ascii ZArith NArith List Bool Lia.
From Verif Require Import Num Str Gcode GcodeSpec GcodeProofs.
Import ListNotations.
Local Open Scope string_scope.

(** ** C98: settings.
    Specification: [named axis k]: the keyword [axis] (any case) names parameter [k]. *)
Definition named (axis : string) (k : param) : Prop := upper axis = letter k.
(** The value given last to axis [k] in a list of keyword arguments, [old] if none is given. *)
Inductive given {A} (k : param) (old : option A) : list (string * A) -> option A -> Prop :=
| gv_nil : given k old [] old
| gv_last l a v : named a k -> given k old (l ++ [(a, v)]) (Some v)
| gv_other l a v w : ~ named a k -> given k old l w -> given k old (l ++ [(a, v)]) w.
(** [c] with other axis offsets / scales / names / units. *)
Definition with_offset {N} (c : config N) (m : pmap N) : config N :=
  mkcfg (xyfeed c) (zfeed c) (afeed c) (zsafe c) (unit_scale c) (tolerance c) (angle_tolerance c) (tool_wait_down c) (tool_wait_up c)
    (alt_tool_up c) (alt_tool_down c) (spindle_wait_on c) (spindle_wait_off c) (spindle_clockwise c) (spindle_speed c) (spindle_auto c)
    (wrap_angles c) (show_comments c) (show_line_numbers c) (header_comments c) (blend_mode c) (blend_tolerance c) (blend_qtolerance c)
    (gc_unit c) (ndigits_out c) (axis_scale c) m (axis_map c).
Definition with_scale {N} (c : config N) (m : pmap N) : config N :=
  mkcfg (xyfeed c) (zfeed c) (afeed c) (zsafe c) (unit_scale c) (tolerance c) (angle_tolerance c) (tool_wait_down c) (tool_wait_up c)
    (alt_tool_up c) (alt_tool_down c) (spindle_wait_on c) (spindle_wait_off c) (spindle_clockwise c) (spindle_speed c) (spindle_auto c)
    (wrap_angles c) (show_comments c) (show_line_numbers c) (header_comments c) (blend_mode c) (blend_tolerance c) (blend_qtolerance c)
    (gc_unit c) (ndigits_out c) m (axis_offset c) (axis_map c).
Definition with_names {N} (c : config N) (m : list (string * string)) : config N :=
  mkcfg (xyfeed c) (zfeed c) (afeed c) (zsafe c) (unit_scale c) (tolerance c) (angle_tolerance c) (tool_wait_down c) (tool_wait_up c)
    (alt_tool_up c) (alt_tool_down c) (spindle_wait_on c) (spindle_wait_off c) (spindle_clockwise c) (spindle_speed c) (spindle_auto c)
    (wrap_angles c) (show_comments c) (show_line_numbers c) (header_comments c) (blend_mode c) (blend_tolerance c) (blend_qtolerance c)
    (gc_unit c) (ndigits_out c) (axis_scale c) (axis_offset c) m.

Lemma param_of_letter k : param_of (letter k) = Some k.
Proof. destruct k; reflexivity. Qed.
Lemma param_of_some s k : param_of s = Some k <-> s = letter k.
Proof.
  split; [|intros ->; apply param_of_letter].
  destruct s as [|[b0 b1 b2 b3 b4 b5 b6 b7] [|? ?]]; cbn; [intros H; discriminate H| |];
    destruct b0, b1, b2, b3, b4, b5, b6, b7; cbn; intros H; first [discriminate H|injection H as <-; reflexivity].
Qed.
Lemma pget_pset {A} k j (v : A) m : pget k (pset j v m) = if param_eqb j k then Some v else pget k m.
Proof. destruct m, j, k; reflexivity. Qed.
Lemma param_eqb_spec j k : reflect (j = k) (param_eqb j k).
Proof. destruct j, k; constructor; congruence. Qed.
Lemma put_axes_given {N : NumOps} (kv : list (string * N)) m k : given k (pget k m) kv (pget k (put_axes kv m)).
Proof.
  unfold put_axes. induction kv as [|[a v] kv IH] using rev_ind; [constructor|]. rewrite fold_left_app. cbn [fold_left].
  destruct (param_of (upper a)) as [j|] eqn:P.
  - apply param_of_some in P. rewrite pget_pset. destruct (param_eqb_spec j k) as [->|Ne].
    + apply gv_last. exact P.
    + apply gv_other; [|exact IH]. unfold named. rewrite P. intros Q. apply Ne. destruct j, k; try reflexivity; discriminate.
  - apply gv_other; [|exact IH]. unfold named. intros Q. rewrite Q, param_of_letter in P. discriminate.
Qed.
Section S.
  Context {N : NumOps}.
  Implicit Types (c : config N) (s : state N).
  (** position() answers the tracked value of the axis named, in either case. *)
  Theorem C98_position s axis k : named axis k -> position axis s = Ok (pget k (last_val s)).
  Proof. unfold named, position. intros ->. rewrite param_of_letter. destruct k; reflexivity. Qed.
  Example C98_position_example s : position "x" s = Ok (vX (last_val s)) /\ position "A" s = Ok (vA (last_val s)) /\ position "f" s = Ok (vF (last_val s)).
  Proof. repeat split. Qed.
  (** Axis letters that this generator never moves are reported as unknown; anything else is an error. *)
  Theorem C98_position_others s axis : (forall k, ~ named axis k) ->
    position axis s = Ok None \/ position axis s = Raise GCodeException.
  Proof.
    intros H. unfold position. assert (P : param_of (upper axis) = None).
    { destruct (param_of (upper axis)) as [k|] eqn:P; [|reflexivity]. apply param_of_some in P. exfalso. exact (H k P). }
    rewrite P. destruct (upper axis) as [|ch [|? ?]]; auto. destruct (str_mem ch ordered_params); auto.
  Qed.
  (** set_axis_offset / set_axis_scale set exactly the axes named and nothing else. *)
  Theorem C98_axis_offset c kv : exists c', configure (SAxisOffset kv) c = Ok c' /\
    (forall k, given k (pget k (axis_offset c)) kv (pget k (axis_offset c'))) /\ with_offset c' (axis_offset c) = c.
  Proof. destruct c. eexists. split; [reflexivity|]. split; [intros k; apply put_axes_given|reflexivity]. Qed.
  Theorem C98_axis_scale c kv : exists c', configure (SAxisScale kv) c = Ok c' /\
    (forall k, given k (pget k (axis_scale c)) kv (pget k (axis_scale c'))) /\ with_scale c' (axis_scale c) = c.
  Proof. destruct c. eexists. split; [reflexivity|]. split; [intros k; apply put_axes_given|reflexivity]. Qed.
  (** A name for the same axis can be given at most one value: the specification determines the result. *)
  Theorem C98_given_unique {A} k (old : option A) l v w : given k old l v -> given k old l w -> v = w.
  Proof.
    intros H. revert w. induction H as [|l a v Hn|l a v w Hn H IH]; intros w' H'; inversion H' as [Q|l' a' v' Hn' Q|l' a' v' w0 Hn' H0 Q]; subst; auto;
      try (destruct l; discriminate); try (destruct l'; discriminate); apply app_inj_tail in Q as [-> [= -> ->]]; try contradiction; auto.
  Qed.
  (** map_axis: from now on the words of the axis are written with the new letter; other words and settings
      are not affected. *)
  Theorem C98_map_axis c canonical output : exists c', configure (SMapAxis canonical output) c = Ok c' /\
    (forall k, out_name c' k = if String.eqb (upper canonical) (letter k) then upper output else out_name c k) /\ with_names c' (axis_map c) = c.
  Proof.
    destruct c. eexists. split; [reflexivity|]. split; [|reflexivity]. intros k. unfold out_name. cbn [Gcode.axis_map assoc].
    rewrite (String.eqb_sym (letter k)). destruct (String.eqb _ _); reflexivity.
  Qed.
  (** Words are named by that letter: in every line of a motion command the words are, in the order X Y Z A I J R F,
      named by the letters of their parameters. *)
  Theorem C98_words_named c cmd args s : In cmd ["G00"; "G01"; "G02"; "G03"] -> 
    forall num b k, In (Line num b k) (skipn (List.length (out s)) (out (fst (gcode_command c cmd args s)))) ->
    exists ks ws, b = Block cmd ws /\ map wname ws = map (out_name c) ks /\ (forall j, In j ks -> pget j (a_vals args) <> None) /\
      exists pat, ks = filter pat [PX; PY; PZ; PA; PI; PJ; PR; PF].
  Proof.
    intros Hc num b k. unfold gcode_command.
    assert (E : negb (nonempty cmd) = false /\ canonical_cmd cmd = cmd /\ mem_str (before "." cmd) motion_group = true).
    { destruct Hc as [<-|[<-|[<-|[<-|[]]]]]; auto. }
    destruct E as (E1 & E2 & E3). rewrite E1, E2. cbv zeta.
    assert (SK : forall (l : list item), skipn (List.length l) l = []) by (induction l; cbn; auto).
    destruct (mem_str cmd motion_group && _); [cbn [raise fst]; rewrite SK; intros []|].
    destruct (fold_left _ _ _) as [[lv up] pos] eqn:F.
    destruct (Nat.ltb 0 (plen pos)); [|rewrite E3; cbn [negb fst out]; rewrite SK; intros []].
    destruct (_ || _); [|cbn [fst out]; rewrite SK; intros []].
    unfold write_line. cbn [fst out]. rewrite skipn_app, SK, Nat.sub_diag. cbn [skipn app]. intros [H|[]]. injection H as _ <- _.
    set (pat := fun j => match pget j pos with Some _ => true | None => false end).
    exists (filter pat out_order), (words_of c pos). split; [reflexivity|]. split; [|split].
    - unfold words_of. generalize out_order as l. induction l as [|j l IH]; [reflexivity|]. cbn [flat_map filter]. unfold pat at 1.
      destruct (pget j pos); [cbn [app map wname]; now rewrite IH|exact IH].
    - intros j Hj. apply filter_In in Hj as [_ Hj]. unfold pat in Hj.
      assert (G : forall l lv up (p : pmap N), (forall i, pget i p <> None -> pget i (a_vals args) <> None) ->
        forall i, pget i (snd (fold_left (scan_param c (before "." cmd) args) l (lv, up, p))) <> None -> pget i (a_vals args) <> None).
      { induction l as [|i0 l IHl]; intros lv0 up0 p Hp i; [exact (Hp i)|]. cbn [fold_left]. unfold scan_param at 2.
        destruct (pget i0 (a_vals args)) as [v0|] eqn:V0; [|apply IHl; exact Hp].
        destruct (_ || _ || _); [|apply IHl; exact Hp]. apply IHl. intros i1. rewrite pget_pset.
        destruct (param_eqb_spec i0 i1) as [->|]; [congruence|apply Hp]. }
      apply (G scan_order (last_val s) (is_tool_up s) pempty); [intros i; destruct i; cbn; congruence|].
      rewrite F. cbn [snd]. destruct (pget j pos); congruence.
    - exists pat. reflexivity.
  Qed.
  (** set_units, set_tolerance, set_spindle_defaults, set_path_blending, add_header_comment. *)
  Theorem C98_units c u k : u = "in" \/ u = "mm" -> exists c', configure (SSetUnits u k) c = Ok c' /\ gc_unit c' = u /\ unit_scale c' = k /\
    axis_scale c' = axis_scale c /\ axis_offset c' = axis_offset c /\ tolerance c' = tolerance c /\ ndigits_out c' = ndigits_out c.
  Proof. destruct c. intros [-> | ->]; eexists; cbn; auto 10. Qed.
  Theorem C98_tolerance c t a : exists c', configure (STolerance t a) c = Ok c' /\ tolerance c' = t /\
    angle_tolerance c' = match a with Some x => x | None => t end.
  Proof. destruct c, a; eexists; cbn; auto. Qed.
  Theorem C98_spindle c sp cw won woff auto : exists c', configure (SSpindle sp cw won woff auto) c = Ok c' /\ spindle_speed c' = sp /\
    spindle_clockwise c' = cw /\ spindle_wait_on c' = won /\ spindle_wait_off c' = woff /\ spindle_auto c' = auto.
  Proof. destruct c; eexists; cbn; auto 10. Qed.
  Theorem C98_blending c mode t q : exists c', configure (SBlend mode t q) c = Ok c' /\
    ((upper mode = "G61" \/ mode = "exact") -> blend_mode c' = Some "exact" /\ blend_tolerance c' = t /\ blend_qtolerance c' = q) /\
    ((upper mode = "G64" \/ mode = "blend") -> blend_mode c' = Some "blend" /\ blend_tolerance c' = t /\ blend_qtolerance c' = q) /\
    (upper mode <> "G61" -> mode <> "exact" -> upper mode <> "G64" -> mode <> "blend" -> c' = c).
  Proof.
    destruct c. cbn. destruct (String.eqb_spec (upper mode) "G61") as [Q|Q].
    - eexists. split; [reflexivity|]. split; [cbn; auto|]. split; [|congruence]. intros [X|X]; [congruence|]. subst mode. discriminate.
    - destruct (String.eqb_spec (upper mode) "G64") as [Q2|Q2].
      + eexists. split; [reflexivity|]. split; [|split; [cbn; auto|congruence]]. intros [X|X]; [congruence|]. subst mode. discriminate.
      + unfold mem_str. cbn [existsb]. destruct (String.eqb_spec mode "exact") as [->|Q3].
        * eexists. split; [reflexivity|]. split; [cbn; auto|]. split; [intros [X|X]; [congruence|discriminate]|congruence].
        * destruct (String.eqb_spec mode "blend") as [->|Q4].
          -- eexists. split; [reflexivity|]. split; [intros [X|X]; [congruence|discriminate]|]. split; [cbn; auto|congruence].
          -- eexists. split; [reflexivity|]. split; [intros [X|X]; congruence|]. split; [intros [X|X]; congruence|reflexivity].
  Qed.
End S.

(** ** C99: plunging *)
Section D.
  Context {N : NumOps}.
  Implicit Types (c : config N) (s : state N).
  (** Lines that do not move an axis: spindle and dwell. *)
  Definition idle (i : item) : Prop :=
    exists num k, (exists m sp, i = Line num (IntWord m "S" sp) k /\ (m = "M3" \/ m = "M4")) \/
                  (exists w, i = Line num (Block "G04" [w]) k /\ wname w = "P").
  (** A straight feed move along Z only, perhaps with a feed rate. *)
  Definition plunges c (i : item) : Prop :=
    exists num ws k, i = Line num (Block "G01" ws) k /\ In (out_name c PZ) (map wname ws) /\
      forall w, In w ws -> wname w = out_name c PZ \/ wname w = out_name c PF.
  Lemma dwell_spec c ms cm s : exists new s', dwell c ms cm s = (s', Ok tt) /\ out s' = (out s ++ new)%list /\ Forall idle new /\
    last_val s' = last_val s /\ is_tool_up s' = is_tool_up s.
  Proof.
    unfold dwell, when. destruct (ltb _ _).
    - eexists [_], _. split; [reflexivity|]. split; [reflexivity|]. split; [|auto]. constructor; [|constructor].
      eexists _, _. right. eexists. split; reflexivity.
    - exists [], s. split; [reflexivity|]. rewrite app_nil_r. auto.
  Qed.
  Lemma when_dwell_spec c b ms cm s : exists new s', when b (dwell c ms cm) s = (s', Ok tt) /\ out s' = (out s ++ new)%list /\ Forall idle new /\
    last_val s' = last_val s /\ is_tool_up s' = is_tool_up s.
  Proof.
    destruct b; [apply dwell_spec|]. exists [], s. split; [reflexivity|]. rewrite app_nil_r. auto.
  Qed.
  Lemma spindle_on_spec c sp cw w cm s : exists new s', spindle_on c sp cw w cm s = (s', Ok tt) /\ out s' = (out s ++ new)%list /\ Forall idle new /\
    last_val s' = last_val s /\ is_tool_up s' = is_tool_up s.
  Proof.
    unfold spindle_on, bind. set (l := write_line _ _ _ s). destruct l as [s1 r] eqn:L. unfold l, write_line in L. injection L as <- <-.
    match goal with |- context [when ?b (dwell c ?m None) ?s1] => destruct (when_dwell_spec c b m None s1) as (new & s' & A & B & C & D & F) end.
    rewrite A. cbn [out last_val is_tool_up] in *. eexists (_ :: new), s'. split; [reflexivity|]. split; [rewrite B, <- app_assoc; reflexivity|].
    split; [|auto]. constructor; [|exact C]. eexists _, _. left. eexists _, _. split; [reflexivity|].
    destruct (dflt _ cw); auto.
  Qed.
  Theorem C99_tool_down c z fd wait cm s : alt_tool_down c = None ->
    (forall v : N, ltb (tolerance c) (abs (sub v v)) = false) ->
    exists s' new, tool_down c z fd wait cm s = (s', Ok tt) /\ is_tool_up s' = false /\
      (forall k, k <> PZ -> k <> PF -> pget k (last_val s') = pget k (last_val s)) /\
      (exists l, pget PZ (last_val s') = Some l /\ ltb (tolerance c) (abs (sub z l)) = false) /\
      (exists f, pget PF (last_val s') = Some f /\ ltb (tolerance c) (abs (sub (match fd with Some f => f | None => zfeed c end) f)) = false) /\
      out s' = (out s ++ new)%list /\ Forall (fun i => idle i \/ plunges c i) new /\
      (* unless the tool is there already, exactly one line moves it *)
      (match pget PZ (last_val s) with Some l => ltb (tolerance c) (abs (sub z l)) = true | None => True end ->
       exists a i b, new = (a ++ i :: b)%list /\ plunges c i /\ Forall idle a /\ Forall idle b).
  Proof.
    intros Ha Hs. unfold tool_down. rewrite Ha.
    assert (S0 : exists new s0, when (spindle_auto c) (spindle_on c None None None None) s = (s0, Ok tt) /\ out s0 = (out s ++ new)%list /\ Forall idle new /\
      last_val s0 = last_val s /\ is_tool_up s0 = is_tool_up s).
    { destruct (spindle_auto c); [apply spindle_on_spec|]. exists [], s. rewrite app_nil_r. auto. }
    destruct S0 as (n0 & s0 & A0 & B0 & C0 & D0 & F0). unfold bind at 1. rewrite A0.
    set (args := mkargs _ _ _ _). set (f := match fd with Some f => f | None => zfeed c end). assert (Hf : dflt (zfeed c) fd = f) by (destruct fd; reflexivity).
    assert (S1 : exists n1 s1, gcode_command c "G01" args s0 = (s1, Ok tt) /\ out s1 = (out s0 ++ n1)%list /\ Forall (plunges c) n1 /\
      (forall k, k <> PZ -> k <> PF -> pget k (last_val s1) = pget k (last_val s0)) /\
      (exists l, pget PZ (last_val s1) = Some l /\ ltb (tolerance c) (abs (sub z l)) = false) /\
      (exists f', pget PF (last_val s1) = Some f' /\ ltb (tolerance c) (abs (sub f f')) = false) /\
      (match pget PZ (last_val s0) with Some l => ltb (tolerance c) (abs (sub z l)) = true | None => True end -> exists i, n1 = [i])).
    { unfold gcode_command. cbn [nonempty negb]. change (canonical_cmd "G01") with "G01". cbv zeta. change (before "." "G01") with "G01".
      destruct s0 as [[x y z0 i j r a f0] up ln rs ot pl]. cbn [last_val is_tool_up out line_number axis_offset_reset plots].
      set (bz := match z0 with Some l => ltb (tolerance c) (abs (sub z l)) | None => true end).
      set (bf := match f0 with Some l => ltb (tolerance c) (abs (sub f l)) | None => true end).
      assert (FF : fold_left (scan_param c "G01" args) scan_order (mkp x y z0 i j r a f0, up, pempty) =
        (mkp x y (if bz then Some z else z0) i j r a (if bf then Some f else f0), (if bz then (if up && ltb (scaled c PZ z) (zsafe c) then false else up) else up),
         mkp None None (if bz then Some (to_machine c PZ z) else None) None None None None (if bf then Some (to_machine c PF f) else None))).
      { cbn [fold_left scan_order]. unfold scan_param. cbn [a_vals args pget pset pempty vX vY vZ vI vJ vR vA vF a_force]. rewrite Hf. cbn [is_angular andb].
        change (mem_str "G01" nonmodal_group) with false. cbn [str_mem orb]. rewrite !orb_false_r. fold bz.
        destruct bz; cbn [pset pget vX vY vZ vI vJ vR vA vF]; fold bf; destruct bf; reflexivity. }
      change (mem_str "G01" motion_group) with true. change (a_params args) with (@None string). cbn [andb negb]. cbv beta. cbn [last_val is_tool_up out line_number axis_offset_reset plots]. rewrite FF.
      assert (PW : forall num k ws, In (out_name c PZ) (map wname ws) -> (forall w, In w ws -> wname w = out_name c PZ \/ wname w = out_name c PF) -> plunges c (Line num (Block "G01" ws) k)).
      { intros. unfold plunges. eauto 8. }
      assert (Qz : exists l, (if bz then Some z else z0) = Some l /\ ltb (tolerance c) (abs (sub z l)) = false).
      { unfold bz. destruct z0 as [l|]; [|eauto]. destruct (ltb _ _) eqn:Q; eauto. }
      assert (Qf : exists l, (if bf then Some f else f0) = Some l /\ ltb (tolerance c) (abs (sub f l)) = false).
      { unfold bf. destruct f0 as [l|]; [|eauto]. destruct (ltb _ _) eqn:Q; eauto. }
      assert (Qo : match z0 with Some l => ltb (tolerance c) (abs (sub z l)) = true | None => True end -> bz = true).
      { unfold bz. destruct z0; auto. }
      destruct bz, bf.
      - eexists [_], _. split; [reflexivity|]. cbn [fst snd out last_val]. split; [reflexivity|]. split; [constructor; [|constructor]|].
        + apply PW; [left; reflexivity|intros w [<-|[<-|[]]]; auto].
        + split; [intros [] K1 K2; try reflexivity; congruence|]. split; [exact Qz|]. split; [exact Qf|]. eauto.
      - eexists [_], _. split; [reflexivity|]. cbn [fst snd out last_val]. split; [reflexivity|]. split; [constructor; [|constructor]|].
        + apply PW; [left; reflexivity|intros w [<-|[]]; left; reflexivity].
        + split; [intros [] K1 K2; try reflexivity; congruence|]. split; [exact Qz|]. split; [exact Qf|]. eauto.
      - eexists [], _. split; [reflexivity|]. cbn [fst snd out last_val]. rewrite app_nil_r. split; [reflexivity|]. split; [constructor|].
        split; [intros [] K1 K2; try reflexivity; congruence|]. split; [exact Qz|]. split; [exact Qf|]. intros K; apply Qo in K; discriminate K.
      - eexists [], _. split; [reflexivity|]. cbn [fst snd out last_val]. rewrite app_nil_r. split; [reflexivity|]. split; [constructor|].
        split; [intros [] K1 K2; try reflexivity; congruence|]. split; [exact Qz|]. split; [exact Qf|]. intros K; apply Qo in K; discriminate K. }
    destruct S1 as (n1 & s1 & A1 & B1 & C1 & D1 & Z1 & F1 & O1). unfold bind at 1. rewrite A1. unfold bind at 1, set_up.
    match goal with |- context [when ?b (dwell c ?m None)] => set (w0 := when b (dwell c m None)) end. unfold bind at 1.
    match goal with |- context [w0 ?s2] => set (s2' := s2) end.
    assert (W : exists new s', w0 s2' = (s', Ok tt) /\ out s' = (out s2' ++ new)%list /\ Forall idle new /\ last_val s' = last_val s2' /\ is_tool_up s' = is_tool_up s2').
    { apply when_dwell_spec. }
    destruct W as (n3 & s3 & A3 & B3 & C3 & D3 & F3). rewrite A3. unfold plot. eexists _, (n0 ++ n1 ++ n3)%list. split; [reflexivity|].
    cbn [last_val is_tool_up out]. rewrite F3, D3. cbn [s2' last_val is_tool_up]. split; [reflexivity|].
    split; [intros k K1 K2; rewrite D1, D0; auto|]. split; [exact Z1|]. split; [exact F1|]. split; [|split].
    - rewrite B3. cbn [s2' out]. rewrite B1, B0, !app_assoc. reflexivity.
    - apply Forall_app. split; [eapply Forall_impl; [|exact C0]; auto|]. apply Forall_app. split; [eapply Forall_impl; [|exact C1]; auto|].
      eapply Forall_impl; [|exact C3]; auto.
    - intros Hz. rewrite D0 in O1. destruct (O1 Hz) as [i ->]. exists n0, i, n3. split; [reflexivity|]. inversion C1; auto.
  Qed.
End D.
(** The hypothesis on the tolerance is met for every tolerance >= 0 (C04_real, C04_f64). *)
Example C99_example {N : NumOps} (c : config N) z s : alt_tool_down c = None -> (forall v : N, ltb (tolerance c) (abs (sub v v)) = false) ->
  pget PZ (last_val s) = None -> exists i, In i (out (fst (tool_down c z None None None s))) /\ plunges c i.
Proof.
  intros A B C. destruct (C99_tool_down c z None None None s A B) as (s' & new & E & _ & _ & _ & _ & O & _ & X). rewrite C in X.
  destruct (X Logic.I) as (a & i & b & -> & P & _). rewrite E. cbn [fst]. rewrite O. exists i. split; [|exact P].
  apply in_or_app. right. apply in_or_app. right. now left.
Qed.

(** ** C100: the program header *)
Section H.
  Context {N : NumOps}.
  Implicit Types (c : config N) (s : state N).
  (** The commands among the items written. *)
  Definition commands (l : list item) : list body := flat_map (fun i => match i with Line _ b _ => [b] | _ => [] end) l.
  Definition blend_words c : list body :=
    match blend_mode c with
    | Some m =>
        if String.eqb m "blend" then
          match blend_tolerance c, blend_qtolerance c with
          | None, _ => [Opaque "G64"]
          | Some p, None => [Block "G64" [mkword "P" (ndigits_out c) (fmt (ndigits_out c) p)]]
          | Some p, Some q => [Block "G64" [mkword "P" (ndigits_out c) (fmt (ndigits_out c) p); mkword "Q" (ndigits_out c) (fmt (ndigits_out c) q)]]
          end
        else if String.eqb m "exact" then [Opaque "G61"] else []
    | None => []
    end.
  (** [adds m bs]: [m] completes, writes the commands [bs] (and perhaps comments) and changes nothing else. *)
  Definition adds (m : M unit) (bs : list body) : Prop := forall s, exists s' new, m s = (s', Ok tt) /\ out s' = (out s ++ new)%list /\ commands new = bs /\
    last_val s' = last_val s /\ is_tool_up s' = is_tool_up s /\ axis_offset_reset s' = axis_offset_reset s /\ plots s' = plots s.
  Lemma adds_bind (m m' : M unit) a b : adds m a -> adds m' b -> adds (bind m (fun _ => m')) (a ++ b).
  Proof.
    intros H H' s. destruct (H s) as (s1 & n1 & A & B & C & D & E & F & G). destruct (H' s1) as (s2 & n2 & A' & B' & C' & D' & E' & F' & G').
    exists s2, (n1 ++ n2)%list. unfold bind. rewrite A, A', B', B, app_assoc. split; [reflexivity|]. split; [reflexivity|].
    split; [unfold commands in *; rewrite flat_map_app, C, C'; reflexivity|]. repeat split; congruence.
  Qed.
  Lemma adds_ret : adds (ret tt) [].
  Proof. intros s. exists s, []. rewrite app_nil_r. repeat split. Qed.
  Lemma adds_raw t : adds (emit (Raw t)) [].
  Proof. intros s. eexists _, [_]. split; [reflexivity|]. repeat split. Qed.
  Lemma adds_line c b k : adds (write_line c b k) [b].
  Proof. intros s. eexists _, [_]. split; [reflexivity|]. repeat split. Qed.
  Lemma adds_comment1 semi k : adds (write_comment semi k) [].
  Proof. intros s. destruct k as [k|]; cbn [write_comment]; [destruct (nonempty k)|]; eexists _, [_]; (split; [reflexivity|]); repeat split. Qed.
  Lemma adds_comment c a semi : adds (comment c a semi) [].
  Proof.
    unfold comment, when. destruct (show_comments c); [|apply adds_ret]. destruct a as [|t|l]; try apply adds_comment1.
    induction l as [|k l IH]; cbn [write_comments]; [apply adds_ret|]. apply (adds_bind _ _ [] []); [apply adds_comment1|exact IH].
  Qed.
  Lemma adds_comments c l : adds (comments_all c l) [].
  Proof. induction l as [|a l IH]; cbn [comments_all]; [apply adds_ret|]. apply (adds_bind _ _ [] []); [apply adds_comment|exact IH]. Qed.
  (** The header sets up the XY plane, the units, absolute coordinates, no compensation, the blending mode and
      then the default feed rate, in this order, whatever comments there are. *)
  Theorem C100_header_partial c today cm s : vF (last_val s) = None ->
    exists s' new, header c today cm s = (s', Ok tt) /\ out s' = (out s ++ Raw ("%" ++ newline) :: new)%list /\
      commands new = ([Opaque "G17"; Opaque (if String.eqb (gc_unit c) "mm" then "G21" else "G20"); Opaque "G90"; Opaque "G40"; Opaque "G49"] ++
        blend_words c ++ [Block "" [mkword "F" (ndigits_out c) (fmt (ndigits_out c) (xyfeed c))]])%list /\
      last_val s' = pset PF (xyfeed c) (last_val s) /\ is_tool_up s' = is_tool_up s.
  Proof.
    intros Hf. unfold header. unfold bind at 1. cbn [emit].
    match goal with |- context [bind ?m _ ?s0] => set (s1 := s0) end.
    set (u := Opaque (if String.eqb (gc_unit c) "mm" then "G21" else "G20")).
    assert (AB : adds (blend_line c) (blend_words c)).
    { unfold blend_line, blend_words. destruct (blend_mode c) as [m|]; [|apply adds_ret].
      destruct (String.eqb m "blend"); [destruct (blend_tolerance c); [destruct (blend_qtolerance c)|]; apply adds_line|].
      destruct (String.eqb m "exact"); [apply adds_line|apply adds_ret]. }
    assert (AU : adds (if String.eqb (gc_unit c) "mm" then write_line c (Opaque "G21") (Some "Units are in millimeters")
                       else write_line c (Opaque "G20") (Some "Units are in inches")) [u]).
    { unfold u. destruct (String.eqb (gc_unit c) "mm"); apply adds_line. }
    assert (AC : adds (match cm with Some a => comment c a true | None => ret tt end) []) by (destruct cm; [apply adds_comment|apply adds_ret]).
    set (reach := fun bs (st : state N) => exists new, out st = (out s ++ Raw ("%" ++ newline) :: new)%list /\ commands new = bs /\ last_val st = last_val s /\ is_tool_up st = is_tool_up s).
    assert (Step : forall m bs a st, adds m a -> reach bs st -> exists st', m st = (st', Ok tt) /\ reach (bs ++ a)%list st').
    { intros m bs a st H (new & A & B & C & D). destruct (H st) as (st' & n & A' & B' & C' & D' & F' & _). exists st'. split; [exact A'|].
      exists (new ++ n)%list. split; [rewrite B', A, <- app_assoc; reflexivity|]. split; [unfold commands in *; rewrite flat_map_app; congruence|]. split; congruence. }
    assert (R : reach [] s1).
    { exists []. split; [reflexivity|]. repeat split. }
    clearbody s1.
    Local Ltac go Step R lem := unfold bind at 1; let st := fresh "st" in let A := fresh "A" in let R' := fresh "R" in
      destruct (Step _ _ _ _ lem R) as (st & A & R'); rewrite A; clear A; clear R; rename R' into R.
    go Step R (adds_comment c (CStr rule) true). go Step R (adds_comment c (CStr ("Creation date: " ++ today)) true).
    go Step R (adds_comment c (CStr "Target machine: LinuxCNC, version 2.4+") true). go Step R (adds_comments c (header_comments c)).
    go Step R AC. go Step R (adds_comment c (CStr rule) true). go Step R (adds_raw newline).
    go Step R (adds_line c (Opaque "G17") (Some "XY plane")). go Step R AU.
    go Step R (adds_line c (Opaque "G90") (Some "Use absolute positioning")). go Step R (adds_line c (Opaque "G40") (Some "Cancel tool diameter compensation")).
    go Step R (adds_line c (Opaque "G49") (Some "Cancel tool length compensation")). go Step R AB. go Step R (adds_raw newline).
    go Step R (adds_comment c (CStr "Default feed rate") true).
    destruct R as (new & A & B & C & D). unfold bind at 1, feed_rate. rewrite C, Hf. unfold bind at 1, write_line. cbn [emit last_val is_tool_up out line_number plots axis_offset_reset].
    eexists _, (new ++ [_; _])%list. split; [reflexivity|]. cbn [out last_val is_tool_up]. split; [rewrite A, <- !app_assoc; reflexivity|].
    split; [|rewrite C; auto]. unfold commands in *. rewrite flat_map_app, B. cbn [flat_map app]. rewrite !app_nil_r. fold u. cbn [app]. rewrite <- ?app_assoc. reflexivity.
  Qed.
  (** A header written after a feed rate is known raises TypeError in the middle (see C09). *)
  Theorem C100_second_header_refuted c today cm s f : vF (last_val s) = Some f -> snd (header c today cm s) <> Ok tt.
  Proof.
    intros Hf H. unfold header in H.
    assert (Keep : forall (m : M unit) a (k : M unit) st, adds m a -> vF (last_val st) = Some f -> snd (bind m (fun _ => k) st) = Ok tt ->
      exists st', vF (last_val st') = Some f /\ snd (k st') = Ok tt).
    { intros m a k st Hm Hst Hk. destruct (Hm st) as (st' & n & A & _ & _ & D & _). unfold bind in Hk. rewrite A in Hk. exists st'. split; [congruence|exact Hk]. }
    Local Ltac go2 Keep Hf H lem := apply (Keep _ _ _ _ lem Hf) in H; clear Hf; destruct H as (? & Hf & H).
    go2 Keep Hf H (adds_raw ("%" ++ newline)).
    go2 Keep Hf H (adds_comment c (CStr rule) true). go2 Keep Hf H (adds_comment c (CStr ("Creation date: " ++ today)) true).
    go2 Keep Hf H (adds_comment c (CStr "Target machine: LinuxCNC, version 2.4+") true). go2 Keep Hf H (adds_comments c (header_comments c)).
    assert (AC : adds (match cm with Some a => comment c a true | None => ret tt end) []) by (destruct cm; [apply adds_comment|apply adds_ret]).
    go2 Keep Hf H AC. go2 Keep Hf H (adds_comment c (CStr rule) true). go2 Keep Hf H (adds_raw newline).
    go2 Keep Hf H (adds_line c (Opaque "G17") (Some "XY plane")).
    assert (AU : adds (if String.eqb (gc_unit c) "mm" then write_line c (Opaque "G21") (Some "Units are in millimeters")
                       else write_line c (Opaque "G20") (Some "Units are in inches")) (if String.eqb (gc_unit c) "mm" then [Opaque "G21"] else [Opaque "G20"])).
    { destruct (String.eqb (gc_unit c) "mm"); apply adds_line. }
    go2 Keep Hf H AU.
    go2 Keep Hf H (adds_line c (Opaque "G90") (Some "Use absolute positioning")). go2 Keep Hf H (adds_line c (Opaque "G40") (Some "Cancel tool diameter compensation")).
    go2 Keep Hf H (adds_line c (Opaque "G49") (Some "Cancel tool length compensation")).
    assert (AB : exists bs, adds (blend_line c) bs).
    { unfold blend_line. destruct (blend_mode c) as [m|]; [|eexists; apply adds_ret].
      destruct (String.eqb m "blend"); [destruct (blend_tolerance c); [destruct (blend_qtolerance c)|]; eexists; apply adds_line|].
      destruct (String.eqb m "exact"); eexists; [apply adds_line|apply adds_ret]. }
    destruct AB as [bs AB]. go2 Keep Hf H AB. go2 Keep Hf H (adds_raw newline). go2 Keep Hf H (adds_comment c (CStr "Default feed rate") true).
    unfold bind, feed_rate in H. rewrite Hf in H. discriminate H.
  Qed.
  Example C100_example today : commands (out (fst (header (N := N) (default_config (of_Z 100) (of_Z 1) None None) today None init))) =
    [Opaque "G17"; Opaque "G20"; Opaque "G90"; Opaque "G40"; Opaque "G49"; Block "" [mkword "F" 6 (@fmt N 6 (of_Z 100))]].
  Proof.
    destruct (C100_header_partial (default_config (of_Z 100) (of_Z 1) None None) today None init eq_refl) as (s' & new & A & B & C & _). rewrite A. cbn [fst]. rewrite B.
    unfold commands in *. cbn [out init app flat_map]. rewrite C. reflexivity.
  Qed.
End H.
