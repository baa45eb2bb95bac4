(** * PropsSvg: SVG path data (C53-C56, C82, C83).
    Specification: [SvgSpec] (numerals, lexical rules, reference semantics of path data). *)
From Verif Require Import Num NumR Str Svg SvgSpec SvgProofs SvgProofs2 SvgProofs3 SvgProofs4.
From Coq Require Import String Ascii ZArith NArith List Bool Lia Reals Lra.
Import ListNotations.

(** A concrete path used below: [M1,2l3-4.5.5 1 C 1e1 2 3 4 5 6S7 8 9,10h-1Z]. *)
Definition nat_num (ds : list digit) : numeral := Numeral NoSign ds None None.
Definition n1 := nat_num [D1].
Definition n2 := nat_num [D2].
Definition n3 := nat_num [D3].
Definition n4 := nat_num [D4].
Definition n5 := nat_num [D5].
Definition n6 := nat_num [D6].
Definition n7 := nat_num [D7].
Definition n8 := nat_num [D8].
Definition n9 := nat_num [D9].
Definition n10 := nat_num [D1; D0].
Definition m45 := Numeral Minus [D4] (Some [D5]) None.
Definition p5 := Numeral NoSign [] (Some [D5]) None.
Definition e1 := Numeral NoSign [D1] None (Some (false, NoSign, [D1])).
Definition m1 := Numeral Minus [D1] None None.
Definition sample : list pathcmd :=
  [Segs false (Move (XY n1 n2)) [];
   Segs true (Line (XY n3 m45)) [Line (XY p5 n1)];
   Segs false (Curve (XY e1 n2) (XY n3 n4) (XY n5 n6)) [];
   Segs false (Smooth (XY n7 n8) (XY n9 n10)) [];
   Segs true (Hor m1) [];
   Close false].
Definition sample_text : pystr := L "M1,2l3-4.5.5 1 C 1e1 2 3 4 5 6S7 8 9,10h-1Z".
Lemma numeral_ok_dec n : match n_int n ++ frac_digits n, n_exp n with
  | _ :: _, Some (_, _, _ :: _) => true | _ :: _, None => true | _, _ => false end = true -> numeral_ok n.
Proof.
  unfold numeral_ok. destruct (n_int n ++ frac_digits n); [discriminate|].
  destruct (n_exp n) as [[[? ?] [|]]|]; try discriminate; split; try discriminate; exact Logic.I.
Qed.
Ltac seps := repeat constructor; cbn; tauto.
Lemma sample_ok : path_ok sample /\ Forall item_ok (path_items sample) /\ smooth_directly sample.
Proof.
  split; [|split].
  - split; [repeat constructor|]. right. do 4 eexists. reflexivity.
  - cbn. repeat (constructor; [first [apply numeral_ok_dec; reflexivity|cbn; unfold is_letter; cbn; tauto]|]). constructor.
  - cbn. repeat split. do 3 eexists. reflexivity.
Qed.
Ltac next g := match goal with
  | |- spells (?i :: ?j :: ?l) ?t =>
      let k := eval compute in (length (item_text i) + length (L g)) in
      let rest := eval compute in (skipn k t) in
      change (spells (i :: j :: l) (item_text i ++ L g ++ rest));
      apply sp_next; [seps|cbn; try discriminate; intros _; auto; left; discriminate|] end.
Lemma sample_written : written (path_items sample) sample_text.
Proof.
  exists [], sample_text. split; [constructor|]. split; [|reflexivity].
  change (path_items sample) with
    [Cmd "M"; Num n1; Num n2; Cmd "l"; Num n3; Num m45; Num p5; Num n1; Cmd "C"; Num e1; Num n2; Num n3; Num n4;
     Num n5; Num n6; Cmd "S"; Num n7; Num n8; Num n9; Num n10; Cmd "h"; Num m1; Cmd "Z"]%char.
  let t := eval compute in sample_text in change sample_text with t.
  next ""%string. next ","%string. next ""%string. next ""%string. next ""%string.
  match goal with |- spells (?i :: ?j :: ?l) ?t =>
      let k := eval compute in (length (item_text i)) in let rest := eval compute in (skipn k t) in
      change (spells (i :: j :: l) (item_text i ++ [] ++ rest)) end.
  apply sp_next; [constructor|intros _; right; split; [reflexivity|do 2 eexists; split; reflexivity]|].
  next " "%string. next " "%string. next " "%string. next " "%string. next " "%string. next " "%string. next " "%string. next " "%string.
  next ""%string. next ""%string. next " "%string. next " "%string. next ","%string. next ""%string. next ""%string. next ""%string.
  change (spells [Cmd "Z"%char] (item_text (Cmd "Z"%char) ++ [])). apply sp_last. constructor.
Qed.

(** ** C55: the tokenizer *)
(** Any spelling of a list of command letters, numerals and flags is split into exactly those. *)
Theorem C55_tokens_partial (l : list item) (s : pystr) :
  Forall item_ok l -> written l s ->
  path_tokenizer s = map (fun i => (item_text i, match i with Cmd _ => true | _ => false end)) l.
Proof. apply tok_written. Qed.
Example C55_tokens_applies : Forall item_ok (path_items sample) /\ written (path_items sample) sample_text.
Proof. split; [apply sample_ok|apply sample_written]. Qed.

(** For every string whatsoever no significant character is lost, added or reordered... *)
Definition path_char (c : ascii) : Prop :=
  In c (list_ascii_of_string "0123456789eE.+-MmZzLlHhVvCcSsQqTtAa").
Theorem C55_characters (s : pystr) :
  exists f : ascii -> bool, (forall c, f c = true <-> path_char c) /\
    concat (map fst (path_tokenizer s)) = filter f s.
Proof.
  exists significant. split; [|apply tok_concat].
  intros c. unfold significant, path_char. split; intros H.
  - rewrite !orb_true_iff in H. destruct H as [[[H|H]|H]|H].
    1,2,4: apply cin_In in H; cbn in *; tauto.
    apply Ascii.eqb_eq in H. subst. cbn. tauto.
  - cbn in H. repeat (destruct H as [<-|H]; [reflexivity|]). destruct H.
Qed.
(** ... and a token is a single command letter or a non-empty text of number characters. *)
Theorem C55_token_kinds (s : pystr) t b : In (t, b) (path_tokenizer s) ->
  (b = true /\ exists c, t = [c] /\ In c (list_ascii_of_string "MmZzLlHhVvCcSsQqTtAa")) \/
  (b = false /\ t <> [] /\ forall c, In c t -> In c (list_ascii_of_string "0123456789eE.+-")).
Proof.
  intros H. pose proof (tok_shapes false [] s eq_refl (fun E : false = true => False_ind _ (diff_false_true E))) as HF.
  rewrite Forall_forall in HF. specialize (HF _ H). cbn [fst snd] in HF. destruct b; [left|right].
  - split; [reflexivity|]. destruct HF as (c & -> & Hc). exists c. split; [reflexivity|]. now apply cin_In in Hc.
  - split; [reflexivity|]. destruct HF as [H1 H2]. split; [exact H1|]. intros c Hc.
    rewrite forallb_forall in H2. specialize (H2 c Hc). unfold number_char in H2.
    rewrite !orb_true_iff in H2. destruct H2 as [[H2|H2]|H2].
    1,3: apply cin_In in H2; cbn in *; tauto.
    apply Ascii.eqb_eq in H2. subst. cbn. tauto.
Qed.
(** Not every legal spelling is understood: after a number without a point but with an exponent,
    a point does not start a new number. *)
Theorem C55_exponent_point_refuted :
  path_tokenizer (L "M1e5.5") = [(L "M", true); (L "1e5.5", false)] /\
  path_tokenizer (L "M1.e5.5") = [(L "M", true); (L "1.e5", false); (L ".5", false)].
Proof. split; reflexivity. Qed.

(** ** C53: the parser, for every number type *)
Theorem C53_parse_path {N : NumOps} (p : list pathcmd) (s : pystr) :
  path_ok p -> plain p -> Forall item_ok (path_items p) -> written (path_items p) s ->
  parse_path s = (map tuple (drawing (N:=N) p), None).
Proof.
  intros H1 H2 H3 H4. apply parse_path_drawing; auto.
  unfold smooth_directly. generalize (@None (segment numeral)). intros b.
  assert (Forall (fun o => match o with Some s => plain_seg s | None => True end) (flat_map segs_of p)) as H.
  { clear - H2. induction H2 as [|c p Hc _ IH]; [constructor|]. cbn [flat_map]. apply Forall_app. split; [|exact IH].
    destruct c as [rel f more|rel]; cbn [segs_of]; [|repeat constructor]. now apply Forall_map. }
  revert b. induction H as [|o l Ho _ IH]; intros b; [exact Logic.I|]. cbn [smooth_after].
  split; [|apply IH]. destruct o as [[]|]; cbn in Ho; tauto.
Qed.
(** a plain version of the sample: relative lines with implicit repetition, a horizontal line, closing *)
Definition plain_sample : list pathcmd :=
  [Segs true (Move (XY n1 n2)) [Line (XY n3 n4)];
   Segs false (Arc n1 n2 n3 true false (XY n4 n5)) [];
   Segs true (Ver m1) []; Close true].
Example C53_applies : path_ok plain_sample /\ plain plain_sample /\ Forall item_ok (path_items plain_sample) /\
  written (path_items plain_sample) (L "m1,2,3,4A1,2 3 1,0,4 5v-1z ").
Proof.
  split; [|split; [|split]].
  - split; [repeat constructor|]. right. do 4 eexists. reflexivity.
  - repeat constructor.
  - cbn. repeat (constructor; [first [exact Logic.I|apply numeral_ok_dec; reflexivity|cbn; unfold is_letter; cbn; tauto]|]). constructor.
  - let t := eval compute in (L "m1,2,3,4A1,2 3 1,0,4 5v-1z ") in change (L "m1,2,3,4A1,2 3 1,0,4 5v-1z ") with t.
    eexists [], _. split; [constructor|]. split; [|reflexivity].
    change (path_items plain_sample) with
      [Cmd "m"; Num n1; Num n2; Num n3; Num n4; Cmd "A"; Num n1; Num n2; Num n3; Flag true; Flag false; Num n4; Num n5; Cmd "v"; Num m1; Cmd "z"]%char.
    next ""%string. next ","%string. next ","%string. next ","%string. next ""%string. next ""%string. next ","%string.
    next " "%string. next " "%string. next ","%string. next ","%string. next " "%string. next ""%string. next ""%string. next ""%string.
    change (spells [Cmd "z"%char] (item_text (Cmd "z"%char) ++ L " ")). apply sp_last. seps.
Qed.

(** ** C54: smooth curves *)
(** An S directly after a C, and a T directly after a Q, use the reflected control point: the whole
    path, S and T included, is parsed as the reference semantics says. *)
Theorem C54_smooth_partial {N : NumOps} (p : list pathcmd) (s : pystr) :
  path_ok p -> smooth_directly p -> Forall item_ok (path_items p) -> written (path_items p) s ->
  parse_path s = (map tuple (drawing (N:=N) p), None).
Proof. intros. now apply parse_path_drawing. Qed.
Example C54_applies : path_ok sample /\ smooth_directly sample /\ Forall item_ok (path_items sample) /\
  written (path_items sample) sample_text.
Proof. split; [apply sample_ok|]. split; [apply sample_ok|]. split; [apply sample_ok|apply sample_written]. Qed.

Definition s_after_line : list pathcmd :=
  [Segs false (Move (XY n1 n1)) []; Segs false (Line (XY n2 n1)) []; Segs false (Smooth (XY n3 n2) (XY n4 n1)) []].
Definition s_after_s : list pathcmd :=
  [Segs false (Move (XY n1 n1)) []; Segs false (Curve (XY n1 n2) (XY n3 n4) (XY n5 n6)) [];
   Segs false (Smooth (XY n7 n8) (XY n9 n9)) [Smooth (XY n1 n2) (XY n3 n4)]].
(** False in general: after a line the first control point is not the current point, and in a chain
    of S segments it is not the reflection of the previous one. *)
Theorem C54_smooth_refuted :
  exists p s, path_ok p /\ Forall item_ok (path_items p) /\ written (path_items p) s /\
    p = s_after_line /\ parse_path s <> (map tuple (drawing (N:=ROps) p), None).
Proof.
  exists s_after_line, (L "M1 1L2 1S3 2 4 1").
  split; [|split; [|split; [|split; [reflexivity|]]]].
  - split; [repeat constructor|]. right. do 4 eexists. reflexivity.
  - cbn. repeat (constructor; [first [exact Logic.I|apply numeral_ok_dec; reflexivity|cbn; unfold is_letter; cbn; tauto]|]). constructor.
  - let t := eval compute in (L "M1 1L2 1S3 2 4 1") in change (L "M1 1L2 1S3 2 4 1") with t.
    eexists [], _. split; [constructor|]. split; [|reflexivity].
    change (path_items s_after_line) with
      [Cmd "M"; Num n1; Num n1; Cmd "L"; Num n2; Num n1; Cmd "S"; Num n3; Num n2; Num n4; Num n1]%char.
    next ""%string. next " "%string. next ""%string. next ""%string. next " "%string. next ""%string. next ""%string. next " "%string.
    next " "%string. next " "%string.
    change (spells [Num n1] (item_text (Num n1) ++ L "")). apply sp_last. constructor.
  - intros H. apply (f_equal fst) in H. apply (f_equal (fun l => nth_error l 2)) in H.
    cbn [fst] in H.
    assert (nth_error (fst (parse_path (N:=ROps) (L "M1 1L2 1S3 2 4 1"))) 2 =
      Some ("C"%char, [F (Rlit 2 0 + (Rlit 2 0 - Rlit 1 0)); F (Rlit 1 0 + (Rlit 1 0 - Rlit 1 0));
                       F (Rlit 3 0); F (Rlit 2 0); F (Rlit 4 0); F (Rlit 1 0)]%R)) as H1 by reflexivity.
    rewrite H1 in H.
    assert (nth_error (map tuple (drawing (N:=ROps) s_after_line)) 2 =
      Some ("C"%char, [F (Rlit 2 0); F (Rlit 1 0); F (Rlit 3 0); F (Rlit 2 0); F (Rlit 4 0); F (Rlit 1 0)])) as H2 by reflexivity.
    rewrite H2 in H. injection H as H _. match type of H with ?a = ?b => change (@eq R a b) in H end; cbn in H. lra.
Qed.
Theorem C54_chain_refuted :
  exists p s, path_ok p /\ Forall item_ok (path_items p) /\ written (path_items p) s /\
    p = s_after_s /\ parse_path s <> (map tuple (drawing (N:=ROps) p), None).
Proof.
  exists s_after_s, (L "M1 1C1 2 3 4 5 6S7 8 9 9 1 2 3 4").
  split; [|split; [|split; [|split; [reflexivity|]]]].
  - split; [repeat constructor|]. right. do 4 eexists. reflexivity.
  - cbn. repeat (constructor; [first [exact Logic.I|apply numeral_ok_dec; reflexivity|cbn; unfold is_letter; cbn; tauto]|]). constructor.
  - let t := eval compute in (L "M1 1C1 2 3 4 5 6S7 8 9 9 1 2 3 4") in change (L "M1 1C1 2 3 4 5 6S7 8 9 9 1 2 3 4") with t.
    eexists [], _. split; [constructor|]. split; [|reflexivity].
    change (path_items s_after_s) with
      [Cmd "M"; Num n1; Num n1; Cmd "C"; Num n1; Num n2; Num n3; Num n4; Num n5; Num n6; Cmd "S"; Num n7; Num n8; Num n9; Num n9; Num n1; Num n2; Num n3; Num n4]%char.
    next ""%string. next " "%string. next ""%string. next ""%string. next " "%string. next " "%string. next " "%string. next " "%string.
    next " "%string. next ""%string. next ""%string. next " "%string. next " "%string. next " "%string. next " "%string.
    next " "%string. next " "%string. next " "%string.
    change (spells [Num n4] (item_text (Num n4) ++ L "")). apply sp_last. constructor.
  - intros H. apply (f_equal fst) in H. apply (f_equal (fun l => nth_error l 3)) in H.
    cbn [fst] in H.
    assert (nth_error (fst (parse_path (N:=ROps) (L "M1 1C1 2 3 4 5 6S7 8 9 9 1 2 3 4"))) 3 =
      Some ("C"%char, [F (Rlit 9 0 + (Rlit 9 0 - Rlit 5 0)); F (Rlit 9 0 + (Rlit 9 0 - Rlit 6 0));
                       F (Rlit 1 0); F (Rlit 2 0); F (Rlit 3 0); F (Rlit 4 0)]%R)) as H1 by reflexivity.
    rewrite H1 in H.
    assert (nth_error (map tuple (drawing (N:=ROps) s_after_s)) 3 =
      Some ("C"%char, [F (Rlit 9 0 + (Rlit 9 0 - Rlit 7 0)); F (Rlit 9 0 + (Rlit 9 0 - Rlit 8 0));
                       F (Rlit 1 0); F (Rlit 2 0); F (Rlit 3 0); F (Rlit 4 0)]%R)) as H2 by reflexivity.
    rewrite H2 in H. injection H as H _. match type of H with ?a = ?b => change (@eq R a b) in H end; cbn in H. lra.
Qed.

(** ** C56: exceptions *)
(** False: a malformed number raises, although the documentation says parsing just stops. *)
Theorem C56_raises_refuted {N : NumOps} :
  snd (parse_path (N:=N) (L "M 1 2 L - 3")) = Some ValueError /\
  snd (parse_path (N:=N) (L "M 1 2 A 1 1 0 1.0 0 3 4")) = Some ValueError.
Proof. split; reflexivity. Qed.
(** Whatever the string, nothing but ValueError can be raised... *)
Theorem C56_only_value_error_partial {N : NumOps} (s : pystr) :
  snd (parse_path (N:=N) s) = None \/ snd (parse_path (N:=N) s) = Some ValueError.
Proof. rewrite parse_path_prun. apply prun_any; [apply inv0|apply tokenizer_ok]. Qed.
(** ... and nothing at all if the numbers are well formed and there are no arcs, whatever the order
    of the items and however many parameters the commands have. *)
Theorem C56_well_formed_numbers_partial {N : NumOps} (l : list item) (s : pystr) :
  Forall item_ok l -> ~ In (Cmd "A"%char) l -> ~ In (Cmd "a"%char) l -> written l s ->
  snd (parse_path (N:=N) s) = None.
Proof.
  intros Hok HA Ha Hw. rewrite parse_path_prun. pose proof (tokenizer_ok s) as Ht.
  rewrite (tok_written l s Hok Hw) in *. apply prun_safe; [apply inv0|discriminate|].
  rewrite Forall_map in *. rewrite Forall_forall in *. intros i Hi. apply item_good; auto.
  destruct i as [c| |]; auto. split; intros ->; contradiction.
Qed.
(** the case of a path whose commands have the wrong number of parameters *)
Example C56_applies : let l := [Cmd "L"; Num n1; Cmd "Z"; Num n2; Cmd "M"]%char in
  Forall item_ok l /\ ~ In (Cmd "A"%char) l /\ ~ In (Cmd "a"%char) l /\ written l (L "L1Z2M").
Proof.
  cbn zeta. split; [|split; [|split]].
  - repeat (constructor; [first [apply numeral_ok_dec; reflexivity|cbn; unfold is_letter; cbn; tauto]|]). constructor.
  - cbn. intuition discriminate.
  - cbn. intuition discriminate.
  - let t := eval compute in (L "L1Z2M") in change (L "L1Z2M") with t.
    eexists [], _. split; [constructor|]. split; [|reflexivity].
    next ""%string. next ""%string. next ""%string. next ""%string.
    change (spells [Cmd "M"%char] (item_text (Cmd "M"%char) ++ L "")). apply sp_last. constructor.
Qed.

(** ** C82: every yielded command is canonical, for every string *)
Theorem C82_canonical {N : NumOps} (s : pystr) (c : ascii) (ps : list (pval N)) :
  In (c, ps) (fst (parse_path s)) ->
  (c = "M"%char /\ exists x y, ps = [F x; F y]) \/
  (c = "L"%char /\ exists x y, ps = [F x; F y]) \/
  (c = "C"%char /\ exists a b c d x y, ps = [F a; F b; F c; F d; F x; F y]) \/
  (c = "Q"%char /\ exists a b x y, ps = [F a; F b; F x; F y]) \/
  (c = "A"%char /\ exists rx ry rot large sweep x y, ps = [F rx; F ry; F rot; I large; I sweep; F x; F y]).
Proof.
  rewrite parse_path_prun. intros H.
  destruct (prun_any (N:=N) (path_tokenizer s) pst0 inv0 (tokenizer_ok s)) as [HF _].
  rewrite Forall_forall in HF. exact (HF _ H).
Qed.
Theorem C82_first_is_move {N : NumOps} (s : pystr) o r : fst (parse_path (N:=N) s) = o :: r -> fst o = "M"%char.
Proof.
  rewrite parse_path_prun. intros H. pose proof (prun_first (N:=N) (path_tokenizer s) (tokenizer_ok s)) as HF.
  rewrite H in HF. exact HF.
Qed.
(** non-trivial: an ill-formed string still yields commands *)
Example C82_example {N : NumOps} : map fst (fst (parse_path (N:=N) (L "M 1 2 3 4 z 5 A 1"))) = ["M"; "L"; "L"; "L"]%char.
Proof. reflexivity. Qed.

(** ** C83: exploding a path *)
(** The pieces are the drawn segments in order, each with the point where the previous one ended. *)
Theorem C83_explode {N : NumOps} (p : list pathcmd) (s : pystr) :
  path_ok p -> smooth_directly p -> Forall item_ok (path_items p) -> written (path_items p) s ->
  explode_path s = Ok (map piece (chunks origin (drawing (N:=N) p))).
Proof.
  intros H1 H2 H3 H4. unfold explode_path. rewrite (parse_path_drawing p s H1 H3 H2 H4).
  apply explode_none. now apply drawing_starts.
Qed.
(** For every string: an exception of the parser, or one piece per command other than a moveto. *)
Theorem C83_no_segment_lost {N : NumOps} (s : pystr) :
  (exists pieces, explode_path (N:=N) s = Ok pieces /\ snd (parse_path (N:=N) s) = None /\
     map (fun q => (snd (fst q), snd q)) pieces
     = filter (fun o => negb (Ascii.eqb (fst o) "M")) (fst (parse_path s)))
  \/ (explode_path (N:=N) s = Raise ValueError /\ snd (parse_path (N:=N) s) = Some ValueError).
Proof.
  unfold explode_path. pose proof (C56_only_value_error_partial (N:=N) s) as He.
  assert (Forall canonical (fst (parse_path (N:=N) s))) as Hc.
  { rewrite parse_path_prun. apply prun_any; [apply inv0|apply tokenizer_ok]. }
  assert (match fst (parse_path (N:=N) s) with [] => True | o :: _ => fst o = "M"%char end) as Hm.
  { destruct (fst (parse_path (N:=N) s)) eqn:E; [exact Logic.I|]. eapply C82_first_is_move; eauto. }
  destruct (parse_path s) as [cmds e]. cbn [fst snd] in *.
  destruct (explode_all cmds Hc Hm) as (ps & E & Hps).
  destruct He as [-> | ->].
  - left. exists ps. auto.
  - right. rewrite E. split; reflexivity.
Qed.
Example C83_applies {N : NumOps} : length (chunks origin (drawing (N:=N) sample)) = 6.
Proof. reflexivity. Qed.
