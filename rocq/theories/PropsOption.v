(** * PropsOption: the values of options (C133) and the page of the document (C134).  Specification: [SvgDocSpec], [OptionSpec]. *)
From Verif Require Import Num NumR Str Gcode Geom GeomR Svg SvgSpec SvgProofs SvgDoc GeomSvg GeomSvgSpec PropsGeomSvg2 Tcnc OptionSpec.
From Verif Require CssProofs SvgDocSpec SvgDocProofs SvgDocProofs2 PropsSvg PropsSvgDoc Ink PropsInk InkSpec InkProofs.
From Coq Require Import ZArith Reals Lra Lia Bool List Psatz Ascii String.
Import ListNotations.
Local Open Scope R_scope.

(** ** C133 *)
Lemma up_of c w : In w (L "TRUEYESFALSENO") -> (Tcnc.up c = w <-> c = w \/ nat_of_ascii c = (nat_of_ascii w + 32)%nat).
Proof.
  intros H. assert (D : forallb (fun c => forallb (fun w => Bool.eqb (Ascii.eqb (Tcnc.up c) w) (Ascii.eqb c w || Nat.eqb (nat_of_ascii c) (nat_of_ascii w + 32))) (L "TRUEYESFALSENO"))
    (map ascii_of_nat (seq 0 256)) = true) by (vm_compute; reflexivity).
  rewrite forallb_forall in D. specialize (D c). rewrite forallb_forall in D. specialize (D ltac:(apply in_map_iff; exists (nat_of_ascii c); split; [apply ascii_nat_embedding|apply in_seq; pose proof (nat_ascii_bounded c); lia]) w H).
  apply Bool.eqb_prop in D. split.
  - intros E. rewrite E, Ascii.eqb_refl in D. symmetry in D. apply orb_true_iff in D as [D|D]; [left; now apply Ascii.eqb_eq|right; now apply Nat.eqb_eq].
  - intros E. apply Ascii.eqb_eq. rewrite D. apply orb_true_iff. destruct E as [->|E]; [left; apply Ascii.eqb_refl|right; now apply Nat.eqb_eq].
Qed.
Lemma up_word w : Forall (fun c => In c (L "TRUEYESFALSENO")) w -> forall v, map Tcnc.up v = w <-> spelled w v.
Proof.
  intros F. induction F as [|c w Hc _ IH]; intros [|d v]; cbn [map].
  - split; [constructor|reflexivity].
  - split; [discriminate|intros H; inversion H].
  - split; [discriminate|intros H; inversion H].
  - split.
    + intros H. assert (Tcnc.up d = c) as H1 by congruence. assert (map Tcnc.up v = w) as H2 by congruence. constructor; [now apply up_of|now apply IH].
    + intros H. inversion H; subst. f_equal; [now apply up_of|now apply IH].
Qed.
Lemma one_of ws v : Forall (Forall (fun c => In c (L "TRUEYESFALSENO"))) (map L ws) ->
  existsb (str_eqb (map Tcnc.up v)) (map L ws) = true <-> exists w, In w ws /\ spelled (L w) v.
Proof.
  intros F. rewrite existsb_exists. split.
  - intros (x & Hx & E). destruct (CssProofs.str_eqb_spec (map Tcnc.up v) x) as [E'|]; [|discriminate]. pose proof Hx as Hx'. apply in_map_iff in Hx as (w & <- & Hw). exists w. split; [exact Hw|].
    rewrite Forall_forall in F. apply up_word; auto.
  - intros (w & Hw & S). exists (L w). assert (I : In (L w) (map L ws)) by now apply in_map. split; [exact I|]. rewrite Forall_forall in F.
    apply up_word in S; auto. rewrite S. apply CssProofs.str_eqb_refl.
Qed.
Definition yes : list string := ["TRUE"; "T"; "YES"; "Y"]%string.
Definition no : list string := ["FALSE"; "F"; "NO"; "N"]%string.
Lemma letters : Forall (Forall (fun c => In c (L "TRUEYESFALSENO"))) (map L yes) /\ Forall (Forall (fun c => In c (L "TRUEYESFALSENO"))) (map L no).
Proof. split; repeat (first [apply Forall_nil|apply Forall_cons]); repeat (first [left; reflexivity|right]). Qed.
Theorem C133_bool v :
  (check_inkbool v = Ok true <-> exists w, In w yes /\ spelled (L w) v) /\
  (check_inkbool v = Ok false <-> exists w, In w no /\ spelled (L w) v) /\
  (check_inkbool v = Raise ValueError <-> forall w, In w (yes ++ no) -> ~ spelled (L w) v).
Proof.
  pose proof (one_of yes v (proj1 letters)) as Y. pose proof (one_of no v (proj2 letters)) as M.
  assert (X : existsb (str_eqb (map Tcnc.up v)) (map L yes) = true -> existsb (str_eqb (map Tcnc.up v)) (map L no) = true -> False).
  { rewrite !existsb_exists. intros (a & A1 & A2) (b & B1 & B2). destruct (CssProofs.str_eqb_spec (map Tcnc.up v) a) as [Ea|]; [|discriminate]. destruct (CssProofs.str_eqb_spec (map Tcnc.up v) b) as [Eb|]; [|discriminate]. rewrite <- Ea in A1. rewrite <- Eb in B1.
    assert (D : forallb (fun a => forallb (fun b => negb (str_eqb a b)) (map L no)) (map L yes) = true) by (vm_compute; reflexivity).
    rewrite forallb_forall in D. specialize (D _ A1). rewrite forallb_forall in D. specialize (D _ B1). rewrite CssProofs.str_eqb_refl in D. discriminate. }
  unfold check_inkbool. change (map L ["TRUE"; "T"; "YES"; "Y"]%string) with (map L yes). change (map L ["FALSE"; "F"; "NO"; "N"]%string) with (map L no). cbv zeta.
  assert (NN : forall w, In w (yes ++ no) -> spelled (L w) v -> existsb (str_eqb (map Tcnc.up v)) (map L yes) = true \/ existsb (str_eqb (map Tcnc.up v)) (map L no) = true).
  { intros w Hw S. apply in_app_iff in Hw as [Hw|Hw]; [left; apply Y|right; apply M]; eauto. }
  destruct (existsb _ (map L yes)) eqn:E1; [|destruct (existsb _ (map L no)) eqn:E2].
  - split; [|split].
    + split; [intros _; now apply Y|reflexivity].
    + split; [discriminate|intros H; apply M in H; exfalso; auto].
    + split; [discriminate|]. intros H. destruct (proj1 Y eq_refl) as (w & Hw & S). exfalso. apply (H w); [apply in_app_iff; now left|exact S].
  - split; [|split].
    + split; [discriminate|intros H; apply Y in H; discriminate].
    + split; [intros _; now apply M|reflexivity].
    + split; [discriminate|]. intros H. destruct (proj1 M eq_refl) as (w & Hw & S). exfalso. apply (H w); [apply in_app_iff; now right|exact S].
  - split; [|split].
    + split; [discriminate|intros H; apply Y in H; discriminate].
    + split; [discriminate|intros H; apply M in H; discriminate].
    + split; [|reflexivity]. intros _ w Hw S. destruct (NN w Hw S); discriminate.
Qed.
Example C133_bool_example : check_inkbool (L "tRue") = Ok true /\ check_inkbool (L "n") = Ok false /\ check_inkbool (L "on") = Raise ValueError.
Proof. repeat split. Qed.

Lemma float_text (n : numeral) b1 b2 : numeral_ok n -> Forall SvgDocSpec.blank b1 -> Forall SvgDocSpec.blank b2 ->
  float_of (N:=ROps) (b1 ++ numeral_text n ++ b2) = Ok (numeral_value (N:=ROps) n).
Proof.
  intros Hn H1 H2. unfold float_of. rewrite strip_blanks; auto; [apply py_float_text, Hn|apply numeral_text_end, Hn|apply numeral_no_ws].
Qed.
(** Angles are given in degrees, percentages as 0 to 100, lengths in the units of the document, which may be scaled. *)
Theorem C133_numbers cx (d : pystr) (n : numeral) b1 b2 : numeral_ok n -> Forall SvgDocSpec.blank b1 -> Forall SvgDocSpec.blank b2 ->
  let text := (b1 ++ numeral_text n ++ b2)%list in let x := numeral_value (N:=ROps) n in
  check_degrees text = Ok (x * (PI / 180)) /\ check_percent text = Ok (x / 100) /\
  forall def u, d = SvgDocSpec.unit_text u ->
    exists k, PropsSvgDoc.conv_ok (cx_units cx) u k /\ option_value (Some cx) d TDocunits def (Some text) = Ok (x * k * cx_scale cx).
Proof.
  intros Hn H1 H2 text x. assert (F : float_of (N:=ROps) text = Ok x) by now apply float_text.
  split; [|split].
  - unfold check_degrees. rewrite F. reflexivity.
  - unfold check_percent. rewrite F. reflexivity.
  - intros def u ->. destruct (PropsSvgDoc.unit_table (cx_units cx) u) as (k & Hk & Ck). exists k. split; [exact Ck|].
    unfold option_value, docunits_option. rewrite F. cbn [rbind]. replace (match SvgDocSpec.unit_text u with [] => L "px" | _ :: _ => SvgDocSpec.unit_text u end) with (SvgDocSpec.unit_text u) by (destruct u; reflexivity).
    unfold unit2uu. rewrite Hk. reflexivity.
Qed.
(** An option that is not given keeps its default as it is written in the program, in other units than a value that is given: in a
    document in inches the default tool width 1.0 is one user unit, the value 1.0 given on the command line 90; the default angle 90.0
    is 90 radians, the value 90 a right angle. *)
Theorem C133_default_refuted (cx : context ROps) : cx_scale cx = 1 -> cx_doc_units cx = L "in" ->
  option_value (Some cx) (cx_doc_units cx) TDocunits 1 None = Ok 1 /\ option_value (Some cx) (cx_doc_units cx) TDocunits 1 (Some (L "1.0")) = Ok 90 /\
  option_value (Some cx) (cx_doc_units cx) TDegrees 90 None = Ok 90 /\ option_value (Some cx) (cx_doc_units cx) TDegrees 90 (Some (L "90")) = Ok (PI / 2).
Proof.
  intros Hs Hu. set (n := Numeral NoSign [D1] (Some [D0]) None). assert (Hn : numeral_ok n) by (apply PropsSvg.numeral_ok_dec; reflexivity).
  assert (V : @eq R (numeral_value (N:=ROps) n) 1) by (unfold numeral_value, n; cbn; lra).
  set (n' := Numeral NoSign [D9; D0] None None). assert (Hn' : numeral_ok n') by (apply PropsSvg.numeral_ok_dec; reflexivity).
  assert (V' : @eq R (numeral_value (N:=ROps) n') 90) by (unfold numeral_value, n'; cbn; lra).
  split; [reflexivity|]. split; [|split; [reflexivity|]].
  - destruct (C133_numbers cx (cx_doc_units cx) n [] [] Hn ltac:(constructor) ltac:(constructor)) as (_ & _ & H). destruct (H 1 SvgDocSpec.Inch Hu) as (k & [K _] & E).
    etransitivity; [exact E|]. f_equal. rewrite V, Hs, K by (cbn; tauto). cbn. lra.
  - destruct (C133_numbers cx (cx_doc_units cx) n' [] [] Hn' ltac:(constructor) ltac:(constructor)) as (H & _). etransitivity; [exact H|]. f_equal. rewrite V'. field.
Qed.
(** Without a file argument the options in document units cannot be converted. *)
Theorem C133_no_document_refuted d def (n : numeral) : numeral_ok n ->
  option_value (N:=ROps) None d TDocunits def (Some (numeral_text n)) = Raise AttributeError.
Proof.
  intros Hn. pose proof (float_text n [] [] Hn ltac:(constructor) ltac:(constructor)) as F. cbn [app] in F. rewrite app_nil_r in F.
  unfold option_value, docunits_option. rewrite F. reflexivity.
Qed.
(** Kilometres are a known unit of documents (C131), but not of options. *)
Theorem C133_km_refuted (cx : context ROps) def (n : numeral) : numeral_ok n ->
  option_value (Some cx) (L "km") TDocunits def (Some (numeral_text n)) = Raise KeyError.
Proof.
  intros Hn. pose proof (float_text n [] [] Hn ltac:(constructor) ltac:(constructor)) as F. cbn [app] in F. rewrite app_nil_r in F.
  unfold option_value, docunits_option. rewrite F. reflexivity.
Qed.
Example C133_example : numeral_ok PropsSvg.n2 /\ SvgDocSpec.unit_text SvgDocSpec.Cm = L "cm" /\ Forall SvgDocSpec.blank [" "%char].
Proof. split; [split; [cbn; discriminate|exact Logic.I]|]. split; [reflexivity|]. repeat constructor. Qed.

(** ** C134 *)
Lemma sep_char c : gap_char c <-> is_ws c || Ascii.eqb c "," = true.
Proof.
  unfold gap_char. split.
  - intros H. repeat (destruct H as [<-|H]; [reflexivity|]). destruct H.
  - assert (D : forallb (fun c => implb (is_ws c || Ascii.eqb c ",") (existsb (Ascii.eqb c) [" "; "009"; "010"; "013"; "012"; "011"; ","]%char)) (map ascii_of_nat (seq 0 256)) = true) by (vm_compute; reflexivity).
    rewrite forallb_forall in D. specialize (D c ltac:(apply in_map_iff; exists (nat_of_ascii c); split; [apply ascii_nat_embedding|apply in_seq; pose proof (nat_ascii_bounded c); lia])).
    intros H. rewrite H in D. cbn [implb] in D. apply existsb_exists in D as (x & Hx & E). apply Ascii.eqb_eq in E. now subst.
Qed.
Definition solid (w : pystr) : Prop := w <> [] /\ Forall (fun c => ~ gap_char c) w.
Lemma split_word w : Forall (fun c => ~ gap_char c) w -> forall w0 b t, split_sep w0 b (w ++ t) = split_sep (w0 ++ w) (match w with [] => b | _ => false end) t.
Proof.
  induction 1 as [|c w Hc _ IH]; intros w0 b t; [now rewrite app_nil_r|]. cbn [app split_sep].
  destruct (is_ws c || Ascii.eqb c ",") eqn:E; [apply sep_char in E; contradiction|]. rewrite IH, <- app_assoc. cbn [app]. now destruct w.
Qed.
Lemma split_gap g : Forall gap_char g -> forall t, split_sep [] true (g ++ t) = split_sep [] true t.
Proof. induction 1 as [|c g Hc _ IH]; intros t; [reflexivity|]. cbn [app split_sep]. apply sep_char in Hc. rewrite Hc. apply IH. Qed.
Lemma split_fields ws t : separated ws t -> Forall solid ws -> forall b, split_sep [] b t = ws.
Proof.
  induction 1 as [w|w g ws t Hg Fg _ IH]; intros F b; inversion F as [|? ? [NW Hw] F']; subst.
  - rewrite <- (app_nil_r w) at 1. rewrite split_word by exact Hw. reflexivity.
  - rewrite split_word by exact Hw. destruct w as [|c w]; [contradiction|]. cbn [app]. destruct g as [|d g]; [contradiction|]. inversion Fg as [|? ? Hd Fg']; subst.
    cbn [app split_sep]. apply sep_char in Hd. rewrite Hd. f_equal. rewrite split_gap by exact Fg'. now apply IH.
Qed.
Lemma numeral_solid n : numeral_ok n -> solid (numeral_text n).
Proof.
  intros Hn. split; [apply numeral_text_end, Hn|]. pose proof (SvgDocProofs.plain_numeral n) as H. rewrite forallb_forall in H. apply Forall_forall. intros c Hc G. specialize (H c Hc).
  apply sep_char in G. unfold SvgDocProofs.plain_char in H. revert H G. destruct (is_ws c); cbn [negb andb orb]; [discriminate|]. intros H G. rewrite G in H. now rewrite ?andb_false_r in H.
Qed.
Lemma float_fields ns : Forall numeral_ok ns -> mapr (float_of (N:=ROps)) (map numeral_text ns) = Ok (map (numeral_value (N:=ROps)) ns).
Proof.
  induction 1 as [|n ns Hn _ IH]; [reflexivity|]. cbn [map mapr]. pose proof (float_text n [] [] Hn ltac:(constructor) ltac:(constructor)) as F. cbn [app] in F. rewrite app_nil_r in F.
  rewrite F. cbn [rbind]. rewrite IH. reflexivity.
Qed.
(** A size of the page, in user units of an unscaled document: a number of pixels or of another unit. *)
Definition default_units : units ROps := Units (12.5 : ROps) (12.5 : ROps).
Definition page_size (doc : Ink.xml) (name : string) (x : R) : Prop := exists n, numeral_ok n /\
  ((InkSpec.has doc name (numeral_text n) /\ x = numeral_value (N:=ROps) n) \/
   exists u c, InkSpec.has doc name (numeral_text n ++ SvgDocSpec.unit_text u) /\ PropsSvgDoc.conv_ok default_units u c /\ UU_CONV default_units (SvgDocSpec.unit_text u) = Some c /\
     x = numeral_value (N:=ROps) n * c).
(** The only namedview element of the document, and the document units it gives. *)
Definition the_view (doc base : Ink.xml) : Prop :=
  (exists ups, InkSpec.at_node doc ups base) /\ Ink.x_tag base = Some (L NAMEDVIEW) /\
  forall ups n, InkSpec.at_node doc ups n -> Ink.x_tag n = Some (L NAMEDVIEW) -> n = base.
Inductive view_units (base : Ink.xml) : pystr -> Prop :=
| vu_new u : InkSpec.has base INK_UNITS u -> view_units base u
| vu_old u : InkSpec.lacks base INK_UNITS -> InkSpec.has base "units" u -> view_units base u
| vu_none : InkSpec.lacks base INK_UNITS -> InkSpec.lacks base "units" -> view_units base (L "px").
Lemma size_px doc name x : InkSpec.proper doc -> page_size doc name x ->
  unit_convert (N:=ROps) default_units (text_value (Ink.x_get doc name)) (L "px") (L "px") = Ok x.
Proof.
  intros Hp (n & Hn & [[A ->]|(u & c & A & _ & T & ->)]); rewrite (InkProofs.x_get_has _ _ _ Hp A); cbn [text_value].
  - rewrite SvgDocProofs2.convert_plain by exact Hn. change (UU_CONV default_units (L "px")) with (Some (Rlit 1 0)). cbv beta iota.
    rewrite PropsSvgDoc.pydiv_R by (change (1 <> 0); lra). cbn [rbind]. f_equal. change (numeral_value (N:=ROps) n * (1 / 1) = numeral_value (N:=ROps) n). field.
  - rewrite SvgDocProofs2.convert_suffix by (auto; apply PropsSvgDoc.unit_in). rewrite T. change (UU_CONV default_units (L "px")) with (Some (Rlit 1 0)). cbv beta iota.
    rewrite PropsSvgDoc.pydiv_R by (change (1 <> 0); lra). cbn [rbind]. f_equal. change (numeral_value (N:=ROps) n * (c / 1) = numeral_value (N:=ROps) n * c). field.
Qed.
Lemma lit_units : Units (lit 125 (-1)) (lit 125 (-1)) = default_units.
Proof. unfold default_units. f_equal; cbn; lra. Qed.
Lemma find_view doc base : the_view doc base -> find_namedview doc = Some base.
Proof.
  intros ((ups & A) & T & U). unfold find_namedview. destruct (find _ _) as [c|] eqn:F; cbn [option_map].
  - apply find_some in F as [F1 F2]. f_equal. apply (U (fst c)); [apply (InkProofs.walk_at doc [] doc); [constructor|exact F1]|].
    unfold Ink.tag_is in F2. destruct (Ink.x_tag (snd c)) as [t|]; [|discriminate]. destruct (str_eqb t (L NAMEDVIEW)) eqn:Q; [|discriminate]. match type of Q with str_eqb ?x ?y = _ => destruct (CssProofs.str_eqb_spec x y) as [Q2|Q2]; [|discriminate]; now rewrite Q2 end.
  - exfalso. apply InkProofs.at_walk in A. apply (find_none _ _ F) in A. cbn [snd] in A. unfold Ink.tag_is in A. rewrite T in A. rewrite CssProofs.str_eqb_refl in A. discriminate.
Qed.
Lemma view_units_value base u : InkSpec.proper base -> view_units base u ->
  match Ink.x_get base INK_UNITS with Some s => s | None => match Ink.x_get base "units" with Some s => s | None => L "px" end end = u.
Proof.
  intros Hp [v A|v A B|A B].
  - now rewrite (InkProofs.x_get_has _ _ _ Hp A).
  - now rewrite (InkProofs.x_get_lacks _ _ A), (InkProofs.x_get_has _ _ _ Hp B).
  - now rewrite (InkProofs.x_get_lacks _ _ A), (InkProofs.x_get_lacks _ _ B).
Qed.
(** The page of a document whose viewBox starts at 0,0 and has the shape of the page. *)
Theorem C134_page doc w h t nx ny nw nh base u : InkSpec.proper doc -> InkSpec.proper base ->
  page_size doc "width" w -> page_size doc "height" h -> w <> 0 -> h <> 0 ->
  InkSpec.has doc "viewBox" t -> separated (map numeral_text [nx; ny; nw; nh]) t -> Forall numeral_ok [nx; ny; nw; nh] ->
  numeral_value (N:=ROps) nx = 0 -> numeral_value (N:=ROps) ny = 0 ->
  numeral_value (N:=ROps) nw / w = numeral_value (N:=ROps) nh / h ->
  the_view doc base -> view_units base u ->
  exists cx, make_context (N:=ROps) doc = Ok cx /\ cx_doc cx = doc /\
    @eq R (cx_scale cx) (numeral_value (N:=ROps) nw / w) /\ @eq R (cx_width cx) (numeral_value (N:=ROps) nw) /\ @eq R (cx_height cx) (numeral_value (N:=ROps) nh) /\ cx_doc_units cx = u.
Proof.
  intros Hp Hb Sw Sh W0 H0 A St F X0 Y0 Sc V U. unfold make_context. rewrite lit_units. cbv zeta.
  rewrite (size_px doc "width" w Hp Sw), (size_px doc "height" h Hp Sh). cbn [rbind].
  rewrite (InkProofs.x_get_has _ _ _ Hp A).
  rewrite (split_fields _ _ St); [|apply Forall_map; eapply Forall_impl; [|exact F]; intros; now apply numeral_solid].
  rewrite float_fields by exact F. cbn [map rmap rbind]. rewrite X0, Y0.
  pose proof (PropsSvgDoc.C86_view_scale_partial (Rlit 1 (-5)) w h _ _ W0 H0 ltac:(cbn; lra) Sc) as VS.
  match goal with |- context[view_scale ?a ?b ?c ?d] => replace (view_scale a b c d) with (Ok (numeral_value (N:=ROps) nw / w)) by (symmetry; exact VS) end.
  cbn [rbind nth_res nth_error]. rewrite (find_view _ _ V).
  eexists. split; [reflexivity|]. cbn [cx_doc cx_scale cx_width cx_height cx_doc_units]. split; [reflexivity|]. split; [reflexivity|]. split; [rnum; ring|]. split; [rnum; ring|].
  now apply view_units_value.
Qed.
(** Without a viewBox a user unit is a pixel. *)
Theorem C134_no_viewbox doc w h base u : InkSpec.proper doc -> InkSpec.proper base ->
  page_size doc "width" w -> page_size doc "height" h -> w <> 0 -> h <> 0 -> InkSpec.lacks doc "viewBox" ->
  the_view doc base -> view_units base u ->
  exists cx, make_context (N:=ROps) doc = Ok cx /\ cx_doc cx = doc /\
    @eq R (cx_scale cx) 1 /\ @eq R (cx_width cx) w /\ @eq R (cx_height cx) h /\ cx_doc_units cx = u.
Proof.
  intros Hp Hb Sw Sh W0 H0 A V U. unfold make_context. rewrite lit_units. cbv zeta.
  rewrite (size_px doc "width" w Hp Sw), (size_px doc "height" h Hp Sh). cbn [rbind].
  rewrite (InkProofs.x_get_lacks _ _ A). cbn [rbind].
  pose proof (PropsSvgDoc.C86_no_viewbox (Rlit 1 (-5)) w h W0 H0 ltac:(cbn; lra)) as VS.
  match goal with |- context[view_scale ?a ?b ?c ?d] => replace (view_scale a b c d) with (Ok 1 : res R) by (symmetry; exact VS) end.
  cbn [rbind nth_res nth_error]. rewrite (find_view _ _ V).
  eexists. split; [reflexivity|]. cbn [cx_doc cx_scale cx_width cx_height cx_doc_units]. split; [reflexivity|]. split; [reflexivity|]. split; [rnum; ring|]. split; [rnum; ring|].
  now apply view_units_value.
Qed.
(** A document without a namedview element, which Inkscape adds but SVG does not ask for, is refused. *)
Theorem C134_plain_svg_refuted doc w h : InkSpec.proper doc -> page_size doc "width" w -> page_size doc "height" h -> w <> 0 -> h <> 0 ->
  InkSpec.lacks doc "viewBox" -> (forall ups n, InkSpec.at_node doc ups n -> Ink.x_tag n <> Some (L NAMEDVIEW)) ->
  make_context (N:=ROps) doc = Raise AttributeError.
Proof.
  intros Hp Sw Sh W0 H0 A V. unfold make_context. rewrite lit_units. cbv zeta.
  rewrite (size_px doc "width" w Hp Sw), (size_px doc "height" h Hp Sh). cbn [rbind].
  rewrite (InkProofs.x_get_lacks _ _ A). cbn [rbind].
  pose proof (PropsSvgDoc.C86_no_viewbox (Rlit 1 (-5)) w h W0 H0 ltac:(cbn; lra)) as VS.
  match goal with |- context[view_scale ?a ?b ?c ?d] => replace (view_scale a b c d) with (Ok 1 : res R) by (symmetry; exact VS) end.
  cbn [rbind nth_res nth_error]. unfold find_namedview. destruct (find _ _) as [c|] eqn:F; [|reflexivity].
  apply find_some in F as [F1 F2]. exfalso. apply (V (fst c) (snd c)); [apply (InkProofs.walk_at doc [] doc); [constructor|exact F1]|].
  unfold Ink.tag_is in F2. destruct (Ink.x_tag (snd c)) as [q|]; [|discriminate]. destruct (str_eqb q (L NAMEDVIEW)) eqn:Q; [|discriminate]. match type of Q with str_eqb ?x ?y = _ => destruct (CssProofs.str_eqb_spec x y) as [Q2|Q2]; [|discriminate]; now rewrite Q2 end.
Qed.
(** A document without a size, which SVG allows (it fills the window), is refused. *)
Theorem C134_no_size_refuted doc : InkSpec.lacks doc "width" -> make_context (N:=ROps) doc = Raise TypeError.
Proof. intros A. unfold make_context. rewrite (InkProofs.x_get_lacks _ _ A). reflexivity. Qed.
(** A viewBox that does not start at 0,0 is measured wrongly: of 100 by 100 units at 10,10 on a page of 100 by 100 pixels the height
    found is 90, by which everything is misplaced when the Y axis is flipped. *)
Theorem C134_origin_refuted doc t base u n10 n100 : InkSpec.proper doc -> InkSpec.proper base -> page_size doc "width" 100 -> page_size doc "height" 100 ->
  InkSpec.has doc "viewBox" t -> separated (map numeral_text [n10; n10; n100; n100]) t -> Forall numeral_ok [n10; n10; n100; n100] ->
  numeral_value (N:=ROps) n10 = 10 -> numeral_value (N:=ROps) n100 = 100 -> the_view doc base -> view_units base u ->
  exists cx, make_context (N:=ROps) doc = Ok cx /\ @eq R (cx_height cx) 90.
Proof.
  intros Hp Hb Sw Sh A St F V1 V2 V U. unfold make_context. rewrite lit_units. cbv zeta.
  rewrite (size_px doc "width" 100 Hp Sw), (size_px doc "height" 100 Hp Sh). cbn [rbind].
  rewrite (InkProofs.x_get_has _ _ _ Hp A).
  rewrite (split_fields _ _ St); [|apply Forall_map; eapply Forall_impl; [|exact F]; intros; now apply numeral_solid].
  rewrite float_fields by exact F. cbn [map rmap rbind]. rewrite V1, V2.
  destruct (PropsSvgDoc.C86_origin_refuted (Rlit 1 (-5)) ltac:(cbn; lra)) as (s & VS & _).
  match goal with |- context[view_scale ?a ?b ?c ?d] => replace (view_scale a b c d) with (Ok s : res R) by (symmetry; exact VS) end.
  cbn [rbind nth_res nth_error]. rewrite (find_view _ _ V). eexists. split; [reflexivity|]. cbn [cx_height]. rnum. lra.
Qed.
(** A page of 10 by 5 inches, drawn in inches. *)
Definition page_view := PropsInk.elem 2 NAMEDVIEW [(INK_UNITS, "mm")]%string [].
Definition page_doc := PropsInk.elem 1 "svg" [("width", "10in"); ("height", "5in"); ("viewBox", "0 0, 10  5")]%string [page_view].
Example C134_example : exists nx ny nw nh t,
  InkSpec.proper page_doc /\ InkSpec.proper page_view /\ page_size page_doc "width" 900 /\ page_size page_doc "height" 450 /\
  InkSpec.has page_doc "viewBox" t /\ separated (map numeral_text [nx; ny; nw; nh]) t /\ Forall numeral_ok [nx; ny; nw; nh] /\
  numeral_value (N:=ROps) nx = 0 /\ numeral_value (N:=ROps) ny = 0 /\ numeral_value (N:=ROps) nw = 10 /\ numeral_value (N:=ROps) nh = 5 /\
  the_view page_doc page_view /\ view_units page_view (L "mm").
Proof.
  exists PropsGeomSvg2.n0, PropsGeomSvg2.n0, PropsSvg.n10, PropsSvg.n5, (L "0 0, 10  5").
  assert (V10 : numeral_value (N:=ROps) PropsSvg.n10 = 10) by (unfold numeral_value; cbn; lra).
  assert (V5 : numeral_value (N:=ROps) PropsSvg.n5 = 5) by (unfold numeral_value; cbn; lra).
  split; [unfold InkSpec.proper; cbn; repeat constructor; cbn; intuition discriminate|].
  split; [unfold InkSpec.proper; cbn; repeat constructor; cbn; intuition discriminate|].
  split; [exists PropsSvg.n10; split; [apply PropsSvg.numeral_ok_dec; reflexivity|right; destruct (PropsSvgDoc.unit_table default_units SvgDocSpec.Inch) as (k & Hk & Ck); exists SvgDocSpec.Inch, k; split; [left; reflexivity|split; [exact Ck|split; [exact Hk|rewrite V10, (proj1 Ck) by (cbn; tauto); cbn; lra]]]]|].
  split; [exists PropsSvg.n5; split; [apply PropsSvg.numeral_ok_dec; reflexivity|right; destruct (PropsSvgDoc.unit_table default_units SvgDocSpec.Inch) as (k & Hk & Ck); exists SvgDocSpec.Inch, k; split; [right; left; reflexivity|split; [exact Ck|split; [exact Hk|rewrite V5, (proj1 Ck) by (cbn; tauto); cbn; lra]]]]|].
  split; [right; right; left; reflexivity|]. split.
  { change (L "0 0, 10  5") with (L "0" ++ L " " ++ L "0" ++ L ", " ++ L "10" ++ L "  " ++ L "5").
    cbn [map]. apply (sp_more (L "0") (L " ")); [discriminate|repeat constructor; left; reflexivity|].
    apply (sp_more (L "0") (L ", ")); [discriminate|constructor; [do 6 right; left; reflexivity|constructor; [left; reflexivity|constructor]]|].
    apply (sp_more (L "10") (L "  ")); [discriminate|repeat (constructor; [left; reflexivity|]); constructor|]. apply (sp_one (L "5")). }
  split; [repeat constructor; apply PropsSvg.numeral_ok_dec; reflexivity|].
  split; [unfold numeral_value; cbn; lra|]. split; [unfold numeral_value; cbn; lra|]. split; [exact V10|]. split; [exact V5|]. split.
  - split; [exists [page_doc]; apply (InkSpec.at_kid _ [] page_doc); [constructor|left; reflexivity]|]. split; [reflexivity|].
    intros ups n A. PropsInk.nodes A; [discriminate|reflexivity].
  - apply vu_new. left. reflexivity.
Qed.
