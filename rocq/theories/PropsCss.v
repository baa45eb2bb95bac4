(** * PropsCss: inline styles, visibility and colours (C59, C60, C87, C88).
    Specification: [CssSpec]. *)
From Verif Require Import Num NumR Str GeomR GeomProofs Svg SvgSpec SvgProofs SvgDoc SvgDocSpec SvgDocProofs SvgDocProofs2 Css CssSpec CssProofs CssProofs2.
From Coq Require Import String Ascii ZArith NArith List Bool Lia Reals Lra.
Import ListNotations.

(** ** C59: inline styles *)
Theorem C59_round_trip (d : list (pystr * pystr)) :
  NoDup (map fst d) -> Forall (fun nv => word (fst nv) /\ word (snd nv)) d ->
  inline_style_to_dict (Some (dict_to_inline_style d)) = Ok d.
Proof.
  intros Hd Hw. rewrite (parse_style d) by (auto using render_spells). f_equal. now apply (fold_distinct d []).
Qed.
(** Any style attribute: each property gets the value of its last declaration, nothing else is defined. *)
Theorem C59_parse (l : list (pystr * pystr)) (s : pystr) :
  Forall (fun nv => word (fst nv) /\ word (snd nv)) l -> spells_style l s ->
  exists d, inline_style_to_dict (Some s) = Ok d /\
    (forall n v, declared l n v -> dict_get n d = Some v) /\
    (forall n, ~ In n (map fst l) -> dict_get n d = None).
Proof.
  intros Hw H. eexists. split; [now apply (parse_style l)|]. split.
  - intros n v Hv. now apply fold_get.
  - intros n Hn. now rewrite fold_get_none.
Qed.
(** For every string: ValueError exactly if some declaration is not empty and does not contain exactly
    one colon; nothing else is ever raised. *)
Theorem C59_raises (s : pystr) :
  (exists d, inline_style_to_dict (Some s) = Ok d) \/ inline_style_to_dict (Some s) = Raise ValueError.
Proof.
  unfold inline_style_to_dict. destruct s as [|c s]; [eauto|].
  destruct (properties_raise (split_on ";" (c :: s)) []) as [(d & E & _)|(E & _)]; eauto.
Qed.
Theorem C59_raises_iff (s : pystr) : inline_style_to_dict (Some s) = Raise ValueError <->
  exists a p b, s = a ++ p ++ b /\ ~ In ";"%char p /\
    (a = [] \/ exists a', a = a' ++ [";"%char]) /\ (b = [] \/ exists b', b = ";"%char :: b') /\
    p <> [] /\ count_occ ascii_dec p ":"%char <> 1.
Proof.
  assert (inline_style_to_dict (Some s) = style_properties [] (split_on ";" s)) as -> by (destruct s; reflexivity).
  split.
  - intros H. destruct (properties_raise (split_on ";" s) []) as [(d & E & _)|(_ & p & Hp & H1 & H2)]; [congruence|].
    apply split_piece in Hp as (a & b & E & H3 & H4 & H5). exists a, p, b. auto 10.
  - intros (a & p & b & E & H3 & H4 & H5 & H1 & H2).
    assert (In p (split_on ";" s)) as Hp by (apply split_piece; eauto 10).
    destruct (properties_raise (split_on ";" s) []) as [(d & E' & Hd)|(E' & _)]; [|exact E'].
    destruct (Hd p Hp); contradiction.
Qed.
Definition sample_style : list (pystr * pystr) := [(L "fill", L "none"); (L "stroke-width", L "1.5px")].
Lemma sample_words : NoDup (map fst sample_style) /\ Forall (fun nv => word (fst nv) /\ word (snd nv)) sample_style.
Proof.
  split; [repeat constructor; cbn; intuition discriminate|].
  assert (forall w r c, w = L r ++ [c] -> ~ In ":"%char w -> ~ In ";"%char w -> (exists c r, w = c :: r /\ ~ style_blank c) -> ~ style_blank c -> word w) as Hw.
  { intros w r c E H1 H2 H3 H4. repeat split; auto. exists c, (L r). auto. }
  apply Forall_cons; [split|apply Forall_cons; [split|apply Forall_nil]]; cbn [fst snd].
  - apply (Hw _ "fil"%string "l"%char); try reflexivity; try (cbn; intuition discriminate); do 2 eexists; (split; [reflexivity|]); cbn; intuition discriminate.
  - apply (Hw _ "non"%string "e"%char); try reflexivity; try (cbn; intuition discriminate); do 2 eexists; (split; [reflexivity|]); cbn; intuition discriminate.
  - apply (Hw _ "stroke-widt"%string "h"%char); try reflexivity; try (cbn; intuition discriminate); do 2 eexists; (split; [reflexivity|]); cbn; intuition discriminate.
  - apply (Hw _ "1.5p"%string "x"%char); try reflexivity; try (cbn; intuition discriminate); do 2 eexists; (split; [reflexivity|]); cbn; intuition discriminate.
Qed.
Example C59_spelled : spells_style sample_style (L "fill : none; ;stroke-width:1.5px;") -> False.
Proof.
  (* a blank declaration is not allowed: it raises *)
  intros H. pose proof (parse_style _ _ (proj2 sample_words) H) as E. discriminate E.
Qed.
Example C59_spelled_void : spells_style [(L "stroke-width", L "1.5px")] (L "fill: ;:none;stroke-width:1.5px").
Proof.
  assert (K : forall r, word (L "fill") /\ word (L "none") -> r -> r) by auto. apply K; [|clear K].
  - destruct sample_words as [_ H]. inversion_clear H as [|? ? [H1 H2] _]. auto.
  - destruct sample_words as [_ H]. inversion_clear H as [|? ? [H1 H2] _]. cbn [fst snd] in *.
    apply (ss_void_cons _ (L "fill: ") (L ":none;stroke-width:1.5px")); [|apply (ss_void_cons _ (L ":none") (L "stroke-width:1.5px")); [|apply ss_last]].
    + exists (L "fill"), []. split; [auto|]. exists [], [], [" "%char], []. cbn [fst snd]. repeat split; try reflexivity; repeat constructor.
    + exists [], (L "none"). split; [auto|]. exists [], [], [], []. cbn [fst snd]. repeat split; try reflexivity; repeat constructor.
    + exists [], [], [], []. cbn [fst snd]. repeat split; try reflexivity; repeat constructor.
Qed.
Example C59_spelled_ok : spells_style sample_style (L "fill : none;;stroke-width:1.5px;").
Proof.
  apply (ss_cons (L "fill", L "none") [(L "stroke-width", L "1.5px")] (L "fill : none") (L ";stroke-width:1.5px;")).
  - exists [], [" "%char], [" "%char], []. cbn [fst snd]. repeat split; try reflexivity; repeat constructor.
  - apply (ss_skip _ (L "stroke-width:1.5px;")).
    apply (ss_cons (L "stroke-width", L "1.5px") [] (L "stroke-width:1.5px") []); [|constructor].
    exists [], [], [], []. cbn [fst snd]. repeat split; try reflexivity; repeat constructor.
Qed.
(** Legal styles that make it raise: a blank after the last semicolon, a colon inside a value. *)
Theorem C59_blank_refuted : inline_style_to_dict (Some (L "fill:none; ")) = Raise ValueError /\
  inline_style_to_dict (Some (L "fill:url(http://x)")) = Raise ValueError.
Proof. split; reflexivity. Qed.

(** ** C88: visibility.  The chain is the node and its ancestors, [ds] their styles. *)
Definition hidden (n : node) (d : list (pystr * pystr)) : Prop :=
  dict_get (L "display") d = Some (L "none") \/
  exists v, (dict_get (L "visibility") d = Some v \/ (dict_get (L "visibility") d = None /\ n_vis n = Some v)) /\
    (v = L "hidden" \/ v = L "collapse").
Theorem C88_visible (chain : list node) (ds : list (list (pystr * pystr))) : chain <> [] ->
  Forall2 (fun n d => inline_style_to_dict (n_style n) = Ok d) chain ds ->
  exists b, node_is_visible false true chain = Ok b /\
    (b = true <-> Forall2 (fun n d => ~ hidden n d) chain ds).
Proof.
  intros Hne H. destruct (visible_chain chain ds H false) as (b & E & Hb). exists b. split; [exact E|]. rewrite Hb.
  split; [intros [_ X]; exact X|intros X; split; [congruence|exact X]].
Qed.
(** Without looking at the parents: only if the node inherits its visibility. *)
Theorem C88_no_parents (n : node) d parents ds : inline_style_to_dict (n_style n) = Ok d ->
  Forall2 (fun n d => inline_style_to_dict (n_style n) = Ok d) parents ds ->
  exists b, node_is_visible false false (n :: parents) = Ok b /\
    (b = true <-> ~ hidden n d /\
      ((match dict_get (L "visibility") d with Some v => Some v | None => n_vis n end) = Some (L "inherit") ->
        Forall2 (fun n d => ~ hidden n d) parents ds)).
Proof.
  intros Hd Hp.
  destruct (visible_chain [n] [d] ltac:(repeat constructor; exact Hd) false) as (b & E & Hb).
  destruct (visible_chain parents ds Hp true) as (b2 & E2 & Hb2).
  cbn [node_is_visible] in *. rewrite Hd in *. rewrite andb_false_r in E. rewrite andb_true_r.
  set (vis := match dict_get (L "visibility") d with Some v => Some v | None => n_vis n end) in *.
  destruct (match dict_get (L "display") d with Some v => str_eqb v (L "none") | None => false end).
  - exists false. split; [reflexivity|]. split; [discriminate|]. intros [H _]. injection E as <-.
    apply Hb. split; [discriminate|]. constructor; [exact H|constructor].
  - destruct (match vis with Some w => str_eqb w (L "inherit") | None => false end) eqn:Ei.
    + assert (vis = Some (L "inherit")) as Ev. { destruct vis as [w|]; [|discriminate]. destruct (str_eqb_spec w (L "inherit")); congruence. }
      exists b2. split; [exact E2|]. rewrite Ev in E. cbn in E. injection E as <-.
      destruct Hb as [Hb _]. destruct (Hb eq_refl) as [_ HF]. inversion_clear HF as [|? ? ? ? Hn _]. rewrite Hb2. split.
      * intros [_ H]. split; [exact Hn|]. intros _. exact H.
      * intros [_ H]. split; [auto|]. apply H. exact Ev.
    + assert (vis <> Some (L "inherit")) as Ev. { intros X. rewrite X in Ei. discriminate. }
      destruct ((match vis with Some w => str_eqb w (L "hidden") | None => false end) || (match vis with Some w => str_eqb w (L "collapse") | None => false end)).
      * exists false. split; [reflexivity|]. split; [discriminate|]. intros [H _]. injection E as <-.
        apply Hb. split; [discriminate|]. constructor; [exact H|constructor].
      * exists true. split; [reflexivity|]. injection E as <-. destruct Hb as [Hb _]. destruct (Hb eq_refl) as [_ HF].
        inversion_clear HF as [|? ? ? ? Hn _]. split; [intros _; split; [exact Hn|intros X; contradiction]|reflexivity].
Qed.
Example C88_example : node_is_visible false true [Node (Some (L "visibility:visible")) None; Node None None; Node (Some (L "display: none")) None] = Ok false
  /\ node_is_visible false true [Node (Some (L "fill:red;visibility:visible")) (Some (L "hidden")); Node None None] = Ok true.
Proof. split; reflexivity. Qed.

(** ** C60: colours *)
Lemma hex_color_text {N : NumOps} pre t ds b1 b2 : Forall2 hexdig t ds -> t <> [] -> pre = [] \/ pre = ["#"%char] ->
  Forall blank b1 -> Forall blank b2 ->
  csscolor_to_rgb (N:=N) (b1 ++ pre ++ t ++ b2) =
  Ok (Tup (match map Z.of_nat ds with
           | [a; b; c; d; e; f] => (16 * a + b, 16 * c + d, 16 * e + f)%Z
           | [a; b; c] => (a * 16 + a, b * 16 + b, c * 16 + c)%Z
           | _ => (0, 0, 0)%Z
           end)).
Proof.
  intros Ht Hne Hpre H1 H2. unfold csscolor_to_rgb.
  assert (strip (b1 ++ pre ++ t ++ b2) = pre ++ t) as ->.
  { rewrite (app_assoc pre). apply strip_word; auto using blank_forall.
    - destruct t as [|c t]; [congruence|]. inversion_clear Ht as [|? d ? ? Hc _]. apply hexdig_val in Hc.
      destruct Hpre as [-> | ->]; [exists c, t; tauto|exists "#"%char, (c :: t); split; reflexivity].
    - destruct (exists_last Hne) as (r & x & ->). exists x, (pre ++ r). split; [apply app_assoc|].
      eapply hextext_ws; [exact Ht|]. apply in_or_app. right. now left. }
  pose proof (hextext_lower t ds Ht) as Hl. rewrite map_app.
  destruct Hpre as [-> | ->].
  - cbn [map app]. rewrite <- (csshex_text [] t ds Ht) by constructor. cbn [app].
    set (u := map lower_ascii t) in *. assert (u <> []) as Hu by (unfold u; destruct t; [congruence|discriminate]). clearbody u.
    assert (forall p, match p with [] => False | c :: _ => hex_val c = None end \/ match p with c :: e :: _ => hex_val e = None | _ => False end -> starts_with p u = false) as Hs.
    { intros p Hp. unfold starts_with. destruct (str_eqb_spec (firstn (length p) u) p) as [E|]; [|reflexivity]. exfalso.
      destruct Hl as [|c d u ds' Hc Hl']; [congruence|]. destruct p as [|x p]; [tauto|]. cbn [length firstn] in E. injection E as <- E.
      apply hexdig_val in Hc as (Hc & _). destruct Hp as [Hp|Hp]; [congruence|].
      destruct p as [|y p]; [tauto|]. destruct Hl' as [|e d' u ds'' He _]; [discriminate|]. cbn [length firstn] in E. injection E as <- _.
      apply hexdig_val in He as (He & _). congruence. }
    rewrite !Hs by (cbn; auto). rewrite (hextext_no_name u ds Hl).
    assert (forallb (fun c => match hex_val c with Some _ => true | None => false end) u = true) as ->; [|reflexivity].
    apply forallb_forall. intros c Hc. clear - Hl Hc. induction Hl as [|x d u ds Hx _ IH]; [destruct Hc|].
    destruct Hc as [->|Hc]; [|auto]. apply hexdig_val in Hx as (-> & _). reflexivity.
  - cbn [map app]. change (lower_ascii "#") with "#"%char.
    assert (starts_with (L "#") ("#"%char :: map lower_ascii t) = true) as -> by reflexivity.
    rewrite <- (csshex_text ["#"%char] t ds Ht) by (repeat constructor). reflexivity.
Qed.
(** Six or three hexadecimal digits, upper or lower case, with or without #, blanks around. *)
Theorem C60_hex6 {N : NumOps} pre a b c d e f a' b' c' d' e' f' b1 b2 :
  hexdig a' a -> hexdig b' b -> hexdig c' c -> hexdig d' d -> hexdig e' e -> hexdig f' f ->
  pre = [] \/ pre = ["#"%char] -> Forall blank b1 -> Forall blank b2 ->
  csscolor_to_rgb (N:=N) (b1 ++ pre ++ [a'; b'; c'; d'; e'; f'] ++ b2) =
  Ok (Tup (Z.of_nat (16 * a + b), Z.of_nat (16 * c + d), Z.of_nat (16 * e + f))).
Proof.
  intros. rewrite (hex_color_text pre [a'; b'; c'; d'; e'; f'] [a; b; c; d; e; f]); try assumption; [|repeat (apply Forall2_cons; [assumption|]); apply Forall2_nil|discriminate].
  cbn [map]. do 2 f_equal. f_equal; [f_equal|]; lia.
Qed.
Theorem C60_hex3 {N : NumOps} pre a b c a' b' c' b1 b2 :
  hexdig a' a -> hexdig b' b -> hexdig c' c -> pre = [] \/ pre = ["#"%char] -> Forall blank b1 -> Forall blank b2 ->
  csscolor_to_rgb (N:=N) (b1 ++ pre ++ [a'; b'; c'] ++ b2) =
  Ok (Tup (Z.of_nat (17 * a), Z.of_nat (17 * b), Z.of_nat (17 * c))).
Proof.
  intros. rewrite (hex_color_text pre [a'; b'; c'] [a; b; c]); try assumption; [|repeat (apply Forall2_cons; [assumption|]); apply Forall2_nil|discriminate].
  cbn [map]. do 2 f_equal. f_equal; [f_equal|]; lia.
Qed.
Example C60_hex_example {N : NumOps} : csscolor_to_rgb (N:=N) (L " #fFc0ee") = Ok (Tup (255, 192, 238)%Z).
Proof. reflexivity. Qed.

(** Channel values: for every string a number from 0 to 255, unless it spells an infinite percentage. *)
Theorem C60_channel_range {N : NumOps} (s : pystr) :
  (exists n, parse_channel_value (N:=N) s = Ok n /\ (0 <= n <= 255)%Z) \/ parse_channel_value (N:=N) s = Raise OverflowError.
Proof. apply channel_range. Qed.
Theorem C60_channel_integer {N : NumOps} b1 ds b2 : Forall blank b1 -> Forall blank b2 -> ds <> [] ->
  parse_channel_value (N:=N) (b1 ++ map digit_text ds ++ b2) = Ok (Z.min (positional 0 ds) 255).
Proof. apply channel_integer. Qed.
Theorem C60_infinite_refuted {N : NumOps} : parse_channel_value (N:=N) (L "inf%") = Raise OverflowError.
Proof. reflexivity. Qed.

(** Named colours are in range; a list of channels too; any colour is at least -15 and at most 255. *)
Theorem C60_named {N : NumOps} (s : pystr) c : In (s, c) CSS_COLORS -> csscolor_to_rgb (N:=N) s = Ok (Tup c) /\ in_range c.
Proof.
  intros H. assert (color_get s CSS_COLORS = Some c) as E.
  { assert (forallb (fun kv : pystr * rgb => match color_get (fst kv) CSS_COLORS with Some v =>
      if (let '(r, g, b) := v in let '(r', g', b') := snd kv in (r =? r') && (g =? g') && (b =? b'))%Z then true else false | None => false end) CSS_COLORS = true) as Ht by (vm_compute; reflexivity).
    rewrite forallb_forall in Ht. specialize (Ht _ H). cbn [fst snd] in Ht. destruct (color_get s CSS_COLORS) as [v|]; [|discriminate].
    destruct v as [[r g] b], c as [[r' g'] b']. destruct ((r =? r')%Z && (g =? g')%Z && (b =? b')%Z) eqn:Ex; [|discriminate].
    rewrite !andb_true_iff, !Z.eqb_eq in Ex. destruct Ex as [[-> ->] ->]. reflexivity. }
  split; [|now apply color_get_range in E].
  assert (forallb (fun kv : pystr * rgb => str_eqb (map lower_ascii (strip (fst kv))) (fst kv) && negb (starts_with (L "#") (fst kv)) &&
    negb (starts_with (L "rgb") (fst kv)) && negb (starts_with (L "hsl") (fst kv))) CSS_COLORS = true) as Ht by (vm_compute; reflexivity).
  rewrite forallb_forall in Ht. specialize (Ht _ H). cbn [fst] in Ht. rewrite !andb_true_iff, !negb_true_iff in Ht.
  destruct Ht as [[[H1 H2] H3] H4]. unfold csscolor_to_rgb. destruct (str_eqb_spec (map lower_ascii (strip s)) s) as [E'|]; [|discriminate].
  rewrite E', H2, H3, H4, E. reflexivity.
Qed.
(** Every colour keyword of CSS, in capital or small letters, with blanks around, means its code; no other names are known. *)
Lemma same_letter_lower c d : same_letter c d -> lower_ascii d = d -> lower_ascii c = d /\ is_ws c = is_ws d.
Proof.
  intros [->|(i & H1 & H2)] E; [auto|].
  do 26 (destruct i as [|i]; [injection H1 as <-; injection H2 as <-; split; reflexivity|]). destruct i; discriminate.
Qed.
Theorem C60_keywords {N : NumOps} (name code : string) (w b1 b2 : pystr) : In (name, code) css3_colors ->
  any_case w (L name) -> Forall blank b1 -> Forall blank b2 ->
  csscolor_to_rgb (N:=N) (b1 ++ w ++ b2) = csscolor_to_rgb (N:=N) (L ("#" ++ code)).
Proof.
  intros H Hw H1 H2.
  assert (T1 : forallb (fun kv : string * string => match csscolor_to_rgb (N:=N) (L (fst kv)), csscolor_to_rgb (N:=N) (L ("#" ++ snd kv)) with
    | Ok (Tup (r, g, b)), Ok (Tup (r', g', b')) => (r =? r')%Z && (g =? g')%Z && (b =? b')%Z | _, _ => false end) css3_colors = true) by (vm_compute; reflexivity).
  assert (T2 : forallb (fun kv : string * string => match L (fst kv), rev (L (fst kv)) with c :: _, d :: _ => negb (is_ws c) && negb (is_ws d) | _, _ => false end && forallb (fun c => Ascii.eqb (lower_ascii c) c) (L (fst kv))) css3_colors = true) by (vm_compute; reflexivity).
  rewrite forallb_forall in T1, T2. specialize (T1 _ H). specialize (T2 _ H). cbn [fst snd] in T1, T2. clear H.
  apply andb_true_iff in T2 as [T2 T3]. rewrite forallb_forall in T3.
  assert (L1 : Forall2 (fun c d => lower_ascii c = d /\ is_ws c = is_ws d) w (L name)).
  { revert Hw T3. generalize (L name). clear. intros l Hw T3. induction Hw as [|c d w l Hc _ IH]; constructor.
    - apply same_letter_lower; [exact Hc|]. apply Ascii.eqb_eq, T3. now left.
    - apply IH. intros x Hx. apply T3. now right. }
  assert (ML : map lower_ascii w = L name) by (clear - L1; induction L1 as [|c d w l [Hc _] _ IH]; cbn; congruence).
  assert (SW : strip (b1 ++ w ++ b2) = w).
  { apply strip_word; auto using blank_forall.
    - destruct L1 as [|c d w l [_ Hc] _]; [discriminate|]. exists c, w. split; [reflexivity|]. rewrite Hc. destruct (rev (d :: l)); [discriminate|]. apply andb_true_iff in T2 as [T2 _]. now apply negb_true_iff.
    - destruct w as [|c w] using rev_ind; [destruct (L name); [discriminate|inversion L1]|]. exists c, w. split; [reflexivity|].
      apply Forall2_app_inv_l in L1 as (l1 & l2 & _ & L2 & E). inversion L2 as [|? d ? ? [_ Hc] L3]; subst. inversion L3; subst. rewrite Hc.
      rewrite E, rev_app_distr in T2. cbn [rev app] in T2. destruct (l1 ++ [d]); [discriminate|]. apply andb_true_iff in T2 as [_ T2]. now apply negb_true_iff. }
  assert (SN : strip (L name) = L name).
  { rewrite <- (app_nil_r (L name)) at 1. change (strip ([] ++ L name ++ []) = L name). apply strip_word; try constructor; destruct (L name) as [|c l] eqn:E; try discriminate.
    - exists c, l. split; [reflexivity|]. destruct (rev (c :: l)); [discriminate|]. apply andb_true_iff in T2 as [T2 _]. now apply negb_true_iff.
    - destruct (rev (c :: l)) as [|d r] eqn:Er; [discriminate|]. exists d, (rev r). split; [|apply andb_true_iff in T2 as [_ T2]; now apply negb_true_iff].
      rewrite <- (rev_involutive (c :: l)), Er. reflexivity. }
  assert (NL : map lower_ascii (L name) = L name) by (rewrite <- (map_id (L name)) at 2; apply map_ext_in; intros x Hx; apply Ascii.eqb_eq, T3, Hx).
  assert (E : csscolor_to_rgb (N:=N) (b1 ++ w ++ b2) = csscolor_to_rgb (N:=N) (L name)) by (unfold csscolor_to_rgb; rewrite SW, SN, ML, NL; reflexivity).
  rewrite E. destruct (csscolor_to_rgb (L name)) as [[[[r g] b]|l]|]; try discriminate. destruct (csscolor_to_rgb (L ("#" ++ code))) as [[[[r' g'] b']|l]|]; try discriminate.
  rewrite !andb_true_iff, !Z.eqb_eq in T1. destruct T1 as [[-> ->] ->]. reflexivity.
Qed.
Theorem C60_no_other_keywords (s : pystr) c : In (s, c) CSS_COLORS -> exists code, In (string_of_list_ascii s, code) css3_colors.
Proof.
  intros H. assert (Ht : forallb (fun kv : pystr * rgb => existsb (fun kc : string * string => String.eqb (string_of_list_ascii (fst kv)) (fst kc)) css3_colors) CSS_COLORS = true) by (vm_compute; reflexivity).
  rewrite forallb_forall in Ht. specialize (Ht _ H). cbn [fst] in Ht. apply existsb_exists in Ht as ([n code] & Hi & E). cbn [fst] in E. apply String.eqb_eq in E. exists code. now rewrite E.
Qed.
Example C60_keywords_example {N : NumOps} : csscolor_to_rgb (N:=N) (L " DarkOrange ") = Ok (Tup (255, 140, 0)%Z) /\
  any_case (L "DarkOrange") (L "darkorange") /\ In ("darkorange", "ff8c00")%string css3_colors.
Proof.
  split; [reflexivity|]. split; [|cbn; auto 60].
  cbn. repeat first [apply Forall2_nil | apply Forall2_cons; [first [left; reflexivity | right; exists 3; split; reflexivity | right; exists 14; split; reflexivity]|]].
Qed.
Theorem C60_range_partial {N : NumOps} (s : pystr) :
  match csscolor_to_rgb (N:=N) s with
  | Ok (Lst l) => Forall channel l /\ (length l = 3 \/ length l = 4)
  | Ok (Tup (r, g, b)) => (-15 <= r <= 255)%Z /\ (-15 <= g <= 255)%Z /\ (-15 <= b <= 255)%Z
  | Raise e => e = OverflowError
  end.
Proof.
  unfold csscolor_to_rgb. set (t := map lower_ascii (strip s)).
  pose proof (csshex_range t) as Hh.
  destruct (starts_with (L "#") t); [exact Hh|]. destruct (starts_with (L "rgb") t).
  - destruct (cssrgb_range (N:=N) t) as [(l & -> & H1 & H2)| ->]; [split; assumption|reflexivity].
  - destruct (starts_with (L "hsl") t); [lia|]. destruct (color_get t CSS_COLORS) as [c|] eqn:E.
    + apply color_get_range in E. destruct c as [[r g] b]. unfold in_range, channel in E. lia.
    + destruct (forallb _ t); [exact Hh|lia].
Qed.
(** A sign is accepted in place of a hexadecimal digit, so a channel can be negative. *)
Theorem C60_negative_refuted {N : NumOps} : csscolor_to_rgb (N:=N) (L "#-f-f-f") = Ok (Tup (-15, -15, -15)%Z).
Proof. reflexivity. Qed.

(** rgb(r, g, b) with integers: each channel is the number, at most 255. *)
Definition rgb_text (b0 b1 b2 b3 b4 b5 : pystr) (r g b : list digit) : pystr :=
  L "rgb(" ++ (b0 ++ map digit_text r ++ b1) ++ ","%char :: (b2 ++ map digit_text g ++ b3) ++ ","%char :: (b4 ++ map digit_text b ++ b5) ++ L ")".
Lemma drop_app_stop (p : ascii -> bool) a c r : p c = false -> drop_while p (a ++ c :: r) = drop_while p a ++ c :: r.
Proof. intros H. induction a as [|x a IH]; cbn [app drop_while]; [now rewrite H|]. destruct (p x); auto. Qed.
Lemma Forall_drop_by (P : ascii -> Prop) (p : ascii -> bool) a : Forall P a -> Forall P (drop_while p a).
Proof. induction 1 as [|c a Hc Ha IH]; cbn [drop_while]; [constructor|]. destruct (p c); [exact IH|now constructor]. Qed.
Lemma lower_digit d : lower_ascii (digit_text d) = digit_text d.
Proof. now destruct d. Qed.
Lemma lower_blank b : Forall blank b -> map lower_ascii b = b.
Proof.
  induction 1 as [|c b Hc _ IH]; [reflexivity|]. cbn [map]. rewrite IH. f_equal. unfold blank in Hc. cbn in Hc.
  repeat (destruct Hc as [<-|Hc]; [reflexivity|]). destruct Hc.
Qed.
Lemma lower_digits ds : map lower_ascii (map digit_text ds) = map digit_text ds.
Proof. rewrite map_map. apply map_ext. exact lower_digit. Qed.
Lemma no_comma b ds b' : Forall blank b -> Forall blank b' -> ~ In ","%char (b ++ map digit_text ds ++ b').
Proof.
  intros H H'. assert (forall l, Forall blank l -> ~ In ","%char l) as Hb.
  { intros l Hl Hi. rewrite Forall_forall in Hl. specialize (Hl _ Hi). unfold blank in Hl. cbn in Hl. intuition discriminate. }
  rewrite !in_app_iff. intros [X|[X|X]]; [now apply (Hb b)| |now apply (Hb b')].
  apply in_map_iff in X as (d & E & _). destruct d; discriminate.
Qed.
Theorem C60_rgb {N : NumOps} b0 b1 b2 b3 b4 b5 r g b :
  Forall blank b0 -> Forall blank b1 -> Forall blank b2 -> Forall blank b3 -> Forall blank b4 -> Forall blank b5 ->
  r <> [] -> g <> [] -> b <> [] ->
  csscolor_to_rgb (N:=N) (rgb_text b0 b1 b2 b3 b4 b5 r g b) =
  Ok (Lst [Z.min (positional 0 r) 255; Z.min (positional 0 g) 255; Z.min (positional 0 b) 255]).
Proof.
  intros H0 H1 H2 H3 H4 H5 Hr Hg Hb. unfold csscolor_to_rgb.
  assert (strip (rgb_text b0 b1 b2 b3 b4 b5 r g b) = rgb_text b0 b1 b2 b3 b4 b5 r g b) as ->.
  { unfold strip. rewrite <- (app_nil_r (rgb_text b0 b1 b2 b3 b4 b5 r g b)) at 1.
    change (rgb_text b0 b1 b2 b3 b4 b5 r g b ++ []) with ([] ++ rgb_text b0 b1 b2 b3 b4 b5 r g b ++ []). apply strip_word; try constructor.
    - do 2 eexists. split; [unfold rgb_text; cbn [L list_ascii_of_string app]; reflexivity|reflexivity].
    - unfold rgb_text. exists ")"%char.
      exists (L "rgb(" ++ (b0 ++ map digit_text r ++ b1) ++ ","%char :: (b2 ++ map digit_text g ++ b3) ++ ","%char :: (b4 ++ map digit_text b ++ b5)).
      split; [|reflexivity]. rewrite <- !app_assoc. cbn [app]. rewrite <- !app_assoc. cbn [app]. rewrite <- !app_assoc. reflexivity. }
  assert (map lower_ascii (rgb_text b0 b1 b2 b3 b4 b5 r g b) = rgb_text b0 b1 b2 b3 b4 b5 r g b) as ->.
  { unfold rgb_text. repeat (rewrite ?map_app, ?map_cons). rewrite !lower_digits, (lower_blank b0), (lower_blank b1), (lower_blank b2), (lower_blank b3), (lower_blank b4), (lower_blank b5) by assumption. reflexivity. }
  assert (starts_with (L "#") (rgb_text b0 b1 b2 b3 b4 b5 r g b) = false) as -> by reflexivity.
  assert (starts_with (L "rgb") (rgb_text b0 b1 b2 b3 b4 b5 r g b) = true) as -> by reflexivity.
  unfold cssrgb_to_rgb.
  assert (strip (rgb_text b0 b1 b2 b3 b4 b5 r g b) = rgb_text b0 b1 b2 b3 b4 b5 r g b) as ->.
  { unfold strip. rewrite <- (app_nil_r (rgb_text b0 b1 b2 b3 b4 b5 r g b)) at 1.
    change (rgb_text b0 b1 b2 b3 b4 b5 r g b ++ []) with ([] ++ rgb_text b0 b1 b2 b3 b4 b5 r g b ++ []). apply strip_word; try constructor.
    - do 2 eexists. split; [unfold rgb_text; cbn [L list_ascii_of_string app]; reflexivity|reflexivity].
    - unfold rgb_text. exists ")"%char.
      exists (L "rgb(" ++ (b0 ++ map digit_text r ++ b1) ++ ","%char :: (b2 ++ map digit_text g ++ b3) ++ ","%char :: (b4 ++ map digit_text b ++ b5)).
      split; [|reflexivity]. rewrite <- !app_assoc. cbn [app]. rewrite <- !app_assoc. cbn [app]. rewrite <- !app_assoc. reflexivity. }
  set (p := fun c => cin c "rgba() ").
  assert (forall d, p (digit_text d) = false) as Hp by (intros []; reflexivity).
  set (b0' := drop_while p b0). set (b5' := rev (drop_while p (rev b5))).
  assert (strip_by p (rgb_text b0 b1 b2 b3 b4 b5 r g b) =
    (b0' ++ map digit_text r ++ b1) ++ ","%char :: (b2 ++ map digit_text g ++ b3) ++ ","%char :: (b4 ++ map digit_text b ++ b5')) as ->.
  { unfold strip_by, rgb_text. rewrite drop_all by (repeat constructor). rewrite <- !app_assoc.
    destruct r as [|x r]; [congruence|]. cbn [map app]. rewrite drop_app_stop by apply Hp. fold b0'.
    destruct (exists_last Hb) as (b' & y & ->). rewrite map_app. cbn [map].
    set (front := b0' ++ digit_text x :: map digit_text r ++ b1 ++ ","%char :: b2 ++ map digit_text g ++ b3 ++ ","%char :: b4 ++ map digit_text b').
    match goal with |- rev (drop_while p (rev ?l)) = ?rhs =>
      replace l with (front ++ digit_text y :: b5 ++ L ")");
      [replace rhs with (front ++ digit_text y :: b5')|] end.
    - rewrite rev_app_distr. cbn [rev]. rewrite rev_app_distr. rewrite <- !app_assoc. rewrite drop_all by (repeat constructor). cbn [app].
      rewrite drop_app_stop by apply Hp. rewrite rev_app_distr. cbn [rev]. rewrite rev_involutive, <- app_assoc. reflexivity.
    - unfold front. repeat (rewrite <- ?app_assoc; cbn [app]). reflexivity.
    - unfold front. repeat (rewrite <- ?app_assoc; cbn [app]). reflexivity. }
  assert (Forall blank b0') as H0' by now apply Forall_drop_by.
  assert (Forall blank b5') as H5' by (unfold b5'; now apply Forall_rev, Forall_drop_by, Forall_rev).
  rewrite split_app by now apply no_comma. rewrite split_app by now apply no_comma. rewrite split_none by now apply no_comma.
  cbn [firstn mapr]. rewrite !channel_integer by assumption. reflexivity.
Qed.
Example C60_rgb_example {N : NumOps} : csscolor_to_rgb (N:=N) (L "rgb(12, 300 ,0)") = Ok (Lst [12; 255; 0]%Z).
Proof. reflexivity. Qed.

(** Percentages, over R: rounded down to a whole channel value; below 0 and above 100 clamped. *)
Lemma channel_percent n : numeral_ok n ->
  parse_channel_value (N:=ROps) (numeral_text n ++ ["%"%char]) = Ok (Z.max (Z.min (Ztrunc (value n / 100 * 255)) 255) 0).
Proof.
  intros Hn. unfold parse_channel_value.
  pose proof (plain_numeral n) as Hpl. rewrite forallb_forall in Hpl.
  assert (forall c, In c (numeral_text n) -> is_ws c = false) as Hws.
  { intros c Hc. specialize (Hpl c Hc). unfold plain_char in Hpl. destruct (is_ws c); [discriminate|reflexivity]. }
  rewrite (strip_none (numeral_text n ++ ["%"%char])).
  2:{ intros c Hc. apply in_app_or in Hc as [Hc|[<-|[]]]; [auto|reflexivity]. }
  unfold ends_with_percent. rewrite rev_app_distr. cbn [rev app]. change (Ascii.eqb "%" "%") with true. cbv iota.
  destruct (numeral_last n Hn) as (t & c & E & Hc).
  assert (rev (drop_while (fun c => Ascii.eqb c "%") ("%"%char :: rev (numeral_text n))) = numeral_text n) as ->.
  { cbn [drop_while]. change (Ascii.eqb "%" "%") with true. cbv iota. rewrite E, rev_app_distr. cbn [rev app drop_while].
    assert (Ascii.eqb c "%" = false) as ->.
    { destruct Hc as [Hc| ->]; [|reflexivity]. destruct (Ascii.eqb_spec c "%") as [->|]; [discriminate|reflexivity]. }
    cbn [rev]. now rewrite rev_involutive. }
  unfold float_of. rewrite strip_none by exact Hws.
  destruct (take_sign (numeral_text n)) as [neg u] eqn:Es.
  assert (exists x v, u = x :: v /\ (is_digit x = true \/ x = "."%char)) as (x & v & -> & Hx).
  { destruct Hn as [Hn _]. unfold numeral_text in Es. rewrite take_sign_text in Es.
    2:{ unfold frac_digits in Hn. destruct (n_int n) as [|[] ?]; cbn [map app]; try (split; reflexivity).
        destruct (n_frac n); [split; reflexivity|]. cbn in Hn. congruence. }
    injection Es as _ <-. unfold frac_digits in Hn. destruct (n_int n) as [|d ds]; cbn [map app] in *.
    - destruct (n_frac n) as [f|]; [|congruence]. do 2 eexists. split; [reflexivity|now right].
    - do 2 eexists. split; [reflexivity|]. left. now destruct d. }
  assert (forall w, match w with [] => False | y :: _ => is_digit y = false /\ y <> "."%char end -> str_eqb (map lower_ascii (x :: v)) w = false) as Hne.
  { intros w Hw. destruct (str_eqb_spec (map lower_ascii (x :: v)) w) as [<-|]; [|reflexivity]. exfalso. cbn [map] in Hw.
    assert (lower_ascii x = x) as Hlx.
    { destruct Hx as [Hx| ->]; [|reflexivity]. destruct x as [[] [] [] [] [] [] [] []]; try discriminate; reflexivity. }
    rewrite Hlx in Hw. destruct Hw, Hx; congruence. }
  rewrite !Hne by (cbn; split; [reflexivity|discriminate]). cbn [orb].
  rewrite (py_float_text n Hn). reflexivity.
Qed.
Local Open Scope R_scope.
Theorem C60_channel_percent n : numeral_ok n -> exists k,
  parse_channel_value (N:=ROps) (numeral_text n ++ ["%"%char]) = Ok k /\
  (0 <= value n <= 100 -> IZR k <= 255 * value n / 100 < IZR k + 1) /\
  (value n < 0 -> k = 0%Z) /\ (100 < value n -> k = 255%Z).
Proof.
  intros Hn. rewrite channel_percent by exact Hn. eexists. split; [reflexivity|]. set (v := value n).
  replace (v / 100 * 255) with (255 * v / 100) by field.
  unfold Ztrunc. split; [|split].
  - intros Hv. destruct (Rlt_dec (255 * v / 100) 0); [lra|].
    destruct (Zfloor_spec (255 * v / 100)) as [B1 B2].
    assert (0 <= Zfloor (255 * v / 100) <= 255)%Z as [B3 B4].
    { split; [apply Z.lt_succ_r; apply lt_IZR; rewrite succ_IZR; lra|apply le_IZR; lra]. }
    rewrite Z.min_l, Z.max_l by lia. lra.
  - intros Hv. destruct (Rlt_dec (255 * v / 100) 0); [|lra].
    destruct (Zfloor_spec (- (255 * v / 100))) as [B1 B2].
    assert (0 <= Zfloor (- (255 * v / 100)))%Z by (apply Z.lt_succ_r; apply lt_IZR; rewrite succ_IZR; lra).
    lia.
  - intros Hv. destruct (Rlt_dec (255 * v / 100) 0); [lra|].
    destruct (Zfloor_spec (255 * v / 100)) as [B1 B2].
    assert (255 <= Zfloor (255 * v / 100))%Z by (apply Z.lt_succ_r; apply lt_IZR; rewrite succ_IZR; lra).
    lia.
Qed.
Example C60_percent_example : exists n, numeral_ok n /\ numeral_text n = L "50" /\ value n = 50.
Proof.
  exists (Numeral NoSign [D5; D0] None None). split; [|split; [reflexivity|reflexivity]].
  split; [discriminate|exact Logic.I].
Qed.
Local Close Scope R_scope.

(** ** C87: writing colours *)
Lemma fmt02x_digits n : channel n -> exists a b a' b', fmt02x n = [a'; b'] /\ hexdig a' a /\ hexdig b' b /\ n = Z.of_nat (16 * a + b).
Proof.
  intros [H1 H2].
  assert (forallb (fun k => match fmt02x (Z.of_nat k) with
    | [x; y] => Ascii.eqb x (nth (k / 16) (L "0123456789abcdef") " "%char) && Ascii.eqb y (nth (k mod 16) (L "0123456789abcdef") " "%char)
    | _ => false end) (seq 0 256) = true) as Ht by (vm_compute; reflexivity).
  rewrite forallb_forall in Ht. specialize (Ht (Z.to_nat n)). rewrite Z2Nat.id in Ht by lia.
  assert (In (Z.to_nat n) (seq 0 256)) as Hi by (apply in_seq; lia). specialize (Ht Hi).
  destruct (fmt02x n) as [|x [|y [|]]]; try discriminate. apply andb_true_iff in Ht as [E1 E2].
  apply Ascii.eqb_eq in E1, E2.
  exists (Z.to_nat n / 16), (Z.to_nat n mod 16), x, y. split; [reflexivity|].
  assert (Z.to_nat n / 16 < 16) as L1 by (apply Nat.div_lt_upper_bound; lia).
  assert (Z.to_nat n mod 16 < 16) as L2 by (apply Nat.mod_upper_bound; lia).
  split; [|split].
  - left. rewrite E1. apply nth_error_nth'. exact L1.
  - left. rewrite E2. apply nth_error_nth'. exact L2.
  - rewrite <- (Nat.div_mod_eq (Z.to_nat n) 16). lia.
Qed.
(** A colour in range is written as # and six hexadecimal digits, and reading that text gives the colour back. *)
Theorem C87_round_trip {N : NumOps} r g b : channel r -> channel g -> channel b ->
  (exists t ds, css_text (r, g, b) = "#"%char :: t /\ Forall2 hexdig t ds /\ length t = 6) /\
  csscolor_to_rgb (N:=N) (css_text (r, g, b)) = Ok (Tup (r, g, b)).
Proof.
  intros Hr Hg Hb. destruct (fmt02x_digits r Hr) as (a1 & a2 & x1 & x2 & E1 & A1 & A2 & ->).
  destruct (fmt02x_digits g Hg) as (a3 & a4 & x3 & x4 & E2 & A3 & A4 & ->).
  destruct (fmt02x_digits b Hb) as (a5 & a6 & x5 & x6 & E3 & A5 & A6 & ->).
  assert (css_text (Z.of_nat (16 * a1 + a2), Z.of_nat (16 * a3 + a4), Z.of_nat (16 * a5 + a6)) = ["#"%char; x1; x2; x3; x4; x5; x6]) as E.
  { unfold css_text. rewrite E1, E2, E3. reflexivity. }
  rewrite E. split.
  - exists [x1; x2; x3; x4; x5; x6], [a1; a2; a3; a4; a5; a6]. split; [reflexivity|]. split; [|reflexivity].
    repeat (apply Forall2_cons; [assumption|]). apply Forall2_nil.
  - apply (C60_hex6 ["#"%char] a1 a2 a3 a4 a5 a6 x1 x2 x3 x4 x5 x6 [] []); auto.
Qed.
(** So every text whose colour is a tuple in range is normalised to a text of the same colour... *)
Theorem C87_normalise_partial {N : NumOps} (s : pystr) r g b : csscolor_to_rgb (N:=N) s = Ok (Tup (r, g, b)) ->
  channel r -> channel g -> channel b ->
  exists t, csscolor_to_cssrgb (N:=N) (ColorText s) = Ok t /\ csscolor_to_rgb (N:=N) t = Ok (Tup (r, g, b)).
Proof.
  intros E Hr Hg Hb. unfold csscolor_to_cssrgb. rewrite E. cbn [rbind]. eexists. split; [reflexivity|]. now apply C87_round_trip.
Qed.
Example C87_example {N : NumOps} : csscolor_to_cssrgb (N:=N) (ColorText (L "Tomato ")) = Ok (L "#ff6347").
Proof. reflexivity. Qed.
(** ... but every colour in the form rgb(...) raises TypeError (the formatted value is a list, not a tuple). *)
Theorem C87_rgb_refuted {N : NumOps} (s : pystr) l : csscolor_to_rgb (N:=N) s = Ok (Lst l) ->
  csscolor_to_cssrgb (N:=N) (ColorText s) = Raise TypeError.
Proof. intros E. unfold csscolor_to_cssrgb. now rewrite E. Qed.
Theorem C87_rgb_example {N : NumOps} : csscolor_to_cssrgb (N:=N) (ColorText (L "rgb(1,2,3)")) = Raise TypeError.
Proof. reflexivity. Qed.
(** Numbers from 0 to 255: gray levels.  From 256 on black, and a malformed text below 0. *)
Theorem C87_gray_integer {N : NumOps} n : channel n -> exists t,
  csscolor_to_cssrgb (N:=N) (ColorInt n) = Ok t /\ csscolor_to_rgb (N:=N) t = Ok (Tup (n, n, n)).
Proof.
  intros H. unfold csscolor_to_cssrgb. assert (n <? 256 = true)%Z as -> by (apply Z.ltb_lt; unfold channel in H; lia).
  eexists. split; [reflexivity|]. now apply C87_round_trip.
Qed.
Theorem C87_gray_refuted {N : NumOps} : csscolor_to_cssrgb (N:=N) (ColorInt 256) = Ok (L "#000000") /\
  csscolor_to_cssrgb (N:=N) (ColorInt (-5)) = Ok (L "#-5-5-5").
Proof. split; reflexivity. Qed.
Local Open Scope R_scope.
(** Fractions of one, over R: black to white. *)
Theorem C87_gray_fraction x : 0 < x < 1 -> exists t k,
  csscolor_to_cssrgb (N:=ROps) (ColorFloat x) = Ok t /\ csscolor_to_rgb (N:=ROps) t = Ok (Tup (k, k, k)) /\
  IZR k <= 255 * x < IZR k + 1.
Proof.
  intros Hx. unfold csscolor_to_cssrgb. rnum.
  destruct (Rltb 0 x) eqn:E1; [|rbool; lra]. destruct (Rltb x 1) eqn:E2; [|rbool; lra]. cbn [andb].
  destruct (Zfloor_spec (x * 255)) as [B1 B2].
  assert (0 <= Zfloor (x * 255) <= 255)%Z as B3.
  { split; [apply Z.lt_succ_r; apply lt_IZR; rewrite succ_IZR; lra|apply le_IZR; lra]. }
  assert (Ztrunc (x * 255) = Zfloor (x * 255)) as ->. { unfold Ztrunc. destruct (Rlt_dec (x * 255) 0); [lra|reflexivity]. }
  do 2 eexists. split; [reflexivity|]. split; [apply C87_round_trip; exact B3|]. lra.
Qed.
