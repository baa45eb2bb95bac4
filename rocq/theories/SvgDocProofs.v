(** * SvgDocProofs: parse_transform_attr. *)
From Verif Require Import Num NumR Str Geom GeomR GeomProofs GeomProofs4 Svg SvgSpec SvgProofs SvgDoc SvgDocSpec.
From Coq Require Import String Ascii ZArith NArith List Bool Lia Reals Lra.
Import ListNotations.

Lemma blank_ws c : blank c -> is_ws c = true.
Proof. intros H. unfold blank in H. cbn in H. repeat (destruct H as [<-|H]; [reflexivity|]). destruct H. Qed.

Lemma gap_subst c : gapchar c -> is_ws (if Ascii.eqb c "," then " "%char else c) = true.
Proof.
  intros [H| ->]; [|reflexivity]. unfold blank in H. cbn in H.
  repeat (destruct H as [<-|H]; [reflexivity|]). destruct H.
Qed.

(** ** Characters of a numeral *)
Definition plain_char (c : ascii) : bool :=
  negb (is_ws c) && negb (Ascii.eqb c ",") && negb (Ascii.eqb c ")").
Lemma plain_digits ds : forallb plain_char (map digit_text ds) = true.
Proof. induction ds as [|[] ds IH]; cbn [map forallb]; auto. Qed.
Lemma plain_sgn s : forallb plain_char (sgn_text s) = true.
Proof. destruct s; reflexivity. Qed.
Lemma plain_numeral n : forallb plain_char (numeral_text n) = true.
Proof.
  unfold numeral_text. rewrite !forallb_app, plain_sgn, plain_digits. cbn [andb].
  destruct (n_frac n) as [f|]; cbn [forallb]; rewrite ?plain_digits.
  - change (plain_char ".") with true. cbn [andb].
    destruct (n_exp n) as [[[up s] ds]|]; [|reflexivity]. cbn [forallb].
    rewrite forallb_app, plain_sgn, plain_digits. destruct up; reflexivity.
  - cbn [andb]. destruct (n_exp n) as [[[up s] ds]|]; [|reflexivity]. cbn [forallb].
    rewrite forallb_app, plain_sgn, plain_digits. destruct up; reflexivity.
Qed.

Lemma plain_commas s : forallb plain_char s = true -> commas_to_spaces s = s.
Proof.
  induction s as [|c s IH]; [reflexivity|]. cbn [forallb commas_to_spaces map]. intros H.
  apply andb_true_iff in H as [H1 H2]. unfold plain_char in H1.
  destruct (Ascii.eqb c ","); [rewrite andb_false_r in H1; discriminate|]. f_equal. now apply IH.
Qed.

(** ** Splitting *)
Lemma split_gap g w r : Forall gapchar g ->
  split_ws_aux w (commas_to_spaces g ++ r) =
  match g with [] => split_ws_aux w r | _ => match w with [] => split_ws_aux [] r | _ => w :: split_ws_aux [] r end end.
Proof.
  intros H. revert w. induction H as [|c g Hc Hg IH]; intros w; [reflexivity|].
  cbn [commas_to_spaces map app split_ws_aux]. rewrite (gap_subst c Hc).
  fold (commas_to_spaces g).
  assert (split_ws_aux [] (commas_to_spaces g ++ r) = split_ws_aux [] r) as E by (rewrite IH; destruct g; reflexivity).
  destruct w; now rewrite E.
Qed.
Lemma split_plain t w r : forallb plain_char t = true ->
  split_ws_aux w (t ++ r) = split_ws_aux (w ++ t) r.
Proof.
  revert w. induction t as [|c t IH]; intros w H; [now rewrite app_nil_r|].
  cbn [forallb] in H. apply andb_true_iff in H as [H1 H2]. cbn [app split_ws_aux].
  unfold plain_char in H1. destruct (is_ws c); [discriminate|]. rewrite IH by exact H2.
  now rewrite <- app_assoc.
Qed.
Lemma commas_app a b : commas_to_spaces (a ++ b) = commas_to_spaces a ++ commas_to_spaces b.
Proof. apply map_app. Qed.

Lemma split_args ns a : Forall numeral_ok ns -> arglist ns a ->
  split_ws (commas_to_spaces a) = map numeral_text ns.
Proof.
  intros Hok H. unfold split_ws. induction H as [g Hg|g n l t Hg Hl IH Hsep].
  - rewrite <- (app_nil_r (commas_to_spaces g)), split_gap by exact Hg. destruct g; reflexivity.
  - inversion_clear Hok as [|? ? Hn Hl']. specialize (IH Hl').
    rewrite !commas_app, split_gap by exact Hg.
    rewrite (plain_commas (numeral_text n)) by apply plain_numeral.
    assert (split_ws_aux [] (numeral_text n ++ commas_to_spaces t) = numeral_text n :: map numeral_text l) as E.
    { rewrite split_plain by apply plain_numeral. cbn [app].
      destruct (numeral_text_end n Hn) as [Hne _].
      destruct t as [|c t].
      - destruct l as [|m l]; [|destruct Hsep as (? & ? & ? & _); [discriminate|discriminate]].
        cbn. destruct (numeral_text n); [congruence|reflexivity].
      - assert (gapchar c) as Hc.
        { destruct l as [|m l].
          - inversion Hl as [g0 Hg0 E1 E2|]. subst. now inversion Hg0.
          - destruct Hsep as (c' & r & [= <- <-] & Hc); [discriminate|exact Hc]. }
        cbn [commas_to_spaces map split_ws_aux]. rewrite (gap_subst c Hc). fold (commas_to_spaces t).
        destruct (numeral_text n) eqn:En; [congruence|]. f_equal.
        cbn [commas_to_spaces map split_ws_aux] in IH. rewrite (gap_subst c Hc) in IH. exact IH. }
    destruct g; exact E.
Qed.

Lemma mapr_floats {N : NumOps} ns : Forall numeral_ok ns ->
  mapr (py_float (N:=N)) (map numeral_text ns) = Ok (map numeral_value ns).
Proof.
  induction 1 as [|n ns Hn _ IH]; [reflexivity|]. cbn [map mapr].
  rewrite (py_float_text n Hn), IH. reflexivity.
Qed.

(** ** Scanning *)
Lemma args_no_paren ns a : arglist ns a -> forallb (fun c => negb (Ascii.eqb c ")")) a = true.
Proof.
  assert (forall g, Forall gapchar g -> forallb (fun c => negb (Ascii.eqb c ")")) g = true) as Hgap.
  { induction 1 as [|c g Hc _ IH]; [reflexivity|]. cbn [forallb]. rewrite IH, andb_true_r.
    destruct Hc as [Hc| ->]; [|reflexivity]. unfold blank in Hc. cbn in Hc.
    repeat (destruct Hc as [<-|Hc]; [reflexivity|]). destruct Hc. }
  induction 1 as [g Hg|g n l t Hg _ IH _]; [auto|].
  rewrite !forallb_app, IH, andb_true_r, (Hgap g Hg). cbn [andb].
  pose proof (plain_numeral n) as Hp. rewrite forallb_forall in *. intros c Hc. specialize (Hp c Hc).
  unfold plain_char in Hp. apply andb_true_iff in Hp. tauto.
Qed.
Lemma span_all (p : ascii -> bool) a c r : forallb p a = true -> p c = false -> span p (a ++ c :: r) = (a, c :: r).
Proof.
  intros Ha Hc. induction a as [|x a IH]; cbn [app span]; [now rewrite Hc|].
  cbn [forallb] in Ha. apply andb_true_iff in Ha as [H1 H2]. now rewrite H1, IH.
Qed.
Lemma drop_blanks b c r : Forall blank b -> is_ws c = false -> drop_while is_ws (b ++ c :: r) = c :: r.
Proof.
  intros H Hc. induction H as [|x b Hx _ IH]; cbn [app drop_while]; [now rewrite Hc|].
  now rewrite (blank_ws x Hx).
Qed.

Lemma keyword_name x r : match_keyword keywords (xname x ++ r) = Some (xname x, r).
Proof. destruct x; reflexivity. Qed.

Lemma gap_no_match c r : gapchar c -> match_transform (c :: r) = None.
Proof.
  intros [H| ->]; [|reflexivity]. unfold blank in H. cbn in H.
  repeat (destruct H as [<-|H]; [reflexivity|]). destruct H.
Qed.

(** what is left of the gap after a transform *)
Definition after_gap (t : pystr) : pystr :=
  let r4 := drop_while is_ws t in match r4 with c :: r5 => if Ascii.eqb c "," then r5 else r4 | [] => r4 end.

Lemma xlist_tail l c t : xlist l (c :: t) -> gapchar c -> xlist l t.
Proof.
  intros H Hc. inversion H as [g Hg E1 E2|g x b a l' t' Hg Hb Ha Ht E1 E2]; subst.
  - inversion Hg; subst. now constructor.
  - destruct g as [|c' g].
    + exfalso. cbn [app] in E2. destruct x; cbn in E2; injection E2 as <- _; destruct Hc as [Hc|Hc];
        try discriminate; unfold blank in Hc; cbn in Hc; intuition discriminate.
    + cbn [app] in E2. injection E2 as -> <-. inversion Hg; subst. now constructor.
Qed.
Lemma xlist_drop l t : xlist l t -> xlist l (drop_while is_ws t).
Proof.
  induction t as [|c t IH]; intros H; [exact H|]. cbn [drop_while]. destruct (is_ws c) eqn:E; [|exact H].
  apply IH. apply (xlist_tail l c t H). left. unfold is_ws in E. apply cin_In in E. exact E.
Qed.
Lemma xlist_after l t : xlist l t -> xlist l (after_gap t).
Proof.
  intros H. unfold after_gap. apply xlist_drop in H. destruct (drop_while is_ws t) as [|c r]; [exact H|].
  destruct (Ascii.eqb_spec c ",") as [->|]; [|exact H]. apply (xlist_tail _ _ _ H). now right.
Qed.
Lemma drop_length t : length (drop_while is_ws t) <= length t.
Proof. induction t as [|c t IH]; cbn [drop_while length]; [lia|]. destruct (is_ws c); cbn [length]; lia. Qed.
Lemma after_gap_length t : length (after_gap t) <= length t.
Proof.
  unfold after_gap. pose proof (drop_length t). destruct (drop_while is_ws t) as [|c r]; [lia|].
  destruct (Ascii.eqb c ","); cbn [length] in *; lia.
Qed.

Lemma match_transform_text x b a t : Forall blank b -> arglist (xargs x) a ->
  match_transform (xname x ++ b ++ "("%char :: a ++ ")"%char :: t) = Some (xname x, a, after_gap t).
Proof.
  intros Hb Ha. unfold match_transform. rewrite keyword_name, drop_blanks by (auto; reflexivity).
  change (Ascii.eqb "(" "(") with true. cbv iota.
  rewrite span_all; [reflexivity|now apply args_no_paren in Ha|reflexivity].
Qed.

Lemma findall_xlist k : forall s l, length s <= k -> xlist l s ->
  exists ps, findall k s = ps /\
    Forall2 (fun x (q : pystr * pystr) => fst q = xname x /\ arglist (xargs x) (snd q)) l ps.
Proof.
  induction k as [|k IH]; intros s l Hk H.
  - destruct s; [|cbn in Hk; lia]. exists []. split; [reflexivity|].
    inversion H as [|g x b a l' t' ? ? ? ? E1 E2]; subst; [constructor|].
    destruct g, x; discriminate.
  - destruct s as [|c s].
    { exists []. split; [reflexivity|].
      inversion H as [|g x b a l' t' ? ? ? ? E1 E2]; subst; [constructor|]. destruct g, x; discriminate. }
    cbn [length] in Hk. cbn [findall].
    inversion H as [g Hg E1 E2|g x b a l' t' Hg Hb Ha Ht E1 E2]; subst.
    + assert (gapchar c) as Hc by now inversion Hg.
      rewrite (gap_no_match c s Hc). apply IH; [lia|]. apply (xlist_tail _ c s H Hc).
    + destruct g as [|c' g].
      * cbn [app] in E2. cbn [app]. rewrite match_transform_text by assumption.
        destruct (IH (after_gap t') l') as (ps & E & HF).
        { pose proof (after_gap_length t'). apply (f_equal (@length ascii)) in E2.
          cbn [length] in E2. rewrite !app_length in E2. cbn [length] in E2. rewrite app_length in E2. cbn [length] in E2. lia. }
        { now apply xlist_after. }
        eexists. split; [reflexivity|]. rewrite E. constructor; [|exact HF]. split; [reflexivity|exact Ha].
      * rewrite E2. cbn [app] in E2. injection E2 as -> E2. assert (gapchar c) as Hc by now inversion Hg.
        rewrite (gap_no_match c s Hc). apply IH; [lia|]. apply (xlist_tail _ c s H Hc).
Qed.

(** ** Strip *)
Definition rtrim (s : pystr) : pystr := rev (drop_while is_ws (rev s)).
Lemma drop_stop u c v : is_ws c = false -> drop_while is_ws (u ++ c :: v) = drop_while is_ws u ++ c :: v.
Proof.
  intros Hc. induction u as [|x u IH]; cbn [app drop_while]; [now rewrite Hc|].
  destruct (is_ws x); [exact IH|reflexivity].
Qed.
Lemma rtrim_app u c t : is_ws c = false -> rtrim (u ++ c :: t) = u ++ c :: rtrim t.
Proof.
  intros Hc. unfold rtrim. rewrite rev_app_distr. cbn [rev]. rewrite <- app_assoc. cbn [app].
  rewrite drop_stop by exact Hc. rewrite rev_app_distr. cbn [rev]. rewrite rev_involutive, <- app_assoc. reflexivity.
Qed.
Lemma Forall_drop {P : ascii -> Prop} u : Forall P u -> Forall P (drop_while is_ws u).
Proof. induction 1 as [|c u Hc Hu IH]; cbn [drop_while]; [constructor|]. destruct (is_ws c); [exact IH|now constructor]. Qed.
Lemma xlist_rtrim l s : xlist l s -> xlist l (rtrim s).
Proof.
  induction 1 as [g Hg|g x b a l t Hg Hb Ha Ht IH].
  - constructor. unfold rtrim. apply Forall_rev, Forall_drop, Forall_rev, Hg.
  - replace (g ++ xname x ++ b ++ "("%char :: a ++ ")"%char :: t)
      with ((g ++ xname x ++ b ++ "("%char :: a) ++ ")"%char :: t) by (rewrite <- !app_assoc; reflexivity).
    rewrite rtrim_app by reflexivity. rewrite <- !app_assoc. cbn [app]. now constructor.
Qed.
Lemma xlist_strip l s : xlist l s -> xlist l (strip s).
Proof. intros H. unfold strip, strip_by. apply (xlist_rtrim l (drop_while is_ws s)). now apply xlist_drop. Qed.

(** ** The matrices *)
Definition xmat {N : NumOps} (t : xform) : mat N :=
  let v := numeral_value in
  match t with
  | XTranslate x y => translate (v x) (match y with Some y => v y | None => of_Z 0 end)
  | XScale x y => mscale (v x) (match y with Some y => v y | None => v x end) None
  | XRotate a None => mrotate (radians (v a)) (P (of_Z 0) (of_Z 0))
  | XRotate a (Some (x, y)) => mrotate (radians (v a)) (P (v x) (v y))
  | XSkewX a => skew_x (radians (v a))
  | XSkewY a => skew_y (radians (v a))
  | XMatrix a b c d e f => Mx (v a) (v c) (v e) (v b) (v d) (v f)
  end.
Lemma transform_matrix_x {N : NumOps} x : transform_matrix (N:=N) (xname x) (map numeral_value (xargs x)) = Ok (Some (xmat x)).
Proof. destruct x as [? []|? []|? [[? ?]|]| | |]; reflexivity. Qed.

Lemma transform_matrices_x {N : NumOps} l ps : Forall xform_ok l ->
  Forall2 (fun x (q : pystr * pystr) => fst q = xname x /\ arglist (xargs x) (snd q)) l ps ->
  transform_matrices (N:=N) ps = Ok (map xmat l).
Proof.
  intros Hok H. induction H as [|x [n a] l ps [E1 E2] _ IH]; [reflexivity|].
  inversion_clear Hok as [|? ? Hx Hl]. cbn [fst snd] in *. subst n.
  cbn [transform_matrices]. rewrite (split_args _ _ Hx E2), (mapr_floats (xargs x) Hx). cbn [rbind].
  rewrite transform_matrix_x. cbn [rbind]. rewrite (IH Hl). reflexivity.
Qed.

Lemma parse_transform_any {N : NumOps} l s : Forall xform_ok l -> l <> [] -> xlist l s ->
  parse_transform_attr (N:=N) (Some s) = Ok (fold_left compose (map xmat l) IDENTITY).
Proof.
  intros Hok Hne H. unfold parse_transform_attr.
  assert (forallb is_ws s = false) as ->.
  { destruct (forallb is_ws s) eqn:E; [|reflexivity]. exfalso.
    inversion H as [|g x b a l' t' ? ? ? ? E1 E2]; subst; [congruence|].
    rewrite forallb_forall in E. assert (In "("%char (g ++ xname x ++ b ++ "("%char :: a ++ ")"%char :: t')) as Hi.
    { apply in_or_app; right. apply in_or_app; right. apply in_or_app; right. now left. }
    specialize (E _ Hi). discriminate. }
  destruct (findall_xlist (length (strip s)) (strip s) l (le_n _) (xlist_strip _ _ H)) as (ps & -> & HF).
  rewrite (transform_matrices_x l ps Hok HF). reflexivity.
Qed.

(** ** Over R *)
Local Open Scope R_scope.
Definition as_pt (p : R * R) : pt ROps := P (fst p) (snd p).

Lemma apply_xmat x p : apply (xmat (N:=ROps) x) (as_pt p) = as_pt (acts x p).
Proof.
  destruct p as [px py]. unfold as_pt. cbn [fst snd].
  destruct x as [a [b|]|a [b|]|a [[cx cy]|]|a|a|a b c d e f]; unfold xmat, acts, value, degree, mrotate, compose, translate, mscale, skew_x, skew_y, apply, radians;
    cbn [m00 m01 m02 m10 m11 m12 Geom.px Geom.py fst snd]; generalize (@numeral_value ROps); intros v; rnum; f_equal;
    match goal with |- ?a = ?b => change (@eq R a b) end; try ring.
Qed.

Lemma apply_fold ms (m : mat ROps) p :
  apply (fold_left compose ms m) p = apply m (fold_right (fun k q => apply k q) p ms).
Proof.
  revert m. induction ms as [|k ms IH]; intros m; [reflexivity|]. cbn [fold_left fold_right].
  rewrite IH, apply_compose. reflexivity.
Qed.
Lemma apply_identity (p : pt ROps) : apply IDENTITY p = p.
Proof. destruct p. unfold apply, IDENTITY. cbn. f_equal; match goal with |- ?a = ?b => change (@eq R a b) end; rnum; ring. Qed.

Lemma transform_points l s : Forall xform_ok l -> xlist l s ->
  exists m, parse_transform_attr (N:=ROps) (Some s) = Ok m /\ forall p, apply m (as_pt p) = as_pt (acts_all l p).
Proof.
  intros Hok H. destruct l as [|x l].
  - assert (parse_transform_attr (N:=ROps) (Some s) = Ok IDENTITY) as E.
    { unfold parse_transform_attr. destruct (forallb is_ws s); [reflexivity|].
      destruct (findall_xlist (length (strip s)) (strip s) [] (le_n _) (xlist_strip _ _ H)) as (ps & -> & HF).
      inversion HF. reflexivity. }
    exists IDENTITY. split; [exact E|]. intros p. apply apply_identity.
  - exists (fold_left compose (map xmat (x :: l)) IDENTITY). split; [apply parse_transform_any; auto; discriminate|].
    intros p. rewrite apply_fold, apply_identity. generalize (x :: l). intros l'. unfold acts_all.
    induction l' as [|y l' IH]; [reflexivity|]. cbn [map fold_right]. rewrite IH. apply apply_xmat.
Qed.
