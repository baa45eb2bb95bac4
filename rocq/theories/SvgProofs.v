(** * SvgProofs: the path tokenizer and number literals. *)
From Coq Require Import String Ascii ZArith NArith List Bool Lia.
From Verif Require Import Num Str Svg SvgSpec.
Import ListNotations.

(** ** Characters *)
Lemma digit_char_class d :
  cin (digit_text d) "0123456789eE" = true /\ is_digit (digit_text d) = true /\
  digit_val (digit_text d) = digit_value d.
Proof. destruct d; repeat split; reflexivity. Qed.

Lemma sep_class c : is_sep c ->
  cin c "0123456789eE" = false /\ cin c COMMA_WSP = true /\ cin c "MmZzLlHhVvCcSsQqTtAa" = false /\
  Ascii.eqb c "." = false /\ cin c "+-" = false.
Proof.
  intros H. unfold is_sep in H. cbn in H.
  repeat (destruct H as [<-|H]; [repeat split; reflexivity|]). destruct H.
Qed.

Lemma letter_class c : is_letter c ->
  cin c "0123456789eE" = false /\ cin c COMMA_WSP = false /\ cin c "MmZzLlHhVvCcSsQqTtAa" = true.
Proof.
  intros H. unfold is_letter in H. cbn in H.
  repeat (destruct H as [<-|H]; [repeat split; reflexivity|]). destruct H.
Qed.

Lemma cin_In c s : cin c s = true -> In c (L s).
Proof.
  unfold cin. intros H. apply existsb_exists in H as (x & Hx & E).
  apply Ascii.eqb_eq in E. now subst.
Qed.
Lemma In_cin c s : In c (L s) -> cin c s = true.
Proof. intros H. apply existsb_exists. exists c. split; [exact H|apply Ascii.eqb_refl]. Qed.

Lemma sign_class x : cin x "+-" = true ->
  cin x "0123456789eE" = false /\ cin x COMMA_WSP = false /\ cin x "MmZzLlHhVvCcSsQqTtAa" = false
  /\ Ascii.eqb x "." = false.
Proof.
  intros H. apply cin_In in H.
  repeat (destruct H as [<-|H]; [repeat split; reflexivity|]). destruct H.
Qed.

(** ** Consuming items *)
Lemma tok_digits f e ds r :
  tokenize f e (map digit_text ds ++ r) = tokenize f (e ++ map digit_text ds) r.
Proof.
  revert e. induction ds as [|d ds IH]; intros e; cbn [map app].
  - now rewrite app_nil_r.
  - cbn [tokenize]. rewrite (proj1 (digit_char_class d)), IH, <- app_assoc. reflexivity.
Qed.

Lemma tok_seps sep r : Forall is_sep sep -> tokenize false [] (sep ++ r) = tokenize false [] r.
Proof.
  induction 1 as [|c sep Hc _ IH]; [reflexivity|].
  destruct (sep_class c Hc) as (H1 & H2 & H3 & H4 & H5).
  cbn [app tokenize]. rewrite H1, H2, H3, H4, H5. exact IH.
Qed.

Lemma tok_flush_sep f e c r : e <> [] -> is_sep c ->
  tokenize f e (c :: r) = (e, false) :: tokenize false [] r.
Proof.
  intros He Hc. destruct (sep_class c Hc) as (H1 & H2 & _).
  cbn [tokenize]. rewrite H1, H2. destruct e; [congruence|reflexivity].
Qed.

Definition has_point (i : item) : bool :=
  match i with Num n => match n_frac n with Some _ => true | None => false end | _ => false end.

Definition frac_text (n : numeral) : pystr :=
  match n_frac n with Some f => "."%char :: map digit_text f | None => [] end.
Definition exp_text (n : numeral) : pystr :=
  match n_exp n with
  | Some (up, s, ds) => (if up then "E"%char else "e"%char) :: sgn_text s ++ map digit_text ds
  | None => [] end.

Lemma tok_exp f e n r : tokenize f e (exp_text n ++ r) = tokenize f (e ++ exp_text n) r.
Proof.
  unfold exp_text. destruct (n_exp n) as [[[up s] ds]|]; [|now rewrite app_nil_r].
  set (c := if up then "E"%char else "e"%char).
  cbn [app tokenize].
  assert (Hc : cin c "0123456789eE" = true) by (destruct up; reflexivity).
  assert (Hc' : cin c "eE" = true) by (destruct up; reflexivity).
  rewrite Hc, <- app_assoc.
  assert (forall x, cin x "+-" = true -> tokenize f (e ++ [c]) (x :: map digit_text ds ++ r)
                                       = tokenize f (e ++ [c] ++ [x]) (map digit_text ds ++ r)) as Hs.
  { intros x Hx. cbn [tokenize].
    destruct (sign_class x Hx) as (A1 & A2 & A3 & A4).
    rewrite A1, A2, A3, A4, Hx. cbn [andb].
    rewrite last_last, Hc'.
    destruct (e ++ [c]) eqn:E; [destruct e; discriminate|].
    rewrite <- E, <- app_assoc. reflexivity. }
  destruct s; cbn [sgn_text app].
  - rewrite tok_digits, <- app_assoc. reflexivity.
  - rewrite Hs by reflexivity. rewrite tok_digits, <- app_assoc. reflexivity.
  - rewrite Hs by reflexivity. rewrite tok_digits, <- app_assoc. reflexivity.
Qed.

Lemma tok_point e r : tokenize false e ("."%char :: r) = tokenize true (e ++ ["."%char]) r.
Proof. cbn [tokenize]. destruct e; reflexivity. Qed.

Lemma tok_numeral n r :
  tokenize false [] (numeral_text n ++ r) = tokenize (has_point (Num n)) (numeral_text n) r.
Proof.
  unfold numeral_text. fold (frac_text n) (exp_text n).
  assert (forall e, tokenize false e ((map digit_text (n_int n) ++ frac_text n ++ exp_text n) ++ r)
    = tokenize (has_point (Num n)) (e ++ map digit_text (n_int n) ++ frac_text n ++ exp_text n) r) as Hb.
  { intros e. rewrite <- !app_assoc, tok_digits. unfold frac_text, has_point.
    destruct (n_frac n) as [f|]; cbn [app].
    - rewrite tok_point, tok_digits, tok_exp. f_equal. now rewrite <- !app_assoc.
    - rewrite tok_exp. f_equal. now rewrite <- !app_assoc. }
  destruct (n_sgn n); cbn [sgn_text app].
  - exact (Hb []).
  - change (tokenize false [] ("+"%char :: (map digit_text (n_int n) ++ frac_text n ++ exp_text n) ++ r))
      with (tokenize false ["+"%char] ((map digit_text (n_int n) ++ frac_text n ++ exp_text n) ++ r)).
    exact (Hb ["+"%char]).
  - change (tokenize false [] ("-"%char :: (map digit_text (n_int n) ++ frac_text n ++ exp_text n) ++ r))
      with (tokenize false ["-"%char] ((map digit_text (n_int n) ++ frac_text n ++ exp_text n) ++ r)).
    exact (Hb ["-"%char]).
Qed.

Lemma app_nonempty {A} (l l' : list A) : (l = [] /\ l' = []) \/ l ++ l' <> [].
Proof. destruct l; [destruct l'; [left|right]|right]; auto; discriminate. Qed.

Lemma last_app_ne {A} (l l' : list A) d : l' <> [] -> last (l ++ l') d = last l' d.
Proof.
  intros H. destruct (exists_last H) as (x & y & ->).
  now rewrite app_assoc, !last_last.
Qed.

Lemma last_digits ds d : ds <> [] -> cin (last (map digit_text ds) d) "eE" = false.
Proof.
  intros H. destruct (exists_last H) as (x & y & ->).
  rewrite map_app. cbn [map]. rewrite last_last. destruct y; reflexivity.
Qed.

Lemma numeral_text_end n : numeral_ok n ->
  numeral_text n <> [] /\ cin (last (numeral_text n) " "%char) "eE" = false.
Proof.
  intros [H1 H2].
  assert (numeral_text n <> []) as Hne.
  { unfold numeral_text, frac_digits in *.
    destruct (n_int n), (n_frac n) as [[|]|], (n_sgn n); try discriminate;
      cbn in H1; congruence. }
  split; [exact Hne|].
  unfold numeral_text in *. fold (frac_text n) (exp_text n) in *.
  destruct (n_exp n) as [[[up s] ds]|] eqn:E.
  - unfold exp_text. rewrite E. rewrite !app_assoc.
    rewrite last_app_ne by discriminate.
    rewrite app_comm_cons, last_app_ne by (destruct ds; [congruence|discriminate]).
    now apply last_digits.
  - unfold exp_text. rewrite E, app_nil_r.
    unfold frac_digits, frac_text in *. destruct (n_frac n) as [f|].
    + rewrite !app_assoc. rewrite last_app_ne by discriminate.
      change ("."%char :: map digit_text f) with (["."%char] ++ map digit_text f).
      destruct f as [|d f]; [reflexivity|].
      rewrite last_app_ne by discriminate. now apply last_digits.
    + rewrite app_nil_r in H1 |- *.
      rewrite last_app_ne by (destruct (n_int n); [congruence|discriminate]).
      now apply last_digits.
Qed.

Lemma tok_item i r : (forall c, i <> Cmd c) ->
  tokenize false [] (item_text i ++ r) = tokenize (has_point i) (item_text i) r.
Proof.
  intros H. destruct i as [c|n|b].
  - now destruct (H c).
  - apply tok_numeral.
  - destruct b; reflexivity.
Qed.

Lemma item_text_end i : item_ok i -> (forall c, i <> Cmd c) ->
  item_text i <> [] /\ cin (last (item_text i) " "%char) "eE" = false.
Proof.
  intros H Hn. destruct i as [c|n|b].
  - now destruct (Hn c).
  - now apply numeral_text_end.
  - destruct b; split; (discriminate || reflexivity).
Qed.

Lemma spells_head j l t : spells (j :: l) t -> exists r, t = item_text j ++ r.
Proof. inversion 1; eauto. Qed.

(** reaching an item that may touch the number before it *)
Lemma tok_touch i j r : item_ok i -> item_ok j -> (forall c, i <> Cmd c) -> may_touch i j ->
  tokenize (has_point i) (item_text i) (item_text j ++ r)
  = (item_text i, false) :: tokenize false [] (item_text j ++ r).
Proof.
  intros Hi Hj Hn Ht. destruct (item_text_end i Hi Hn) as [Hne Hl].
  destruct j as [c|n|b].
  - cbn [item_text app]. destruct (letter_class c Hj) as (A1 & A2 & A3).
    cbn [tokenize]. rewrite A1, A2, A3. cbn [andb].
    destruct (item_text i); [congruence|reflexivity].
  - destruct i as [c|m|b]; [now destruct (Hn c)| |].
    + cbn [may_touch] in Ht. destruct Ht as [Hs|(Hi0 & m' & f & [= <-] & Hf)].
      * unfold item_text. unfold numeral_text at 2 4. destruct (n_sgn n); [congruence| |];
          cbn [sgn_text app tokenize andb cin existsb]; cbn [item_text] in Hne, Hl;
          destruct (numeral_text m) eqn:E; try congruence; rewrite <- E in *;
          cbn [cin existsb] ; unfold cin at 1; cbn -[tokenize numeral_text last cin];
          rewrite Hl; reflexivity.
      * destruct Hj as [Hj _]. unfold frac_digits in Hj. rewrite Hi0 in Hj.
        destruct (n_sgn n) eqn:Es.
        2,3: unfold item_text; unfold numeral_text at 2 4; rewrite Es;
          cbn [sgn_text app tokenize andb cin existsb]; cbn [item_text] in Hne, Hl;
          destruct (numeral_text m) eqn:E; try congruence; rewrite <- E in *;
          cbn -[tokenize numeral_text last cin]; rewrite Hl; reflexivity.
        destruct (n_frac n) as [g|] eqn:Eg; [|now cbn in Hj].
        unfold has_point. rewrite Hf. unfold item_text. unfold numeral_text at 2 4. rewrite Es, Hi0, Eg.
        cbn [sgn_text map app tokenize]. destruct (numeral_text m); reflexivity.
    + cbn [may_touch] in Ht. destruct Ht as [Hs|(_ & m & f & [=] & _)].
      unfold item_text. unfold numeral_text. destruct (n_sgn n), b; try congruence; reflexivity.
  - destruct i as [c| |]; [now destruct (Hn c)|destruct Ht|destruct Ht].
Qed.

Definition tok_of (i : item) : token :=
  (item_text i, match i with Cmd _ => true | _ => false end).

Lemma is_cmd_dec i : (exists c, i = Cmd c) \/ (forall c, i <> Cmd c).
Proof. destruct i; [left; eauto|right; discriminate|right; discriminate]. Qed.

Lemma tok_spells l t : Forall item_ok l -> spells l t -> tokenize false [] t = map tok_of l.
Proof.
  intros Hok Hs. induction Hs as [|i t Ht|i j l gap t Hg Htouch Hs IH].
  - reflexivity.
  - inversion_clear Hok as [|? ? Hi _].
    destruct (is_cmd_dec i) as [[c ->]|Hn].
    + cbn [item_text app tokenize map tok_of]. destruct (letter_class c Hi) as (A1 & A2 & A3).
      rewrite A1, A2, A3. cbn [andb]. rewrite <- (app_nil_r t), tok_seps by assumption. reflexivity.
    + rewrite tok_item by assumption. destruct (item_text_end i Hi Hn) as [Hne _].
      cbn [map]. unfold tok_of.
      replace (match i with Cmd _ => true | _ => false end) with false by (destruct i; [now destruct (Hn c)| |]; reflexivity).
      destruct t as [|c t].
      * cbn [tokenize]. destruct (item_text i); [congruence|reflexivity].
      * inversion_clear Ht. rewrite tok_flush_sep by assumption.
        rewrite <- (app_nil_r t), tok_seps by assumption. reflexivity.
  - inversion_clear Hok as [|? ? Hi Hok']. specialize (IH Hok').
    assert (Hj : item_ok j) by now inversion Hok'.
    destruct (is_cmd_dec i) as [[c ->]|Hn].
    + cbn [item_text app tokenize map tok_of]. destruct (letter_class c Hi) as (A1 & A2 & A3).
      rewrite A1, A2, A3. cbn [andb]. rewrite tok_seps by assumption. now rewrite IH.
    + rewrite tok_item by assumption. destruct (item_text_end i Hi Hn) as [Hne _].
      cbn [map]. unfold tok_of at 1.
      replace (match i with Cmd _ => true | _ => false end) with false by (destruct i; [now destruct (Hn c)| |]; reflexivity).
      destruct gap as [|c gap].
      * cbn [app]. destruct (spells_head _ _ _ Hs) as [r ->].
        rewrite tok_touch by auto. rewrite IH. reflexivity.
      * inversion_clear Hg. cbn [app]. rewrite tok_flush_sep by assumption.
        rewrite tok_seps by assumption. now rewrite IH.
Qed.

Lemma tok_written l s : Forall item_ok l -> written l s -> path_tokenizer s = map tok_of l.
Proof.
  intros Hok (sep & t & Hsep & Hs & ->). unfold path_tokenizer.
  rewrite tok_seps by assumption. now apply tok_spells.
Qed.

(** ** Any string *)
Definition significant (c : ascii) : bool :=
  cin c "0123456789eE" || cin c "MmZzLlHhVvCcSsQqTtAa" || Ascii.eqb c "." || cin c "+-".
Definition number_char (c : ascii) : bool :=
  cin c "0123456789eE" || Ascii.eqb c "." || cin c "+-".

Lemma cin_excl c : cin c COMMA_WSP = true -> significant c = false.
Proof.
  intros H. apply cin_In in H.
  repeat (destruct H as [<-|H]; [reflexivity|]). destruct H.
Qed.

Lemma tok_concat f e s :
  concat (map fst (tokenize f e s)) = e ++ filter significant s.
Proof.
  revert f e. induction s as [|c s IH]; intros f e.
  - cbn. destruct e; cbn; now rewrite ?app_nil_r.
  - cbn [tokenize filter].
    destruct (cin c "0123456789eE") eqn:E1.
    { unfold significant. rewrite E1. cbn [orb]. rewrite IH, <- app_assoc. reflexivity. }
    destruct (cin c COMMA_WSP) eqn:E2.
    { rewrite (cin_excl c E2). pose proof (cin_excl c E2) as X. unfold significant in X.
      apply orb_false_iff in X as [X X4]. apply orb_false_iff in X as [X X3].
      apply orb_false_iff in X as [X1 X2]. rewrite X2, X3, X4.
      destruct e; cbn [andb negb]; [now rewrite IH|]. cbn [map concat fst]. now rewrite IH. }
    cbn [andb].
    destruct (cin c "MmZzLlHhVvCcSsQqTtAa") eqn:E3.
    { unfold significant. rewrite E1, E3. cbn [orb].
      destruct e; cbn [map concat fst]; rewrite IH; reflexivity. }
    destruct (Ascii.eqb c ".") eqn:E4.
    { unfold significant. rewrite E1, E3, E4. cbn [orb]. apply Ascii.eqb_eq in E4. subst c.
      destruct f; [cbn [map concat fst]; now rewrite IH|].
      now rewrite IH, <- app_assoc. }
    destruct (cin c "+-") eqn:E5.
    { unfold significant. rewrite E1, E3, E4, E5. cbn [orb].
      destruct e as [|x e]; [now rewrite IH|].
      destruct (cin (last (x :: e) " "%char) "eE"); [now rewrite IH, <- app_assoc|].
      cbn [map concat fst]. now rewrite IH. }
    unfold significant. rewrite E1, E3, E4, E5. cbn [orb]. apply IH.
Qed.

Lemma tok_shapes f e s : forallb number_char e = true -> (f = true -> e <> []) ->
  Forall (fun t : token =>
    if snd t then exists c, fst t = [c] /\ cin c "MmZzLlHhVvCcSsQqTtAa" = true
    else fst t <> [] /\ forallb number_char (fst t) = true) (tokenize f e s).
Proof.
  revert f e. induction s as [|c s IH]; intros f e He Hf.
  - cbn. destruct e; constructor; [|constructor]. cbn [snd fst]. split; [discriminate|exact He].
  - cbn [tokenize].
    assert (forall x, number_char x = true -> forallb number_char (e ++ [x]) = true) as Hx.
    { intros x Hx. rewrite forallb_app, He, andb_true_l. cbn [forallb]. now rewrite Hx. }
    assert (forall x, number_char x = true -> forallb number_char [x] = true) as Hx1.
    { intros x Hx'. cbn [forallb]. now rewrite Hx'. }
    assert (forall x, e ++ [x] <> []) as Hne by (intros x; destruct e; discriminate).
    destruct (cin c "0123456789eE") eqn:E1.
    { apply IH; [|intros _; apply Hne]. apply Hx. unfold number_char. now rewrite E1. }
    destruct (cin c COMMA_WSP && _) eqn:E2.
    { constructor; [|now apply IH]. cbn [fst snd]. apply andb_true_iff in E2 as [_ E2].
      destruct e; [discriminate|]. split; [discriminate|exact He]. }
    destruct (cin c "MmZzLlHhVvCcSsQqTtAa") eqn:E3.
    { destruct e as [|x e].
      - constructor; [cbn [fst snd]; eauto|]. now apply IH.
      - constructor; [split; [discriminate|exact He]|].
        constructor; [cbn [fst snd]; eauto|]. now apply IH. }
    destruct (Ascii.eqb c ".") eqn:E4.
    { destruct f.
      - constructor; [cbn [fst snd]; split; [now apply Hf|exact He]|].
        apply IH; [reflexivity|discriminate].
      - apply IH; [now apply Hx|intros _; apply Hne]. }
    destruct (cin c "+-") eqn:E5.
    { assert (number_char c = true) as Hc by (unfold number_char; now rewrite E5, !orb_true_r).
      destruct e as [|x e]; [apply IH; [now apply Hx1|discriminate]|].
      destruct (cin (last (x :: e) " "%char) "eE").
      - apply IH; [now apply Hx|discriminate].
      - constructor; [split; [discriminate|exact He]|]. apply IH; [now apply Hx1|discriminate]. }
    now apply IH.
Qed.

(** ** Number literals *)
Lemma span_digits ds r :
  match r with c :: _ => is_digit c = false | [] => True end ->
  span is_digit (map digit_text ds ++ r) = (map digit_text ds, r).
Proof.
  intros Hr. induction ds as [|d ds IH]; cbn [map app span].
  - destruct r as [|c r]; [reflexivity|]. cbn [span]. now rewrite Hr.
  - destruct (digit_char_class d) as (_ & Hd & _). now rewrite Hd, IH.
Qed.

Lemma digits_Z_positional ds a :
  fold_left (fun n c => n * 10 + digit_val c)%Z (map digit_text ds) a = positional a ds.
Proof.
  revert a. induction ds as [|d ds IH]; intros a; cbn [map fold_left positional]; [reflexivity|].
  rewrite IH. destruct (digit_char_class d) as (_ & _ & ->). f_equal. lia.
Qed.

Lemma take_sign_text s r :
  match r with c :: _ => Ascii.eqb c "-" = false /\ Ascii.eqb c "+" = false | [] => True end ->
  take_sign (sgn_text s ++ r) = (match s with Minus => true | _ => false end, r).
Proof.
  intros H. destruct s; cbn [sgn_text app].
  - destruct r as [|c r]; [reflexivity|]. destruct H as [H1 H2]. cbn [take_sign]. now rewrite H1, H2.
  - reflexivity.
  - reflexivity.
Qed.

Lemma head_digits ds r :
  match r with c :: _ => Ascii.eqb c "-" = false /\ Ascii.eqb c "+" = false | [] => True end ->
  match map digit_text ds ++ r with c :: _ => Ascii.eqb c "-" = false /\ Ascii.eqb c "+" = false | [] => True end.
Proof. intros H. destruct ds as [|d ds]; [exact H|]. destruct d; split; reflexivity. Qed.

Lemma py_int_text s ds : ds <> [] ->
  py_int (sgn_text s ++ map digit_text ds) = Ok (signed s (positional 0 ds)).
Proof.
  intros Hd. unfold py_int. rewrite take_sign_text.
  2:{ rewrite <- (app_nil_r (map _ _)). now apply head_digits. }
  rewrite <- (app_nil_r (map _ _)), span_digits by exact Logic.I.
  unfold digits_Z. destruct ds as [|d ds]; [congruence|].
  rewrite <- (digits_Z_positional (d :: ds) 0). cbn [map]. destruct s; reflexivity.
Qed.

Lemma exp_text_head n : match exp_text n with
  | c :: _ => is_digit c = false /\ Ascii.eqb c "." = false /\
              Ascii.eqb c "-" = false /\ Ascii.eqb c "+" = false
  | [] => True end.
Proof. unfold exp_text. destruct (n_exp n) as [[[[] ?] ?]|]; repeat split. Qed.

Lemma decimal_text n : numeral_ok n ->
  decimal (numeral_text n) =
    Ok (match n_sgn n with Minus => true | _ => false end,
        positional 0 (n_int n ++ frac_digits n),
        exponent n - Z.of_nat (length (frac_digits n)))%Z.
Proof.
  intros [H1 H2]. unfold decimal, numeral_text. fold (frac_text n) (exp_text n).
  pose proof (exp_text_head n) as He.
  assert (match frac_text n ++ exp_text n with c :: _ => Ascii.eqb c "-" = false /\ Ascii.eqb c "+" = false | [] => True end) as Hfe.
  { unfold frac_text. destruct (n_frac n); [cbn [app]; split; reflexivity|].
    cbn [app]. destruct (exp_text n); [exact Logic.I|tauto]. }
  rewrite take_sign_text by (apply head_digits; exact Hfe).
  rewrite span_digits.
  2:{ unfold frac_text. destruct (n_frac n); [reflexivity|].
      cbn [app]. destruct (exp_text n); [exact Logic.I|tauto]. }
  assert ((match frac_text n ++ exp_text n with
           | [] => ([], frac_text n ++ exp_text n)
           | c :: q => if Ascii.eqb c "." then span is_digit q else ([], frac_text n ++ exp_text n)
           end) = (map digit_text (frac_digits n), exp_text n)) as ->.
  { unfold frac_text, frac_digits. destruct (n_frac n) as [f|].
    - cbn [app]. replace (Ascii.eqb "." ".") with true by reflexivity.
      apply span_digits. destruct (exp_text n); [exact Logic.I|tauto].
    - cbn [app map]. destruct (exp_text n); [reflexivity|].
      destruct He as (_ & -> & _). reflexivity. }
  rewrite <- map_app, map_length.
  unfold digits_Z. rewrite <- (digits_Z_positional (n_int n ++ frac_digits n) 0).
  destruct (map digit_text (n_int n ++ frac_digits n)) eqn:E.
  { destruct (n_int n ++ frac_digits n); [congruence|discriminate]. }
  rewrite <- E.
  unfold exp_text, exponent. destruct (n_exp n) as [[[up s] ds]|].
  - replace (cin (if up then "E"%char else "e"%char) "eE") with true by (destruct up; reflexivity).
    rewrite py_int_text by exact H2. reflexivity.
  - reflexivity.
Qed.

Lemma py_float_text {N : NumOps} n : numeral_ok n ->
  py_float (numeral_text n) = Ok (numeral_value n : N).
Proof.
  intros H. unfold py_float. rewrite decimal_text by exact H. cbn [rbind].
  unfold numeral_value. destruct (n_sgn n); reflexivity.
Qed.
