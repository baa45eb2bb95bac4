(** * SvgDocProofs2: formatted numbers, transform_attr, units. *)
From Verif Require Import Num NumR Str Geom GeomR GeomProofs GeomProofs4 GcodeLex Svg SvgSpec SvgProofs SvgDoc SvgDocSpec SvgDocProofs.
From Coq Require Import String Ascii ZArith NArith List Bool Lia Reals Lra.
Import ListNotations.

(** ** '%f' output is a numeral *)
Definition digit_of (d : N) : digit :=
  match d with 0 => D0 | 1 => D1 | 2 => D2 | 3 => D3 | 4 => D4 | 5 => D5 | 6 => D6 | 7 => D7 | 8 => D8 | _ => D9 end%N.
Lemma digit_of_text d : (d < 10)%N -> digit_char d = digit_text (digit_of d) /\ digit_value (digit_of d) = Z.of_N d.
Proof.
  intros H.
  assert (d = 0 \/ d = 1 \/ d = 2 \/ d = 3 \/ d = 4 \/ d = 5 \/ d = 6 \/ d = 7 \/ d = 8 \/ d = 9)%N as Hd by lia.
  repeat (destruct Hd as [->|Hd]; [split; reflexivity|]). subst. split; reflexivity.
Qed.
Lemma positional_app a ds es : positional a (ds ++ es) = positional (positional a ds) es.
Proof. revert a. induction ds as [|d ds IH]; intros a; cbn [app positional]; auto. Qed.
Lemma positional_scale a ds : positional a ds = (a * 10 ^ Z.of_nat (length ds) + positional 0 ds)%Z.
Proof.
  revert a. induction ds as [|d ds IH]; intros a; cbn [positional length]; [cbn; lia|].
  rewrite IH, (IH (10 * 0 + digit_value d)%Z), Nat2Z.inj_succ, Z.pow_succ_r by lia. ring.
Qed.
Lemma fixed_digits n : forall x acc, exists ds,
  list_ascii_of_string (fixed n x acc) = map digit_text ds ++ list_ascii_of_string acc /\
  length ds = n /\ positional 0 ds = Z.of_N (x mod 10 ^ N.of_nat n).
Proof.
  induction n as [|n IH]; intros x acc.
  - exists []. repeat split. cbn. now rewrite N.mod_1_r.
  - cbn [fixed]. destruct (IH (x / 10)%N (String (digit_char (x mod 10)) acc)) as (ds & E1 & E2 & E3).
    assert (x mod 10 < 10)%N as Hlt by (apply N.mod_upper_bound; lia).
    destruct (digit_of_text _ Hlt) as [Hd1 Hd2].
    exists (ds ++ [digit_of (x mod 10)]). rewrite E1. cbn [list_ascii_of_string]. split; [|split].
    + rewrite map_app, <- app_assoc, Hd1. reflexivity.
    + rewrite app_length, E2. cbn. lia.
    + rewrite positional_app, E3. cbn [positional]. rewrite Hd2.
      rewrite Nat2N.inj_succ, N.pow_succ_r', N.mod_mul_r by (try apply N.pow_nonzero; lia). lia.
Qed.
Lemma N_text_digits x : exists ds, list_ascii_of_string (N_text x) = map digit_text ds /\ ds <> [] /\ positional 0 ds = Z.of_N x.
Proof.
  unfold N_text. destruct (fixed_digits (ndigits x) x "") as (ds & E1 & E2 & E3).
  destruct (ndigits_gt x) as [H1 H2]. exists ds. split; [rewrite E1; apply app_nil_r|]. split.
  - destruct ds; [cbn in E2; lia|discriminate].
  - rewrite E3, N.mod_small by exact H1. reflexivity.
Qed.
Lemma las_app a b : list_ascii_of_string (a ++ b) = (list_ascii_of_string a ++ list_ascii_of_string b)%list.
Proof. induction a as [|c a IH]; cbn; [reflexivity|]. now rewrite IH. Qed.

Lemma dec_text_numeral neg mag : exists n, numeral_ok n /\ L (dec_text 6 (DFin neg mag)) = numeral_text n /\
  n_sgn n = (if neg then Minus else NoSign) /\ n_exp n = None /\ length (frac_digits n) = 6 /\
  positional 0 (n_int n ++ frac_digits n) = Z.of_N mag.
Proof.
  unfold dec_text, L. destruct (N_text_digits (mag / 10 ^ N.of_nat 6)) as (ds & E1 & E2 & E3).
  destruct (fixed_digits 6 (mag mod 10 ^ N.of_nat 6) "") as (fs & F1 & F2 & F3).
  exists (Numeral (if neg then Minus else NoSign) ds (Some fs) None).
  split; [|split; [|split; [|split; [|split]]]]; try reflexivity.
  - split; [|exact Logic.I]. cbn. destruct ds; [congruence|discriminate].
  - rewrite !las_app, E1, F1. unfold numeral_text. cbn [n_sgn n_int n_frac n_exp]. cbn [list_ascii_of_string].
    destruct neg; cbn [list_ascii_of_string sgn_text app]; rewrite !app_nil_r; reflexivity.
  - exact F2.
  - cbn [n_int frac_digits n_frac]. rewrite positional_app, positional_scale, E3, F2, F3.
    change (N.of_nat 6) with 6%N. change (Z.of_nat 6) with 6%Z.
    rewrite N.mod_mod by (apply N.pow_nonzero; lia).
    rewrite (N.div_mod mag (10 ^ 6)) at 3 by (apply N.pow_nonzero; lia).
    rewrite N2Z.inj_add, N2Z.inj_mul. change (Z.of_N (10 ^ 6)) with (10 ^ 6)%Z. lia.
Qed.

Local Open Scope R_scope.
(** the text of x with 6 decimals denotes a number within half a unit of the last place *)
Lemma fmt6_numeral (x : R) : exists n, numeral_ok n /\ L (dec_text 6 (Rfmt 6 x)) = numeral_text n /\
  Rabs (value n - x) <= / 2000000.
Proof.
  unfold Rfmt. destruct (dec_text_numeral (Rltb x 0) (Z.abs_N (Zrnd (x * 10 ^ 6)))) as (n & H1 & H2 & H3 & H4 & H5 & H6).
  exists n. split; [exact H1|]. split; [exact H2|].
  pose proof (Zrnd_half (x * 10 ^ 6)) as Hh.
  assert (x * 10 ^ 6 = x * 1000000) as E by (f_equal; lra).
  rewrite E in *. set (k := Zrnd (x * 1000000)) in *.
  assert (- (1/2) <= IZR k - x * 1000000 <= 1/2) as Hh' by (unfold Rabs in Hh; destruct (Rcase_abs _); lra). clear Hh.
  assert (value n = IZR k / 1000000) as ->.
  { unfold value, numeral_value. rewrite H6, H3, H5. unfold exponent. rewrite H4.
    change (0 - Z.of_nat 6)%Z with (-6)%Z. rewrite N2Z.inj_abs_N.
    destruct (Rltb x 0) eqn:Ex.
    - apply Rltb_true in Ex. change (- (IZR (Z.abs k) / 1000000) = IZR k / 1000000).
      assert (k <= 0)%Z. { destruct (Z_le_gt_dec k 0) as [Hk|Hk]; [exact Hk|]. exfalso.
        assert (1 <= k)%Z as Hk' by lia. apply IZR_le in Hk'. lra. }
      rewrite Z.abs_neq by lia. rewrite opp_IZR. lra.
    - apply Rltb_false in Ex. change (IZR (Z.abs k) / 1000000 = IZR k / 1000000).
      assert (0 <= k)%Z. { destruct (Z_le_gt_dec 0 k) as [Hk|Hk]; [exact Hk|]. exfalso.
        assert (k <= -1)%Z as Hk' by lia. apply IZR_le in Hk'. lra. }
      rewrite Z.abs_eq by lia. reflexivity. }
  apply Rabs_le. split; lra.
Qed.

(** ** transform_attr and back *)
Lemma fmt6_matrix (m : mat ROps) : exists x, xform_ok x /\ xlist [x] (L (transform_attr m)) /\
  exists m', xmat (N:=ROps) x = m' /\
    Rabs (m00 m' - m00 m) <= / 2000000 /\ Rabs (m01 m' - m01 m) <= / 2000000 /\ Rabs (m02 m' - m02 m) <= / 2000000 /\
    Rabs (m10 m' - m10 m) <= / 2000000 /\ Rabs (m11 m' - m11 m) <= / 2000000 /\ Rabs (m12 m' - m12 m) <= / 2000000.
Proof.
  destruct (fmt6_numeral (m00 m)) as (n00 & A1 & A2 & A3). destruct (fmt6_numeral (m01 m)) as (n01 & B1 & B2 & B3).
  destruct (fmt6_numeral (m02 m)) as (n02 & C1 & C2 & C3). destruct (fmt6_numeral (m10 m)) as (n10 & D1' & D2' & D3').
  destruct (fmt6_numeral (m11 m)) as (n11 & E1 & E2 & E3). destruct (fmt6_numeral (m12 m)) as (n12 & F1 & F2 & F3).
  exists (XMatrix n00 n10 n01 n11 n02 n12). split; [|split].
  - unfold xform_ok, xargs. repeat (apply Forall_cons; [assumption|]). apply Forall_nil.
  - unfold transform_attr, L in *. cbn [fmt ROps]. rewrite !las_app, A2, B2, C2, D2', E2, F2.
    set (a := (numeral_text n00 ++ ","%char :: numeral_text n10 ++ ","%char :: numeral_text n01 ++ ","%char :: numeral_text n11 ++ ","%char :: numeral_text n02 ++ ","%char :: numeral_text n12)%list).
    match goal with |- xlist _ ?s => replace s with ([] ++ xname (XMatrix n00 n10 n01 n11 n02 n12) ++ [] ++ "("%char :: a ++ ")"%char :: [])%list end.
    2:{ unfold a. cbn [app xname list_ascii_of_string]. repeat (progress (try rewrite <- !app_assoc; cbn [app])). reflexivity. }
    constructor; [constructor|constructor| |constructor; constructor].
    cbn [xargs]. unfold a.
    assert (forall n l t, l <> [] -> arglist l t -> arglist (n :: l) (numeral_text n ++ ","%char :: t)) as Hc.
    { intros n l t Hl Ht. change (numeral_text n ++ ","%char :: t)%list with ([] ++ numeral_text n ++ ","%char :: t)%list.
      constructor; [constructor| |intros _; do 2 eexists; split; [reflexivity|now right]].
      destruct Ht as [g Hg|g k l t Hg Ht Hs]; [congruence|].
      change (","%char :: g ++ numeral_text k ++ t)%list with ((","%char :: g) ++ numeral_text k ++ t)%list.
      constructor; auto. constructor; [now right|exact Hg]. }
    do 5 (apply Hc; [discriminate|]).
    change (numeral_text n12) with ([] ++ numeral_text n12)%list. rewrite <- (app_nil_r (numeral_text n12)).
    constructor; [constructor|constructor; constructor|congruence].
  - eexists. split; [reflexivity|]. cbn [xmat m00 m01 m02 m10 m11 m12]. repeat split; assumption.
Qed.
Lemma compose_identity_l (m : mat ROps) : compose IDENTITY m = m.
Proof.
  destruct m. unfold compose, IDENTITY. cbn. f_equal; match goal with |- ?a = ?b => change (@eq R a b) end; rnum; ring.
Qed.

(** ** Units *)
Lemma span_stop ds r : match r with c :: _ => is_digit c = false | [] => True end ->
  span is_digit (map digit_text ds ++ r) = (map digit_text ds, r).
Proof. apply span_digits. Qed.

(** the text of a numeral followed by something that is not part of a number *)
Definition ends_number (r : pystr) : Prop :=
  match r with
  | [] => True
  | c :: r' => is_digit c = false /\ Ascii.eqb c "." = false /\
      (cin c "eE" = true -> match r' with d :: _ => is_digit d = false /\ cin d "-+" = false | [] => True end)
  end.

Lemma split_sign_text s r : match r with c :: _ => cin c "-+" = false | [] => True end ->
  split_sign (sgn_text s ++ r) = (sgn_text s, r).
Proof. destruct s, r as [|c r]; cbn [sgn_text app split_sign]; intros H; try reflexivity. now rewrite H. Qed.
Lemma digit_not_sign ds r : match r with c :: _ => cin c "-+" = false | [] => True end ->
  match map digit_text ds ++ r with c :: _ => cin c "-+" = false | [] => True end.
Proof. destruct ds as [|[] ds]; auto; reflexivity. Qed.

Lemma match_exp sg m n r : match n_exp n with Some (_, _, ds) => ds <> [] | None => True end -> ends_number r ->
  match exp_text n ++ r with
  | c :: r4 =>
      if cin c "eE" then
        let '(es, r5) := split_sign r4 in
        let '(ed, _) := span is_digit r5 in
        match ed with [] => Some (sg ++ m) | _ => Some (sg ++ m ++ c :: es ++ ed) end
      else Some (sg ++ m)
  | [] => Some (sg ++ m)
  end = Some (sg ++ m ++ exp_text n).
Proof.
  intros H Hr. unfold exp_text. destruct (n_exp n) as [[[up s] ds]|].
  - cbn [app]. replace (cin (if up then "E"%char else "e"%char) "eE") with true by (destruct up; reflexivity).
    rewrite <- app_assoc, split_sign_text.
    2:{ destruct ds as [|[] ds]; [congruence|reflexivity..]. }
    rewrite span_digits by (unfold ends_number in Hr; destruct r; tauto).
    destruct (map digit_text ds) eqn:E; [destruct ds; [congruence|discriminate]|]. reflexivity.
  - cbn [app]. rewrite app_nil_r. destruct r as [|c r]; [reflexivity|]. destruct Hr as (Hr1 & Hr2 & Hr3).
    destruct (cin c "eE"); [|reflexivity]. specialize (Hr3 eq_refl).
    destruct r as [|d r]; [reflexivity|]. destruct Hr3 as [Hr3 Hr4]. cbn [split_sign]. rewrite Hr4. cbn [span].
    rewrite Hr3. reflexivity.
Qed.

Lemma match_float_numeral n r : numeral_ok n -> ends_number r ->
  (match r with c :: _ => cin c "-+" = false | [] => True end) ->
  match_float (numeral_text n ++ r) = Some (numeral_text n).
Proof.
  intros [H1 H2] Hr Hs. unfold match_float, numeral_text. fold (frac_text n) (exp_text n).
  rewrite <- !app_assoc.
  assert (match exp_text n ++ r with c :: _ => is_digit c = false /\ Ascii.eqb c "." = false /\ cin c "-+" = false | [] => True end) as Her.
  { unfold exp_text. destruct (n_exp n) as [[[[] ?] ?]|]; [repeat split|repeat split|].
    cbn [app]. unfold ends_number in Hr. destruct r; tauto. }
  rewrite split_sign_text.
  2:{ apply digit_not_sign. unfold frac_text. destruct (n_frac n); [reflexivity|]. cbn [app].
      destruct (exp_text n ++ r); tauto. }
  rewrite span_digits.
  2:{ unfold frac_text. destruct (n_frac n); [reflexivity|]. cbn [app]. destruct (exp_text n ++ r); tauto. }
  assert (forall f, span is_digit (map digit_text f ++ exp_text n ++ r) = (map digit_text f, exp_text n ++ r)) as Hf.
  { intros f. apply span_digits. destruct (exp_text n ++ r); tauto. }
  unfold frac_text, frac_digits in *. destruct (n_frac n) as [f|].
  - cbn [app]. change (Ascii.eqb "." ".") with true. rewrite ?app_comm_cons, Hf.
    destruct (n_int n) as [|d ds].
    + cbn [map app]. destruct f as [|x f]; [now elim H1|]. cbn [map].
      rewrite (match_exp (sgn_text (n_sgn n)) ("."%char :: map digit_text (x :: f))) by assumption. reflexivity.
    + cbn [map]. rewrite (match_exp (sgn_text (n_sgn n)) ((digit_text d :: map digit_text ds) ++ "."%char :: map digit_text f)) by assumption.
      rewrite <- app_assoc. reflexivity.
  - rewrite app_nil_r in H1. cbn [app]. destruct (n_int n) as [|d ds]; [congruence|]. cbn [map].
    rewrite <- (match_exp (sgn_text (n_sgn n)) (digit_text d :: map digit_text ds) n r) by assumption.
    destruct (exp_text n ++ r) as [|c r']; [reflexivity|]. destruct Her as (_ & -> & _). reflexivity.
Qed.

Lemma search_unit_skip t r : (forall k, k < length t -> forall u, In u unit_names ->
   skipn k t ++ r <> u /\ skipn k t ++ r <> u ++ ["010"%char])%nat -> search_unit (t ++ r) = search_unit r.
Proof.
  intros H. induction t as [|c t IH]; [reflexivity|]. cbn [app search_unit].
  assert (find (fun u => str_eqb (c :: t ++ r) u || str_eqb (c :: t ++ r) (u ++ ["010"%char])) unit_names = None) as ->.
  { destruct (find _ _) as [u|] eqn:E; [|reflexivity]. apply find_some in E as [Hu E].
    destruct (H 0%nat (Nat.lt_0_succ _) u Hu) as [E1 E2]. cbn [skipn app] in E1, E2. unfold str_eqb in E.
    destruct (list_eq_dec ascii_dec (c :: t ++ r) u); [contradiction|].
    destruct (list_eq_dec ascii_dec (c :: t ++ r) (u ++ ["010"%char])); [contradiction|discriminate]. }
  apply IH. intros k Hk u Hu. apply (H (S k)); [cbn; lia|exact Hu].
Qed.

(** a text that ends in a digit or a point does not hide the unit that follows *)
Definition digit_or_point (c : ascii) : Prop := is_digit c = true \/ c = "."%char.
Lemma unit_no_digit u : In u unit_names -> Forall (fun c => ~ digit_or_point c) (u ++ ["010"%char]).
Proof.
  intros H. cbn in H.
  repeat (destruct H as [<-|H]; [repeat constructor; intros [Q|Q]; discriminate|]). destruct H.
Qed.
Lemma search_after t c r : digit_or_point c -> search_unit ((t ++ [c]) ++ r) = search_unit r.
Proof.
  intros Hc. apply search_unit_skip. intros k Hk u Hu.
  assert (In c (skipn k (t ++ [c]) ++ r)) as Hi.
  { apply in_or_app. left. rewrite app_length in Hk. cbn in Hk. rewrite skipn_app. apply in_or_app. right.
    replace (k - length t)%nat with 0%nat by lia. now left. }
  pose proof (unit_no_digit u Hu) as Hn. rewrite Forall_forall in Hn. split; intros E; rewrite E in Hi.
  - apply (Hn c); [apply in_or_app; now left|exact Hc].
  - now apply (Hn c).
Qed.
Lemma numeral_last n : numeral_ok n -> exists t c, numeral_text n = t ++ [c] /\ digit_or_point c.
Proof.
  intros [H1 H2].
  assert (forall t ds, ds <> [] -> exists t' c, t ++ map digit_text ds = t' ++ [c] /\ digit_or_point c) as Hd.
  { intros t ds Hne. destruct (exists_last Hne) as (ds' & d & ->). rewrite map_app, app_assoc. cbn [map].
    do 2 eexists. split; [reflexivity|]. left. now destruct d. }
  unfold numeral_text, frac_digits in *. destruct (n_exp n) as [[[up s] ds]|].
  - rewrite app_comm_cons, !app_assoc. now apply Hd.
  - rewrite app_nil_r. destruct (n_frac n) as [[|d f]|].
    + rewrite !app_assoc. cbn [map]. do 2 eexists. split; [reflexivity|]. now right.
    + change ("."%char :: map digit_text (d :: f)) with (["."%char] ++ map digit_text (d :: f))%list.
      rewrite !app_assoc. apply Hd. discriminate.
    + rewrite app_nil_r in *. now apply Hd.
Qed.

Lemma unit_search_text n u : numeral_ok n -> In u unit_names -> search_unit (numeral_text n ++ u) = Some u.
Proof.
  intros Hn Hu. destruct (numeral_last n Hn) as (t & c & -> & Hc). rewrite search_after by exact Hc.
  cbn in Hu. repeat (destruct Hu as [<-|Hu]; [reflexivity|]). destruct Hu.
Qed.
Lemma unit_search_none n : numeral_ok n -> search_unit (numeral_text n) = None.
Proof.
  intros Hn. destruct (numeral_last n Hn) as (t & c & -> & Hc). rewrite <- (app_nil_r (t ++ [c])), search_after by exact Hc.
  reflexivity.
Qed.
Lemma unit_ends u : In u unit_names -> ends_number u /\ (match u with c :: _ => cin c "-+" = false | [] => True end).
Proof.
  intros Hu. cbn in Hu. repeat (destruct Hu as [<-|Hu]; [repeat split; try reflexivity; try discriminate|]). destruct Hu.
Qed.

Lemma convert_suffix {N : NumOps} (us : units N) n u to from : numeral_ok n -> In u unit_names ->
  unit_convert us (VStr (numeral_text n ++ u)) to from =
  match UU_CONV us u, UU_CONV us to with
  | Some a, Some b => rbind (pydiv a b) (fun q => Ok (mul (numeral_value n) q))
  | _, _ => Raise TypeError
  end.
Proof.
  intros Hn Hu. destruct (unit_ends u Hu) as [U1 U2]. unfold unit_convert.
  rewrite match_float_numeral by assumption. rewrite (py_float_text n Hn). cbn [rbind].
  rewrite unit_search_text by assumption. reflexivity.
Qed.
Lemma convert_plain {N : NumOps} (us : units N) n to from : numeral_ok n ->
  unit_convert us (VStr (numeral_text n)) to from =
  match UU_CONV us from, UU_CONV us to with
  | Some a, Some b => rbind (pydiv a b) (fun q => Ok (mul (numeral_value n) q))
  | _, _ => Raise TypeError
  end.
Proof.
  intros Hn. unfold unit_convert. rewrite <- (app_nil_r (numeral_text n)) at 1.
  rewrite match_float_numeral by (assumption || exact Logic.I). rewrite (py_float_text n Hn). cbn [rbind].
  rewrite unit_search_none by assumption. reflexivity.
Qed.
