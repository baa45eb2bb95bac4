(** * PropsInkFlip: layers with a flipped Y axis (C126).  Specification: [InkSpec], [PropsInk3] and the statements below. *)
From Verif Require Import Num NumR Str Geom GeomR Svg SvgSpec SvgProofs SvgDoc SvgDocSpec SvgDocProofs SvgDocProofs2 GcodeR SvgOutProofs Css CssSpec CssProofs Ink InkSpec InkProofs PropsInk3.
From Coq Require Import String Ascii ZArith NArith List Bool Lia Reals Lra.
Import ListNotations.
Local Open Scope R_scope.

(** ** '%g' *)
Lemma eqb_zero d : Ascii.eqb "0" (digit_text d) = true -> d = D0.
Proof. destruct d; cbn; intros H; congruence. Qed.
Lemma strip_digits ds : exists es k, strip_zeros (map digit_text ds) = map digit_text es /\ ds = (es ++ repeat D0 k)%list.
Proof.
  unfold strip_zeros. induction ds as [|d ds IH] using rev_ind; [exists [], 0%nat; split; reflexivity|].
  rewrite map_app, rev_app_distr. cbn [map rev app drop_while].
  destruct (Ascii.eqb "0" (digit_text d)) eqn:Q.
  - apply eqb_zero in Q. subst d. destruct IH as (es & k & E & ->). exists es, (S k). split; [exact E|].
    rewrite <- app_assoc. f_equal. replace (S k) with (k + 1)%nat by lia. now rewrite repeat_app.
  - exists (ds ++ [d])%list, 0%nat. split; [|now rewrite app_nil_r]. cbn [rev]. now rewrite rev_involutive, map_app.
Qed.
Lemma positional_zeros a k : positional a (repeat D0 k) = (a * 10 ^ Z.of_nat k)%Z.
Proof. rewrite positional_scale, repeat_length. assert (E : positional 0 (repeat D0 k) = 0%Z) by (induction k; [reflexivity|exact IHk]). rewrite E. lia. Qed.
Lemma pow10_Z k : IZR (10 ^ Z.of_nat k) = 10 ^ k.
Proof. rewrite <- pow_IZR. reflexivity. Qed.
Lemma g_numeral n mag : exists m, numeral_ok m /\ g_fixed n false mag = numeral_text m /\ value m = IZR (Z.of_N mag) / 10 ^ n.
Proof.
  unfold g_fixed. destruct (N_text_digits (mag / 10 ^ N.of_nat n)) as (ds & E1 & E2 & E3).
  destruct (fixed_digits n (mag mod 10 ^ N.of_nat n) "") as (fs & F1 & F2 & F3).
  destruct (strip_digits fs) as (es & k & Es & Ef). unfold with_point, L. rewrite E1, F1. cbn [list_ascii_of_string]. rewrite app_nil_r, Es.
  assert (NZ : (10 ^ N.of_nat n <> 0)%N) by (apply N.pow_nonzero; lia).
  assert (T : (positional 0 (ds ++ es) * 10 ^ Z.of_nat k)%Z = Z.of_N mag).
  { rewrite <- positional_zeros, <- positional_app, <- app_assoc, <- Ef. rewrite positional_app, positional_scale, E3, F2, F3.
    rewrite N.mod_mod by exact NZ. rewrite (N.div_mod mag (10 ^ N.of_nat n)) at 3 by exact NZ.
    rewrite N2Z.inj_add, N2Z.inj_mul, N2Z.inj_pow, nat_N_Z. change (Z.of_N 10) with 10%Z. lia. }
  assert (Ln : n = (List.length es + k)%nat) by (rewrite <- F2, Ef, app_length, repeat_length; reflexivity).
  assert (D : IZR (positional 0 (ds ++ es)) / 10 ^ List.length es = IZR (Z.of_N mag) / 10 ^ n).
  { rewrite <- T, mult_IZR, pow10_Z, Ln, pow_add. field. split; apply pow_nonzero; lra. }
  exists (Numeral NoSign ds (match es with [] => None | _ => Some es end) None).
  assert (Fd : frac_digits (Numeral NoSign ds (match es with [] => None | _ => Some es end) None) = es) by (destruct es; reflexivity).
  split; [|split].
  - split; [|exact Logic.I]. cbn [n_int]. destruct ds; [congruence|discriminate].
  - unfold numeral_text. cbn [n_sgn n_int n_frac n_exp sgn_text app]. destruct es; [reflexivity|]. cbn [map]. now rewrite app_nil_r.
  - unfold value, numeral_value. cbv zeta. rewrite Fd. cbn [n_sgn n_int]. unfold exponent. cbn [n_exp].
    change (0 - Z.of_nat (List.length es))%Z with (- Z.of_nat (List.length es))%Z. change (@lit ROps) with Rlit. rewrite Rlit_neg. exact D.
Qed.
Definition scaled (h : R) (n : nat) : Z := Zrnd (h * 10 ^ n).
Lemma scaled_near h n : Rabs (IZR (scaled h n) - h * 10 ^ n) <= 1 / 2.
Proof. apply Zrnd_half. Qed.
Lemma scaled_pos h n : 0 < h -> (0 <= scaled h n)%Z.
Proof.
  intros Hh. pose proof (scaled_near h n) as B. assert (0 < h * 10 ^ n) by (apply Rmult_lt_0_compat; [exact Hh|apply pow_lt; lra]).
  destruct (Z_le_gt_dec 0 (scaled h n)) as [|G]; [assumption|]. exfalso. assert (K : (scaled h n <= -1)%Z) by lia. apply IZR_le in K.
  unfold Rabs in B. destruct (Rcase_abs _); lra.
Qed.
Lemma g_loop_spec h : 0 < h -> h < 999999 -> forall n, exists k, (k <= n)%nat /\ g_loop (N:=ROps) n h = g_fixed k false (Z.to_N (scaled h k)) /\
  (k = n \/ (1000000 <= scaled h (S k))%Z) /\ (scaled h k < 1000000)%Z.
Proof.
  intros Hh Hb. induction n as [|n IH].
  - exists 0%nat. split; [lia|]. assert (B : (scaled h 0 < 1000000)%Z).
    { apply lt_IZR. pose proof (scaled_near h 0) as B. cbn [pow] in B. unfold Rabs in B. destruct (Rcase_abs _); lra. }
    split; [|split; [now left|exact B]]. cbn [g_loop]. change (fmt 0 h) with (Rfmt 0 h). unfold Rfmt. change (Zrnd (h * 10 ^ 0)) with (scaled h 0).
    rewrite (proj2 (Rltb_false h 0)) by lra. pose proof (scaled_pos h 0 Hh). replace (Z.abs_N (scaled h 0)) with (Z.to_N (scaled h 0)) by lia.
    assert (Q : (Z.to_N (scaled h 0) <? 10 ^ 6)%N = true) by (apply N.ltb_lt; change (10 ^ 6)%N with 1000000%N; lia). rewrite Q. reflexivity.
  - cbn [g_loop]. change (fmt (S n) h) with (Rfmt (S n) h). unfold Rfmt. change (Zrnd (h * 10 ^ S n)) with (scaled h (S n)).
    rewrite (proj2 (Rltb_false h 0)) by lra. pose proof (scaled_pos h (S n) Hh). replace (Z.abs_N (scaled h (S n))) with (Z.to_N (scaled h (S n))) by lia.
    destruct (Z.to_N (scaled h (S n)) <? 10 ^ 6)%N eqn:Q.
    + apply N.ltb_lt in Q. change (10 ^ 6)%N with 1000000%N in Q. exists (S n). split; [lia|]. split; [reflexivity|]. split; [now left|lia].
    + apply N.ltb_ge in Q. change (10 ^ 6)%N with 1000000%N in Q. destruct IH as (k & K1 & K2 & K3 & K4). exists k. split; [lia|]. split; [exact K2|]. split; [|exact K4].
      right. destruct K3 as [-> |K3]; [lia|exact K3].
Qed.

(** '%g' of a number is written without an exponent, off by at most half a unit of the sixth digit; numbers of at most six digits are
    written exactly. *)
Lemma near_abs (a b e : R) : Rabs (a - b) <= e -> - e <= a - b <= e.
Proof. unfold Rabs. destruct (Rcase_abs _); lra. Qed.
Lemma g_text_value h : 1 / 10000 <= h -> h < 999999 -> exists g, numeral_ok g /\ g_text (N:=ROps) h = numeral_text g /\ Rabs (value g - h) <= h / 199999 /\
  forall z k, (z < 1000000)%Z -> (k <= 9)%nat -> h = IZR z / 10 ^ k -> value g = h.
Proof.
  intros Hl Hh. assert (Hp : 0 < h) by lra. unfold g_text. destruct (g_loop_spec h Hp Hh 9) as (k & K1 & -> & K3 & K4).
  destruct (g_numeral k (Z.to_N (scaled h k))) as (g & G1 & G2 & G3). exists g. split; [exact G1|]. split; [exact G2|].
  rewrite G3. rewrite Z2N.id by (apply scaled_pos; exact Hp). pose proof (scaled_near h k) as B. assert (P10 : 0 < 10 ^ k) by (apply pow_lt; lra). split.
  - assert (E : IZR (scaled h k) / 10 ^ k - h = (IZR (scaled h k) - h * 10 ^ k) / 10 ^ k) by (field; lra). rewrite E. unfold Rdiv at 1. rewrite Rabs_mult, (Rabs_pos_eq (/ 10 ^ k)) by (apply Rlt_le, Rinv_0_lt_compat, P10).
    assert (G : 99999.95 <= h * 10 ^ k \/ (k = 9%nat)).
    { destruct K3 as [-> |K3]; [now right|]. left. apply IZR_le in K3. pose proof (near_abs _ _ _ (scaled_near h (S k))) as B'. cbn [pow] in B'. nra. }
    apply (Rmult_le_reg_r (10 ^ k)); [exact P10|]. rewrite Rmult_assoc, Rinv_l, Rmult_1_r by lra.
    assert (G' : 99999.5 <= h * 10 ^ k). { destruct G as [G| ->]; [lra|]. cbn [pow]. nra. }
    replace (h / 199999 * 10 ^ k) with (h * 10 ^ k / 199999) by field. lra.
  - intros z j Hz Hj E. assert (Pj : 0 < 10 ^ j) by (apply pow_lt; lra).
    assert (S0 : forall n, (j <= n)%nat -> scaled h n = (z * 10 ^ Z.of_nat (n - j))%Z /\ IZR (z * 10 ^ Z.of_nat (n - j)) = h * 10 ^ n).
    { intros n Hn. assert (X : IZR (z * 10 ^ Z.of_nat (n - j)) = h * 10 ^ n).
      { rewrite mult_IZR, pow10_Z, E. replace n with (j + (n - j))%nat at 2 by lia. rewrite pow_add. field. lra. }
      split; [|exact X]. pose proof (near_abs _ _ _ (scaled_near h n)) as B'. rewrite <- X, <- minus_IZR in B'. destruct B' as [B1 B2].
      assert (L1 : (-1 < scaled h n - z * 10 ^ Z.of_nat (n - j))%Z) by (apply lt_IZR; lra).
      assert (L2 : (scaled h n - z * 10 ^ Z.of_nat (n - j) < 1)%Z) by (apply lt_IZR; lra). lia. }
    assert (J : (j <= k)%nat).
    { destruct K3 as [-> |K3]; [lia|]. destruct (Nat.le_gt_cases j k) as [|J]; [assumption|]. exfalso.
      (* at j decimals the number is z, below 10^6; fewer decimals give a smaller number *)
      pose proof (near_abs _ _ _ (scaled_near h (S k))) as B'. apply IZR_le in K3. apply IZR_lt in Hz.
      assert (X : h * 10 ^ S k <= IZR z). { replace (IZR z) with (h * 10 ^ j) by (rewrite E; field; lra). apply Rmult_le_compat_l; [lra|]. apply Rle_pow; [lra|lia]. }
      assert (Hz2 : (z <= 999999)%Z) by (apply lt_IZR in Hz; lia). apply IZR_le in Hz2. lra. }
    destruct (S0 k J) as [S1 S2]. rewrite S1, S2. field. lra.
Qed.

(** ** C126: flipped layers.  A point (x, y) drawn in a new layer with flipy is shown at (x, h - y), where h is the height of the view
    in six significant digits. *)
Definition flips (l : xml) (h : R) : Prop := exists t m, has l "transform" t /\ parse_transform_attr (N:=ROps) (Some t) = Ok m /\
  forall p, apply m p = Geom.P (px p : ROps) (h - py p : ROps).
Lemma flip_text g : numeral_ok g -> exists m, parse_transform_attr (N:=ROps) (Some (L "translate(0, " ++ numeral_text g ++ L ") scale(1, -1)")%list) = Ok m /\
  forall p, apply m p = Geom.P (px p : ROps) (value g - py p : ROps).
Proof.
  intros Hg. set (n0 := Numeral NoSign [D0] None None). set (n1 := Numeral NoSign [D1] None None). set (nm := Numeral Minus [D1] None None).
  assert (Bl : forall r, exists c r', (" "%char :: r)%list = (c :: r')%list /\ gapchar c) by (intros r; exists " "%char, r; split; [reflexivity|left; now left]).
  assert (Xl : xlist [XTranslate n0 (Some g); XScale n1 (Some nm)] (L "translate(0, " ++ numeral_text g ++ L ") scale(1, -1)")%list).
  { replace (L "translate(0, " ++ numeral_text g ++ L ") scale(1, -1)")%list with
      ([] ++ xname (XTranslate n0 (Some g)) ++ [] ++ "("%char :: ([] ++ numeral_text n0 ++ (L ", " ++ numeral_text g ++ [])) ++ ")"%char ::
        (L " " ++ xname (XScale n1 (Some nm)) ++ [] ++ "("%char :: L "1, -1" ++ ")"%char :: []))%list
      by (rewrite app_nil_r; cbn; rewrite <- ?app_assoc; reflexivity).
    constructor; [constructor|constructor| |constructor; [repeat constructor|constructor| |constructor; constructor]].
    - cbn [xargs opt]. apply al_cons; [constructor| |intros _; exists ","%char, (" "%char :: numeral_text g ++ [])%list; split; [reflexivity|now right]].
      apply al_cons; [|constructor; constructor|congruence]. constructor; [now right|]. constructor; [left; now left|constructor].
    - cbn [xargs opt]. apply (al_cons [] n1 [nm] (L ", -1")); [constructor| |intros _; exists ","%char, (L " -1"); split; [reflexivity|now right]].
      apply (al_cons (L ", ") nm [] []); [|constructor; constructor|congruence]. constructor; [now right|]. constructor; [left; now left|constructor]. }
  assert (Xo : Forall xform_ok [XTranslate n0 (Some g); XScale n1 (Some nm)]).
  { assert (O0 : numeral_ok n0) by (split; [discriminate|exact Logic.I]). assert (O1 : numeral_ok n1) by (split; [discriminate|exact Logic.I]).
    assert (Om : numeral_ok nm) by (split; [discriminate|exact Logic.I]).
    constructor; [|constructor; [|constructor]]; unfold xform_ok; cbn [xargs opt]; constructor; auto. }
  destruct (transform_points _ _ Xo Xl) as (m & M1 & M2). exists m. split; [exact M1|]. intros [x y]. specialize (M2 (x, y)). cbn [fst snd] in M2. etransitivity; [exact M2|].
  cbn [acts_all fold_right acts fst snd]. assert (V0 : value n0 = 0) by (unfold value, numeral_value; cbn; lra).
  assert (V1 : value n1 = 1) by (unfold value, numeral_value; cbn; lra). assert (Vm : value nm = -1) by (unfold value, numeral_value; cbn; lra).
  rewrite V0, V1, Vm. cbn [px py]. change (T ROps) with R in *. 
  assert (Q1 : forall u : R, 1 * u + 0 = u) by (intros; lra). assert (Q2 : forall u v : R, -1 * u + v = v - u) by (intros; lra). now rewrite Q1, Q2.
Qed.
Theorem C126_flip doc fresh name (opacity : option R) clear incr tag H : proper_doc doc -> no_layer doc name -> 1 / 10000 <= H -> H < 999999 ->
  exists doc' l h, create_layer (N:=ROps) doc fresh name opacity clear incr (Some H) tag = Ok (doc', l) /\ appended doc l doc' /\ new_layer l fresh name tag /\
    flips l h /\ Rabs (h - H) <= H / 199999 /\
    (forall z k, (z < 1000000)%Z -> (k <= 9)%nat -> H = IZR z / 10 ^ k -> h = H).
Proof.
  intros W NL H1 H2. destruct (C126_new_layer (N:=ROps) doc fresh name opacity (Some H) clear incr tag W NL) as (doc' & l & E & A & Nl).
  destruct (g_text_value H H1 H2) as (g & G1 & G2 & G3 & G4). destruct (flip_text g G1) as (m & M1 & M2).
  exists doc', l, (value g). split; [exact E|]. split; [exact A|]. split; [exact Nl|]. split; [|split; [exact G3|exact G4]].
  exists (L "translate(0, " ++ numeral_text g ++ L ") scale(1, -1)")%list, m. split; [|split; [exact M1|exact M2]].
  apply (find_layer_none doc name W) in NL. unfold create_layer in E. rewrite NL in E. cbn [rbind] in E. injection E as _ <-.
  unfold has. cbn [x_attrs]. rewrite <- G2. right. right. apply in_or_app. right. apply in_or_app. right. left. reflexivity.
Qed.
(** Without flipy a new layer has no transform. *)
Theorem C126_no_flip {N : NumOps} doc fresh name (opacity : option N) clear incr tag doc' l : proper_doc doc -> no_layer doc name ->
  create_layer doc fresh name opacity clear incr None tag = Ok (doc', l) -> forall t, ~ has l "transform" t.
Proof.
  intros W NL E t Ht. apply (find_layer_none doc name W) in NL. unfold create_layer in E. rewrite NL in E. cbn [rbind] in E. injection E as _ <-.
  unfold has in Ht. cbn [x_attrs] in Ht. destruct Ht as [Q|[Q|Q]]; [discriminate Q|discriminate Q|]. apply in_app_or in Q as [Q|Q].
  - destruct tag; [destruct Q as [Q|[]]; discriminate Q|destruct Q].
  - apply in_app_or in Q as [Q|Q]; [|destruct Q]. destruct opacity; [destruct Q as [Q|[]]; discriminate Q|destruct Q].
Qed.
Example C126_flip_example : exists z k, (z < 1000000)%Z /\ (k <= 9)%nat /\ 744.094 = IZR z / 10 ^ k /\ 1 / 10000 <= 744.094 < 999999.
Proof. exists 744094%Z, 3%nat. repeat split; try lia; cbn [pow]; lra. Qed.
(** Taller views lose digits: A4 at 96 dpi is 1122.51969 pixels high, but the layer is flipped about 1122.52. *)
Theorem C126_flip_exact_refuted : g_text (N:=ROps) 1122.51969 = text "1122.52".
Proof.
  assert (Hp : 0 < 1122.51969) by lra. assert (Hb : 1122.51969 < 999999) by lra.
  assert (Z0 : forall n z, Rabs (1122.51969 * 10 ^ n - IZR z) < 1 / 2 -> scaled 1122.51969 n = z).
  { intros n z Q. pose proof (near_abs _ _ _ (scaled_near 1122.51969 n)) as B. assert (Q' : - (1/2) < 1122.51969 * 10 ^ n - IZR z < 1/2) by (revert Q; unfold Rabs; destruct (Rcase_abs _); lra).
    assert (L1 : (-1 < scaled 1122.51969 n - z)%Z) by (apply lt_IZR; rewrite minus_IZR; lra).
    assert (L2 : (scaled 1122.51969 n - z < 1)%Z) by (apply lt_IZR; rewrite minus_IZR; lra). lia. }
  unfold g_text. destruct (g_loop_spec _ Hp Hb 9) as (k & K1 & -> & K3 & K4).
  assert (Z2 : scaled 1122.51969 2 = 112252%Z) by (apply Z0; unfold Rabs; destruct (Rcase_abs _); cbn [pow] in *; lra).
  assert (Z3 : scaled 1122.51969 3 = 1122520%Z) by (apply Z0; unfold Rabs; destruct (Rcase_abs _); cbn [pow] in *; lra).
  assert (Mono : forall a b, (a <= b)%nat -> (scaled 1122.51969 a <= scaled 1122.51969 b + 1)%Z).
  { intros a b Hab. apply le_IZR. rewrite plus_IZR. pose proof (near_abs _ _ _ (scaled_near 1122.51969 a)). pose proof (near_abs _ _ _ (scaled_near 1122.51969 b)).
    assert (1122.51969 * 10 ^ a <= 1122.51969 * 10 ^ b) by (apply Rmult_le_compat_l; [lra|apply Rle_pow; [lra|exact Hab]]). lra. }
  assert (Ek : k = 2%nat).
  { destruct (Nat.le_gt_cases k 1) as [C|C].
    - destruct K3 as [-> |K3]; [lia|]. pose proof (Mono (S k) 2%nat ltac:(lia)). lia.
    - destruct (Nat.le_gt_cases 3 k) as [D|D]; [|lia]. pose proof (Mono 3%nat k D). lia. }
  rewrite Ek, Z2. reflexivity.
Qed.
