(** * CssProofs2: colours. *)
From Verif Require Import Num NumR Str Svg SvgSpec SvgProofs SvgDoc SvgDocSpec SvgDocProofs Css CssSpec CssProofs.
From Coq Require Import String Ascii ZArith NArith List Bool Lia Reals Lra.
Import ListNotations.

Lemma hexdig_cases c d : hexdig c d -> In (c, d) (combine (L "0123456789abcdef") (seq 0 16) ++ combine (L "0123456789ABCDEF") (seq 0 16)).
Proof.
  intros [H|H]; do 16 (destruct d as [|d]; [injection H as <-; cbn; tauto|]); destruct d; discriminate.
Qed.
Ltac hexcases H := apply hexdig_cases in H; cbn in H;
  repeat (destruct H as [H|H]; [injection H as <- <-|]); [..|destruct H].
Lemma hexdig_val c d : hexdig c d -> hex_val c = Some (Z.of_nat d) /\ is_ws c = false /\ cin c "+-" = false /\
  hexdig (lower_ascii c) d /\ Ascii.eqb (lower_ascii c) "#" = false /\ (d < 16)%nat.
Proof.
  intros H. hexcases H; (repeat split; try reflexivity; try lia; left; reflexivity).
Qed.
Lemma hex_val_range c d : hex_val c = Some d -> (0 <= d < 16)%Z.
Proof.
  unfold hex_val. destruct ((48 <=? N_of_ascii c)%N && (N_of_ascii c <=? 57)%N) eqn:E1.
  - intros [= <-]. apply andb_true_iff in E1 as [E1 E2]. apply N.leb_le in E1, E2. lia.
  - destruct ((97 <=? N_of_ascii c)%N && (N_of_ascii c <=? 102)%N) eqn:E2.
    + intros [= <-]. apply andb_true_iff in E2 as [E2 E3]. apply N.leb_le in E2, E3. lia.
    + destruct ((65 <=? N_of_ascii c)%N && (N_of_ascii c <=? 70)%N) eqn:E3; [|discriminate].
      intros [= <-]. apply andb_true_iff in E3 as [E3 E4]. apply N.leb_le in E3, E4. lia.
Qed.

Lemma take_sign_no c r : cin c "+-" = false -> take_sign (c :: r) = (false, c :: r).
Proof.
  intros H. unfold take_sign. destruct (Ascii.eqb_spec c "-") as [->|]; [discriminate|].
  destruct (Ascii.eqb_spec c "+") as [->|]; [discriminate|reflexivity].
Qed.
Lemma int16_one c d : hexdig c d -> int16 [c] = Ok (Z.of_nat d).
Proof.
  intros H. destruct (hexdig_val c d H) as (H1 & H2 & H3 & _). unfold int16, strip, strip_by.
  cbn [drop_while]. rewrite H2. cbn [rev app drop_while]. rewrite H2. cbn [rev app]. rewrite take_sign_no by exact H3.
  cbn [hex_digits]. rewrite H1. reflexivity.
Qed.
Lemma int16_two c d c' d' : hexdig c d -> hexdig c' d' -> int16 [c; c'] = Ok (16 * Z.of_nat d + Z.of_nat d')%Z.
Proof.
  intros H H'. destruct (hexdig_val c d H) as (H1 & H2 & H3 & _). destruct (hexdig_val c' d' H') as (H1' & H2' & H3' & _).
  unfold int16, strip, strip_by.
  cbn [drop_while]. rewrite H2. cbn [rev app drop_while]. rewrite H2'. cbn [rev app]. rewrite take_sign_no by exact H3.
  cbn [hex_digits]. rewrite H1, H1'. reflexivity.
Qed.

(** whatever the one or two characters *)
Lemma hex_digits_range s : forall a n k, (0 <= a < 16 ^ Z.of_nat k)%Z -> hex_digits a s = Some n -> (0 <= n < 16 ^ Z.of_nat (k + length s))%Z.
Proof.
  induction s as [|c s IH]; intros a n k Ha H; cbn [hex_digits length] in *.
  - injection H as <-. now rewrite Nat.add_0_r.
  - destruct (hex_val c) as [d|] eqn:E; [|discriminate]. apply hex_val_range in E.
    rewrite <- Nat.add_succ_comm. apply (IH (16 * a + d)%Z); [|exact H].
    rewrite Nat2Z.inj_succ, Z.pow_succ_r by lia. lia.
Qed.
Lemma drop_len (p : ascii -> bool) s : length (drop_while p s) <= length s.
Proof. induction s as [|c s IH]; cbn [drop_while length]; [lia|]. destruct (p c); cbn [length]; lia. Qed.
Lemma strip_len s : length (strip s) <= length s.
Proof.
  unfold strip, strip_by. rewrite rev_length. pose proof (drop_len is_ws (rev (drop_while is_ws s))) as H.
  rewrite rev_length in H. pose proof (drop_len is_ws s). lia.
Qed.
Lemma int16_range s n : length s <= 2 -> int16 s = Ok n -> (-15 <= n <= 255)%Z.
Proof.
  intros Hl. unfold int16. pose proof (strip_len s) as Hs. destruct (strip s) as [|c r]; [discriminate|].
  cbn [length] in Hs. cbn [take_sign].
  assert (forall neg q, length q <= (if neg : bool then 1 else 2) ->
    match q with [] => Raise ValueError | _ => match hex_digits 0 q with Some n => Ok (if neg then - n else n)%Z | None => Raise ValueError end end = Ok n ->
    (-15 <= n <= 255)%Z) as Hq.
  { intros neg q Hq H. destruct q as [|x q]; [discriminate|]. destruct (hex_digits 0 (x :: q)) as [m|] eqn:E; [|discriminate].
    apply (hex_digits_range _ 0%Z m 0%nat) in E; [|cbn; lia].
    assert (16 ^ Z.of_nat (0 + length (x :: q)) <= 16 ^ (if neg then 1 else 2))%Z as Hp.
    { apply Z.pow_le_mono_r; [lia|]. destruct neg; lia. }
    injection H as <-. destruct neg; [change (16 ^ 1)%Z with 16%Z in Hp|change (16 ^ 2)%Z with 256%Z in Hp]; lia. }
  destruct (Ascii.eqb c "-"); [apply (Hq true); lia|]. destruct (Ascii.eqb c "+"); [apply (Hq false); lia|].
  apply (Hq false (c :: r)). cbn [length]. lia.
Qed.
Lemma int16_one_range c n : int16 [c] = Ok n -> (0 <= n <= 15)%Z.
Proof.
  unfold int16, strip, strip_by. cbn [drop_while]. destruct (is_ws c) eqn:E.
  - cbn [rev drop_while]. cbn [take_sign]. discriminate.
  - cbn [rev app drop_while]. rewrite E. cbn [rev app take_sign].
    destruct (Ascii.eqb c "-"); [discriminate|]. destruct (Ascii.eqb c "+"); [discriminate|].
    cbn [hex_digits]. destruct (hex_val c) as [d|] eqn:Ed; [|discriminate]. intros [= <-]. apply hex_val_range in Ed. lia.
Qed.
Definition near_channel (n : Z) : Prop := (-15 <= n <= 255)%Z.
Lemma csshex_range s : let '(r, g, b) := csshex_to_rgb s in near_channel r /\ near_channel g /\ near_channel b.
Proof.
  unfold csshex_to_rgb, near_channel. destruct (drop_while (fun c => Ascii.eqb c "#") (strip s)) as [|a [|b [|c [|d [|e [|f [|]]]]]]]; try lia.
  - destruct (int16 [a]) as [r|] eqn:E1; cbn [rbind]; [|lia]. destruct (int16 [b]) as [g|] eqn:E2; cbn [rbind]; [|lia].
    destruct (int16 [c]) as [u|] eqn:E3; cbn [rbind]; [|lia].
    apply int16_one_range in E1, E2, E3. lia.
  - destruct (int16 [a; b]) as [r|] eqn:E1; cbn [rbind]; [|lia]. destruct (int16 [c; d]) as [g|] eqn:E2; cbn [rbind]; [|lia].
    destruct (int16 [e; f]) as [u|] eqn:E3; cbn [rbind]; [|lia].
    apply int16_range in E1, E2, E3; cbn; lia.
Qed.

(** ** texts of hex digits *)
Definition hextext (s : pystr) (ds : list nat) : Prop := Forall2 hexdig s ds.
Lemma hextext_lower s ds : hextext s ds -> hextext (map lower_ascii s) ds.
Proof. induction 1 as [|c d s ds H _ IH]; constructor; auto. now apply hexdig_val. Qed.
Lemma strip_none s : (forall c, In c s -> is_ws c = false) -> strip s = s.
Proof.
  intros H. destruct s as [|c s]; [reflexivity|].
  rewrite <- (app_nil_r (c :: s)) at 1. change ((c :: s) ++ []) with ([] ++ (c :: s) ++ []). apply strip_word; try constructor.
  - exists c, s. split; [reflexivity|]. apply H. now left.
  - destruct (exists_last (l := c :: s) ltac:(discriminate)) as (r & x & E). exists x, r. split; [exact E|]. apply H. rewrite E.
    apply in_or_app. right. now left.
Qed.
Lemma hextext_ws s ds c : hextext s ds -> In c s -> is_ws c = false.
Proof.
  induction 1 as [|x d s ds H _ IH]; [intros []|]. intros [<-|Hi]; [|auto]. now apply hexdig_val in H.
Qed.
Lemma csshex_text pre s ds : hextext s ds -> Forall (fun c => c = "#"%char) pre ->
  csshex_to_rgb (pre ++ map lower_ascii s) =
  match map Z.of_nat ds with
  | [a; b; c; d; e; f] => (16 * a + b, 16 * c + d, 16 * e + f)%Z
  | [a; b; c] => (a * 16 + a, b * 16 + b, c * 16 + c)%Z
  | _ => (0, 0, 0)%Z
  end.
Proof.
  intros H Hp. unfold csshex_to_rgb. apply hextext_lower in H.
  rewrite strip_none.
  2:{ intros c Hc. apply in_app_or in Hc as [Hc|Hc]; [|eapply hextext_ws; eauto].
      rewrite Forall_forall in Hp. rewrite (Hp c Hc). reflexivity. }
  assert (drop_while (fun c => Ascii.eqb c "#") (pre ++ map lower_ascii s) = map lower_ascii s) as ->.
  { rewrite drop_all by (eapply Forall_impl; [|exact Hp]; intros c ->; reflexivity).
    destruct H as [|c d t ds' Hc _]; [reflexivity|]. cbn [drop_while].
    assert (Ascii.eqb c "#" = false) as ->; [|reflexivity]. hexcases Hc; reflexivity. }
  set (t := map lower_ascii s) in *. clearbody t. clear s Hp.
  destruct H as [|a da t ds Ha H]; [reflexivity|]. destruct H as [|b db t ds Hb H]; [reflexivity|].
  destruct H as [|c dc t ds Hc H]; [reflexivity|]. destruct H as [|d dd t ds Hd H].
  { cbn [map]. rewrite (int16_one a da), (int16_one b db), (int16_one c dc) by assumption. reflexivity. }
  destruct H as [|e de t ds He H]; [reflexivity|]. destruct H as [|f df t ds Hf H]; [reflexivity|].
  destruct H as [|g dg t ds Hg H].
  { cbn [map]. rewrite (int16_two a da b db), (int16_two c dc d dd), (int16_two e de f df) by assumption. reflexivity. }
  reflexivity.
Qed.

(** ** Names *)
Lemma names_not_hex : forallb (fun kv : pystr * rgb => existsb (fun c => match hex_val c with None => true | _ => false end) (fst kv)) CSS_COLORS = true.
Proof. vm_compute. reflexivity. Qed.
Lemma hextext_no_name s ds : hextext s ds -> color_get s CSS_COLORS = None.
Proof.
  intros H. pose proof names_not_hex as Hn. induction CSS_COLORS as [|[k v] t IH]; [reflexivity|].
  cbn [color_get forallb fst] in *. apply andb_true_iff in Hn as [Hk Ht]. destruct (str_eqb_spec s k) as [->|]; [|auto].
  exfalso. apply existsb_exists in Hk as (c & Hc & Hx).
  clear - H Hc Hx. induction H as [|x d s ds Hd _ IH]; [destruct Hc|]. destruct Hc as [->|Hc]; [|auto].
  apply hexdig_val in Hd as (E & _). rewrite E in Hx. discriminate.
Qed.
Lemma names_in_range : forallb (fun kv : pystr * rgb => let '(r, g, b) := snd kv in
  ((0 <=? r) && (r <=? 255) && (0 <=? g) && (g <=? 255) && (0 <=? b) && (b <=? 255))%Z) CSS_COLORS = true.
Proof. vm_compute. reflexivity. Qed.
Definition in_range (c : rgb) : Prop := let '(r, g, b) := c in channel r /\ channel g /\ channel b.
Lemma color_get_range s c : color_get s CSS_COLORS = Some c -> in_range c.
Proof.
  pose proof names_in_range as Hn. induction CSS_COLORS as [|[k v] t IH]; [discriminate|].
  cbn [color_get forallb snd] in *. apply andb_true_iff in Hn as [Hk Ht]. destruct (str_eqb s k); [|auto].
  intros [= <-]. destruct v as [[r g] b]. unfold in_range, channel.
  rewrite !andb_true_iff, !Z.leb_le in Hk. lia.
Qed.

(** ** Channels *)
Section N.
  Context {N : NumOps}.
  Lemma channel_range s : (exists n, parse_channel_value (N:=N) s = Ok n /\ channel n) \/ parse_channel_value (N:=N) s = Raise OverflowError.
  Proof.
    unfold parse_channel_value.
    match goal with |- context [match ?x with Ok _ => _ | Raise _ => _ end] => set (v := x) end.
    assert ((exists n, v = Ok n) \/ v = Raise ValueError \/ v = Raise OverflowError) as Hv.
    { unfold v. clear v. destruct (ends_with_percent (strip s)).
      - unfold float_of. generalize (strip (rev (drop_while (fun c => Ascii.eqb c "%") (rev (strip s))))). intros t.
        destruct (take_sign t) as [neg u].
        destruct (str_eqb (map lower_ascii u) (L "inf") || str_eqb (map lower_ascii u) (L "infinity")); [cbn; auto|].
        destruct (str_eqb (map lower_ascii u) (L "nan")); [cbn; auto|].
        unfold py_float. destruct (decimal t) as [[[? ?] ?]|e] eqn:E; cbn [rbind]; [cbn; eauto|].
        right. left. f_equal. unfold decimal in E. destruct (take_sign t) as [? r]. destruct (span is_digit r) as [ip r1].
        destruct (match r1 with c :: q => if Ascii.eqb c "." then span is_digit q else ([], r1) | [] => ([], r1) end) as [fp r2].
        destruct (ip ++ fp); [congruence|]. destruct r2; [discriminate|]. destruct (cin a0 "eE"); [|congruence].
        unfold py_int in E. destruct (take_sign r2) as [? z]. destruct (span is_digit z) as [[|] [|]]; congruence.
      - destruct (strip s) as [|c t]; [eauto|]. destruct (forallb is_digit (c :: t)); [|eauto].
        unfold py_int. destruct (take_sign (c :: t)) as [? z]. destruct (span is_digit z) as [[|] [|]]; eauto. }
    destruct Hv as [(n & ->)|[-> | ->]]; [left; eexists; split; [reflexivity|]; unfold channel; lia| |now right].
    left. exists 0%Z. split; [reflexivity|]. unfold channel. lia.
  Qed.
  Lemma mapr_channels l : (exists ns, mapr (parse_channel_value (N:=N)) l = Ok ns /\ Forall channel ns /\ length ns = length l) \/
    mapr (parse_channel_value (N:=N)) l = Raise OverflowError.
  Proof.
    induction l as [|s l IH]; [left; exists []; repeat split; constructor|]. cbn [mapr].
    destruct (channel_range s) as [(n & -> & Hn)| ->]; [|now right]. cbn [rbind].
    destruct IH as [(ns & -> & H1 & H2)| ->]; [|now right]. left. exists (n :: ns). cbn [rbind length]. auto.
  Qed.
  Lemma cssrgb_range s : (exists l, cssrgb_to_rgb (N:=N) s = Ok l /\ Forall channel l /\ (length l = 3 \/ length l = 4)) \/
    cssrgb_to_rgb (N:=N) s = Raise OverflowError.
  Proof.
    unfold cssrgb_to_rgb. generalize (split_on "," (strip_by (fun c => cin c "rgba() ") (strip s))). intros ps.
    destruct (mapr_channels (firstn 4 ps)) as [(ns & -> & H1 & H2)| ->]; [|now right]. left. cbn [rbind]. eexists. split; [reflexivity|].
    rewrite firstn_length in H2. split.
    - apply Forall_app. split; [exact H1|]. apply Forall_forall. intros x Hx. apply repeat_spec in Hx. subst. unfold channel. lia.
    - rewrite app_length, repeat_length. lia.
  Qed.

  (** integers *)
  Lemma digits_all ds : forallb is_digit (map digit_text ds) = true.
  Proof. induction ds as [|[] ds IH]; cbn [map forallb]; auto. Qed.
  Lemma digit_ws d : is_ws (digit_text d) = false.
  Proof. now destruct d. Qed.
  Lemma blank_forall b : Forall blank b -> Forall (fun c => is_ws c = true) b.
  Proof. intros H. eapply Forall_impl; [|exact H]. exact blank_ws. Qed.
  Lemma strip_digits b1 ds b2 : Forall blank b1 -> Forall blank b2 -> ds <> [] -> strip (b1 ++ map digit_text ds ++ b2) = map digit_text ds.
  Proof.
    intros H1 H2 Hne. apply strip_word; auto using blank_forall.
    - destruct ds as [|d ds]; [congruence|]. exists (digit_text d), (map digit_text ds). split; [reflexivity|apply digit_ws].
    - destruct (exists_last Hne) as (r & x & ->). rewrite map_app. exists (digit_text x), (map digit_text r). split; [reflexivity|apply digit_ws].
  Qed.
  Lemma channel_integer b1 ds b2 : Forall blank b1 -> Forall blank b2 -> ds <> [] ->
    parse_channel_value (N:=N) (b1 ++ map digit_text ds ++ b2) = Ok (Z.min (positional 0 ds) 255).
  Proof.
    intros H1 H2 Hne. unfold parse_channel_value. rewrite strip_digits by assumption.
    assert (ends_with_percent (map digit_text ds) = false) as ->.
    { unfold ends_with_percent. destruct (exists_last Hne) as (r & x & ->). rewrite map_app, rev_app_distr. cbn. now destruct x. }
    rewrite digits_all. destruct ds as [|d ds]; [congruence|]. cbn [map].
    change (digit_text d :: map digit_text ds) with (map digit_text (d :: ds)).
    assert (py_int (map digit_text (d :: ds)) = Ok (positional 0 (d :: ds))) as ->.
    { exact (py_int_text NoSign (d :: ds) ltac:(discriminate)). }
    f_equal. assert (forall a, (0 <= a)%Z -> forall ds, (0 <= positional a ds)%Z) as Hp.
    { intros a Ha es. revert a Ha. induction es as [|[] es IH]; intros a Ha; cbn [positional digit_value]; try apply IH; lia. }
    specialize (Hp 0%Z ltac:(lia) (d :: ds)). lia.
  Qed.
End N.
