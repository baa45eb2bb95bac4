(** * GcodeLex: the emitted text reads back as the emitted blocks (C21, C22). *)
From Coq Require Import String Ascii ZArith NArith List Bool Lia.
From Verif Require Import Num NumF64 Str Gcode GcodeSpec GcodeProofs GcodeProofs2 GcodeProofs5 GcodeLexSpec.
Import ListNotations.
Local Open Scope string_scope.

Lemma lex_app a b s : lex_str (a ++ b) s = match lex_str a s with Some s' => lex_str b s' | None => None end.
Proof.
  revert s. induction a as [|x a IH]; intros s; [reflexivity|]. cbn. destruct (lex_char s x); auto.
Qed.
Lemma lex_app_some a b s s1 : lex_str a s = Some s1 -> lex_str (a ++ b) s = lex_str b s1.
Proof. intros H. rewrite lex_app, H. reflexivity. Qed.

(** ** Digits *)
Lemma digit_char_spec d : (d < 10)%N -> is_digit (digit_char d) = true /\ (N_of_ascii (digit_char d) - 48 = d)%N.
Proof.
  intros H. unfold digit_char, is_digit. rewrite N_ascii_embedding by lia.
  split; [|lia]. apply andb_true_iff. split; apply N.leb_le; lia.
Qed.

Lemma lex_digit d l neg m p f k D C : (d < 10)%N ->
  lex_char (mklex D C (Num l neg m p f k)) (digit_char d) =
  Some (mklex D C (Num l neg (m * 10 + d) p (if p then S f else f) (S k))).
Proof.
  intros H. destruct (digit_char_spec d H) as [H1 H2]. unfold lex_char. cbn [lmode_ ldone lcur]. now rewrite H1, H2.
Qed.

(** Reading [fixed n x acc] in the middle of a number. *)
Lemma lex_fixed n : forall x acc D C l neg m (p : bool) f k,
  lex_str (fixed n x acc) (mklex D C (Num l neg m p f k)) =
  lex_str acc (mklex D C (Num l neg (m * 10 ^ N.of_nat n + x mod 10 ^ N.of_nat n) p (if p then n + f else f)%nat (n + k))).
Proof.
  induction n as [|n IH]; intros.
  - cbn [fixed]. replace (m * 10 ^ N.of_nat 0 + x mod 10 ^ N.of_nat 0)%N with m.
    + destruct p; reflexivity.
    + cbn [N.of_nat]. rewrite N.pow_0_r, N.mod_1_r. lia.
  - cbn [fixed]. rewrite IH. cbn [lex_str].
    rewrite lex_digit by (apply N.mod_upper_bound; lia).
    do 3 f_equal.
    + rewrite Nat2N.inj_succ, N.pow_succ_r'. rewrite (N.mod_mul_r x 10 (10 ^ N.of_nat n)).
      * lia.
      * lia.
      * apply N.pow_nonzero; lia.
    + destruct p; lia.
Qed.

Lemma ndigits_aux_gt fuel : forall x, (x < 2 ^ N.of_nat fuel)%N -> (x < 10 ^ N.of_nat (ndigits_aux fuel x))%N /\ (1 <= ndigits_aux fuel x)%nat.
Proof.
  induction fuel as [|k IH]; intros x H.
  - cbn in *. split; [|lia]. lia.
  - cbn [ndigits_aux]. destruct (N.ltb_spec x 10).
    + split; [|lia]. cbn. lia.
    + rewrite Nat2N.inj_succ, N.pow_succ_r' in H.
      destruct (IH (x / 10)%N) as [A B].
      { apply N.div_lt_upper_bound; lia. }
      split; [|lia]. rewrite Nat2N.inj_succ, N.pow_succ_r'.
      pose proof (N.div_mod x 10). pose proof (N.mod_upper_bound x 10). lia.
Qed.
Lemma ndigits_gt x : (x < 10 ^ N.of_nat (ndigits x))%N /\ (1 <= ndigits x)%nat.
Proof. apply ndigits_aux_gt. rewrite N2Nat.id. apply N.size_gt. Qed.

(** The first digit after a letter. *)
Lemma lex_start_digit D C l d : (d < 10)%N ->
  lex_char (mklex D C (Start l)) (digit_char d) = Some (mklex D C (Num l false d false 0 1)).
Proof.
  intros H. destruct (digit_char_spec d H) as [H1 H2]. unfold lex_char. cbn [lmode_ ldone lcur].
  destruct (Ascii.eqb_spec (digit_char d) "-") as [E|]; [|now rewrite H1, H2].
  exfalso. rewrite E in H1. discriminate.
Qed.
(** Reading from [Start] is reading from an empty unsigned number, if a digit comes first. *)
Lemma lex_start_fixed n x acc D C l : (1 <= n)%nat ->
  lex_str (fixed n x acc) (mklex D C (Start l)) =
  lex_str (fixed n x acc) (mklex D C (Num l false 0 false 0 0)).
Proof.
  revert x acc. induction n as [|n IH]; intros x acc H; [lia|].
  cbn [fixed]. destruct n as [|n].
  - cbn [fixed lex_str]. assert (x mod 10 < 10)%N by (apply N.mod_upper_bound; lia).
    rewrite lex_start_digit, lex_digit by auto. reflexivity.
  - apply IH. lia.
Qed.

Lemma append_assoc (a b c : string) : (a ++ b) ++ c = a ++ (b ++ c).
Proof. induction a; cbn; congruence. Qed.
Lemma fixed_app n : forall x acc, fixed n x acc = fixed n x "" ++ acc.
Proof.
  induction n as [|n IH]; intros; [reflexivity|]. cbn [fixed]. rewrite IH, (IH _ (String _ "")), append_assoc. reflexivity.
Qed.

(** A natural number in decimal. *)
Lemma lex_N_text x D C l neg k :
  lex_str (N_text x) (mklex D C (Num l neg 0 false 0 k)) =
  Some (mklex D C (Num l neg x false 0 (ndigits x + k))).
Proof.
  unfold N_text. rewrite lex_fixed. cbn [lex_str]. do 3 f_equal.
  destruct (ndigits_gt x) as [H _]. rewrite N.mod_small by auto. lia.
Qed.
Lemma lex_N_start x D C l :
  lex_str (N_text x) (mklex D C (Start l)) = Some (mklex D C (Num l false x false 0 (ndigits x))).
Proof.
  unfold N_text. rewrite lex_start_fixed by apply ndigits_gt. fold (N_text x).
  rewrite lex_N_text. now rewrite Nat.add_0_r.
Qed.
Lemma lex_letter a D C : is_letter a = true ->
  lex_char (mklex D C Gap) a = Some (mklex D C (Start a)).
Proof.
  intros H. unfold lex_char, lex_gap. cbn [lmode_ ldone lcur].
  destruct (Ascii.eqb_spec a " ") as [->|]; [discriminate|].
  destruct (Ascii.eqb_spec a nl) as [->|]; [discriminate|].
  destruct (Ascii.eqb_spec a "(") as [->|]; [discriminate|].
  destruct (Ascii.eqb_spec a ";") as [->|]; [discriminate|].
  destruct (Ascii.eqb_spec a "%") as [->|]; [discriminate|].
  now rewrite H.
Qed.

(** ** Numbers *)
(** [num_end s t]: [s] is in the middle of a complete number; closing it appends [t]. *)
Definition at_num (s : lexer) (D : list (list token)) (C : list token) : Prop :=
  ldone s = D /\ close_num s = Some (mklex D C Gap) /\ exists l neg mag p f k, lmode_ s = Num l neg mag p f k.

Lemma lex_dec_text n neg mag D C l : (0 < n)%nat ->
  exists s, lex_str (dec_text n (DFin neg mag)) (mklex D C (Start l)) = Some s /\
    at_num s D (C ++ [(l, mkl neg mag n)]).
Proof.
  intros Hn. unfold dec_text. set (p := (10 ^ N.of_nat n)%N).
  assert (Hp : p <> 0%N) by (apply N.pow_nonzero; lia).
  assert (T : lex_str (N_text (mag / p) ++ "." ++ fixed n (mag mod p) "") (mklex D C (Num l neg 0 false 0 0)) =
          Some (mklex D C (Num l neg mag true n (n + (ndigits (mag / p) + 0))))).
  { rewrite (lex_app_some _ _ _ _ (lex_N_text (mag / p) D C l neg 0)).
    cbn [append lex_str].
    assert (lex_char (mklex D C (Num l neg (mag / p) false 0 (ndigits (mag / p) + 0))) "." =
            Some (mklex D C (Num l neg (mag / p) true 0 (ndigits (mag / p) + 0)))) as -> by reflexivity.
    rewrite lex_fixed. cbn [lex_str]. fold p. rewrite N.mod_mod by auto.
    replace (mag / p * p + mag mod p)%N with mag by (rewrite N.mul_comm; apply N.div_mod; auto).
    now rewrite Nat.add_0_r. }
  assert (E : at_num (mklex D C (Num l neg mag true n (n + (ndigits (mag / p) + 0)))) D (C ++ [(l, mkl neg mag n)])).
  { split; [reflexivity|]. split; [|do 6 eexists; reflexivity]. unfold close_num. cbn [lmode_ ldone lcur].
    destruct (Nat.eqb_spec (n + (ndigits (mag / p) + 0)) 0); [lia|]. reflexivity. }
  eexists. split; [|exact E].
  destruct neg.
  - change (lex_str ("-" ++ ?r) ?s) with (lex_str r (mklex D C (Num l true 0 false 0 0))).
    cbn [append lex_str]. exact T.
  - cbn [append]. rewrite <- T. unfold N_text.
    change (String "." ?r) with ("." ++ r). rewrite <- !fixed_app.
    apply lex_start_fixed, ndigits_gt.
Qed.

Lemma lex_Z_text v D C l :
  exists s, lex_str (Z_text v) (mklex D C (Start l)) = Some s /\
    at_num s D (C ++ [(l, mkl (v <? 0)%Z (Z.abs_N v) 0)]).
Proof.
  unfold Z_text. destruct (v <? 0)%Z.
  - eexists. split.
    + change ("-" ++ N_text (Z.abs_N v)) with (String "-" (N_text (Z.abs_N v))). cbn [lex_str].
      change (lex_char (mklex D C (Start l)) "-") with (Some (mklex D C (Num l true 0 false 0 0))).
      cbv iota. apply lex_N_text.
    + split; [reflexivity|]. split; [|do 6 eexists; reflexivity]. unfold close_num. cbn [lmode_ ldone lcur].
      destruct (Nat.eqb_spec (ndigits (Z.abs_N v) + 0) 0); [pose proof (ndigits_gt (Z.abs_N v)); lia|]. reflexivity.
  - eexists. split; [apply lex_N_start|].
    split; [reflexivity|]. split; [|do 6 eexists; reflexivity]. unfold close_num. cbn [lmode_ ldone lcur].
    destruct (Nat.eqb_spec (ndigits (Z.abs_N v)) 0); [pose proof (ndigits_gt (Z.abs_N v)); lia|]. reflexivity.
Qed.

(** After a number, a separator closes it. *)
Lemma at_num_char s D C a : at_num s D C -> is_digit a = false -> Ascii.eqb a "." = false ->
  lex_char s a = lex_gap (mklex D C Gap) a.
Proof.
  intros (_ & H & (l & neg & mag & p & f & k & E)) Ha Hd. unfold lex_char. rewrite E, Ha, Hd, H. reflexivity.
Qed.

Lemma at_num_ne s D X : at_num s D X -> X <> [].
Proof.
  intros (_ & A & (l & neg & mag & p & f & k & E)) ->.
  unfold close_num in A. rewrite E in A. destruct (Nat.eqb k 0); [discriminate|].
  injection A as _ A. destruct (lcur s); discriminate.
Qed.

Lemma lex_word w t D C : (0 < wprec w)%nat -> word_token w = Some t -> is_letter (fst t) = true ->
  exists s, lex_str (word_text w) (mklex D C Gap) = Some s /\ at_num s D (C ++ [t]).
Proof.
  intros Hp Ht Hl. unfold word_token in Ht. unfold word_text.
  destruct (wname w) as [|a [|b r]]; try discriminate. destruct (wval w) as [neg mag|?|]; try discriminate.
  injection Ht as <-. cbn [fst] in Hl. cbn [append lex_str]. rewrite lex_letter by auto.
  apply lex_dec_text; auto.
Qed.

Lemma code_lex code t D C : code_tokens code = Some t -> code <> "" ->
  exists s, lex_str code (mklex D C Gap) = Some s /\ at_num s D (C ++ t).
Proof.
  unfold code_tokens. destruct (find _ code_table) as [[c' t']|] eqn:F; [|discriminate].
  intros [= ->] Hne. apply find_some in F as [Hin E]. apply String.eqb_eq in E. cbn in E. subst c'.
  cbn [code_table In] in Hin.
  repeat (destruct Hin as [Hin|Hin]; [injection Hin as <- <-;
    first [congruence | eexists; split; [reflexivity|split; [reflexivity|split; [reflexivity|do 6 eexists; reflexivity]]]]|]).
  destruct Hin.
Qed.

Lemma join_cons x l : l <> [] -> join_sp (x :: l) = x ++ " " ++ join_sp l.
Proof. destruct l; [congruence|reflexivity]. Qed.

Lemma lex_words ws : forall ts D C, ws <> [] ->
  Forall (fun w => (0 < wprec w)%nat) ws -> all_some (map word_token ws) = Some ts ->
  Forall (fun t : token => is_letter (fst t) = true) ts ->
  exists s, lex_str (join_sp (map word_text ws)) (mklex D C Gap) = Some s /\ at_num s D (C ++ ts).
Proof.
  induction ws as [|w ws IH]; intros ts D C Hne HP HT HL; [congruence|].
  cbn [map all_some] in HT. destruct (word_token w) as [t|] eqn:E; [|discriminate].
  destruct (all_some (map word_token ws)) as [ts'|] eqn:E'; [|discriminate]. injection HT as <-.
  inversion HP; subst. inversion HL; subst.
  destruct (lex_word w t D C) as [s [S1 A1]]; auto.
  destruct ws as [|w' ws].
  - cbn in E'. injection E' as <-. exists s. cbn [map join_sp]. auto.
  - cbn [map]. rewrite join_cons by discriminate. rewrite (lex_app_some _ _ _ _ S1).
    cbn [append lex_str]. rewrite (at_num_char _ _ _ _ A1) by reflexivity.
    change (lex_gap (mklex D (C ++ [t]) Gap) " ") with (Some (mklex D (C ++ [t])%list Gap)). cbv iota.
    destruct (IH ts' D (C ++ [t])%list) as [s' [S2 A2]]; auto; [discriminate|].
    exists s'. split; auto. now rewrite <- app_assoc in A2.
Qed.

(** ** Blocks *)
Definition body_readable (b : body) : Prop :=
  match b with
  | Block cmd ws => code_tokens cmd <> None /\ (cmd <> "" \/ ws <> []) /\
      Forall (fun w => (0 < wprec w)%nat /\ exists a, wname w = String a "" /\ is_letter a = true) ws
  | IntWord cmd name _ => code_tokens cmd <> None /\ cmd <> "" /\ exists a, name = String a "" /\ is_letter a = true
  | Opaque t => code_tokens t <> None /\ t <> ""
  | EqWord _ _ => False
  end.
Definition finite_words (b : body) : Prop :=
  match b with
  | Block _ ws => Forall (fun w => match wval w with DFin _ _ => True | _ => False end) ws
  | _ => True
  end.

Lemma all_some_words ws :
  Forall (fun w => (0 < wprec w)%nat /\ exists a, wname w = String a "" /\ is_letter a = true) ws ->
  Forall (fun w => match wval w with DFin _ _ => True | _ => False end) ws ->
  exists ts, all_some (map word_token ws) = Some ts /\ Forall (fun t : token => is_letter (fst t) = true) ts /\ length ts = length ws.
Proof.
  induction 1 as [|w ws [_ [a [E L]]] _ IH]; intros F; [exists []; auto|].
  inversion F as [|? ? Fw Fws]; subst. destruct (IH Fws) as [ts [E1 [E2 E3]]].
  cbn [map all_some]. unfold word_token at 1. rewrite E. destruct (wval w); try contradiction.
  rewrite E1. eexists. split; [reflexivity|]. split; [constructor; auto|cbn; auto].
Qed.

Lemma lex_body num b D : body_readable b -> finite_words b ->
  exists ts s, block_tokens (num, b) = Some ts /\ ts <> [] /\
    lex_str ((match num with Some n => "N" ++ N_text n ++ " " | None => "" end) ++ body_text b) (mklex D [] Gap) = Some s /\
    at_num s D ts.
Proof.
  intros HB HF.
  set (C := match num with Some n => [("N"%char, mkl false n 0)] | None => [] end).
  assert (H0 : lex_str (match num with Some n => "N" ++ N_text n ++ " " | None => "" end) (mklex D [] Gap) = Some (mklex D C Gap)).
  { destruct num as [n|]; [|reflexivity]. cbn [append lex_str].
    rewrite lex_letter by reflexivity. rewrite (lex_app_some _ _ _ _ (lex_N_start n D [] "N")).
    cbn [lex_str]. unfold lex_char. cbn [lmode_]. cbn [is_digit].
    change (is_digit " ") with false. cbn [Ascii.eqb Bool.eqb]. unfold close_num. cbn [lmode_ ldone lcur].
    destruct (Nat.eqb_spec (ndigits n) 0); [pose proof (ndigits_gt n); lia|]. reflexivity. }
  setoid_rewrite (lex_app_some _ _ _ _ H0).
  unfold block_tokens. cbn [fst snd]. fold C.
  destruct b as [cmd ws|cmd name v|? ?|t]; cbn [body_readable finite_words body_text] in *.
  - destruct HB as (Hc & Hne & HW). destruct (code_tokens cmd) as [ct|] eqn:EC; [|congruence].
    destruct (all_some_words ws HW HF) as [ts [E1 [E2 E3]]]. rewrite E1.
    assert (HP : Forall (fun w => (0 < wprec w)%nat) ws) by (eapply Forall_impl; [|exact HW]; cbn; tauto).
    destruct cmd as [|a cmd].
    + (* no command *)
      cbn [nonempty app]. destruct Hne as [Hne|Hne]; [congruence|].
      injection EC as <-. cbn [app].
      destruct (lex_words ws ts D C Hne HP E1 E2) as [s [S A]].
      exists (C ++ ts)%list, s. split; [reflexivity|]. split; auto.
      destruct ws; [congruence|]. destruct ts; [discriminate|]. destruct C; discriminate.
    + cbn [nonempty].
      destruct (code_lex _ _ D C EC ltac:(discriminate)) as [s [S A]].
      assert (Hct : (C ++ ct)%list <> []).
      { exact (at_num_ne _ _ _ A). }
      destruct ws as [|w ws].
      * cbn [map app]. cbn in E1. injection E1 as <-. rewrite app_nil_r.
        exists (C ++ ct)%list, s. cbn [join_sp]. auto.
      * assert (Hw : w :: ws <> []) by discriminate.
        cbn [app]. rewrite join_cons by discriminate. rewrite (lex_app_some _ _ _ _ S).
        cbn [append lex_str]. rewrite (at_num_char _ _ _ _ A) by reflexivity.
        change (lex_gap (mklex D (C ++ ct) Gap) " ") with (Some (mklex D (C ++ ct)%list Gap)). cbv iota.
        destruct (lex_words (w :: ws) ts D (C ++ ct)%list Hw HP E1 E2) as [s' [S' A']].
        exists (C ++ ct ++ ts)%list, s'. split; [reflexivity|]. rewrite app_assoc. split; auto.
        intros X. apply app_eq_nil in X as [X _]. contradiction.
  - destruct HB as (Hc & Hne & (a & -> & HL)). destruct (code_tokens cmd) as [ct|] eqn:EC; [|congruence].
    destruct (code_lex _ _ D C EC Hne) as [s [S A]]. rewrite (lex_app_some _ _ _ _ S).
    cbn [append lex_str]. rewrite (at_num_char _ _ _ _ A) by reflexivity.
    change (lex_gap (mklex D (C ++ ct) Gap) " ") with (Some (mklex D (C ++ ct)%list Gap)). cbv iota.
    rewrite lex_letter by auto.
    destruct (lex_Z_text v D (C ++ ct) a) as [s' [S' A']].
    exists (C ++ ct ++ [(a, mkl (v <? 0)%Z (Z.abs_N v) 0)])%list, s'. split; [reflexivity|]. rewrite app_assoc. split; auto.
    intros X. apply app_eq_nil in X as [_ X]. discriminate.
  - contradiction.
  - destruct HB as (Hc & Hne). destruct (code_tokens t) as [ct|] eqn:EC; [|congruence].
    destruct (code_lex _ _ D C EC Hne) as [s [S A]].
    exists (C ++ ct)%list, s. split; [reflexivity|]. split; auto. exact (at_num_ne _ _ _ A).
Qed.

(** ** Comments *)
Lemma lex_paren c : forall D C, clean c = true ->
  lex_str (c ++ ")") (mklex D C Paren) = Some (mklex D C Gap).
Proof.
  induction c as [|a c IH]; intros D C H; [reflexivity|].
  cbn [clean] in H. apply andb_true_iff in H as [H Hc]. apply andb_true_iff in H as [H1 H2].
  cbn [append lex_str]. unfold lex_char. cbn [lmode_ ldone lcur].
  apply negb_true_iff in H1, H2. rewrite H1, H2. apply IH; auto.
Qed.
Lemma lex_semi c : forall D, clean c = true -> lex_str (c ++ newline) (mklex D [] Semi) = Some (mklex D [] Gap).
Proof.
  induction c as [|a c IH]; intros D H; [reflexivity|].
  cbn [clean] in H. apply andb_true_iff in H as [H Hc]. apply andb_true_iff in H as [H1 H2].
  cbn [append lex_str]. unfold lex_char. cbn [lmode_ ldone lcur].
  apply negb_true_iff in H2. rewrite H2. apply IH; auto.
Qed.

(** ** Items *)
Definition item_readable (i : item) : Prop :=
  match i with
  | Raw t => In t [newline; "%" ++ newline; newline ++ newline; ";" ++ newline]
  | CLine _ c => clean c = true
  | Line _ b cm => body_readable b /\ match cm with Some c => clean c = true | None => True end
  end.
Definition item_finite (i : item) : Prop := match i with Line _ b _ => finite_words b | _ => True end.

Lemma lex_item i D : item_readable i -> item_finite i ->
  exists L, all_some (map block_tokens (exe [i])) = Some L /\
    lex_str (item_text i) (mklex D [] Gap) = Some (mklex (D ++ L) [] Gap).
Proof.
  intros HR HF. destruct i as [t|semi c|num b cm].
  - exists []. rewrite app_nil_r. split; [reflexivity|].
    cbn [item_readable In item_text] in *. destruct HR as [<-|[<-|[<-|[<-|[]]]]]; reflexivity.
  - exists []. rewrite app_nil_r. split; [reflexivity|]. cbn [item_readable] in HR. destruct semi; cbn [item_text].
    + cbn [append lex_str]. change (lex_char (mklex D [] Gap) ";") with (Some (mklex D [] Semi)). cbv iota.
      change (lex_char (mklex D [] Semi) " ") with (Some (mklex D [] Semi)). cbv iota. now apply lex_semi.
    + rewrite <- (append_assoc c). cbn [append lex_str].
      change (lex_char (mklex D [] Gap) "(") with (Some (mklex D [] Paren)). cbv iota. rewrite (lex_app_some _ _ _ _ (lex_paren c D [] HR)). reflexivity.
  - destruct HR as [HB HC]. cbn [item_finite] in HF.
    destruct (lex_body num b D HB HF) as (ts & s & E1 & E2 & E3 & E4).
    exists [ts]. cbn [exe flat_map app map all_some]. rewrite E1. split; [reflexivity|].
    cbn [item_text]. rewrite <- append_assoc, (lex_app_some _ _ _ _ E3).
    assert (NLs : forall D C, C <> [] -> lex_gap (mklex D C Gap) nl = Some (mklex (D ++ [C]) [] Gap)).
    { intros D0 C0 H0. destruct C0; [congruence|reflexivity]. }
    destruct cm as [c|].
    + rewrite !append_assoc. rewrite <- (append_assoc c).
      cbn [append lex_str]. rewrite (at_num_char _ _ _ _ E4) by reflexivity.
      change (lex_gap (mklex D ts Gap) " ") with (Some (mklex D ts Gap)). cbv iota.
      change (lex_char (mklex D ts Gap) "(") with (Some (mklex D ts Paren)). cbv iota.
      rewrite (lex_app_some _ _ _ _ (lex_paren c D ts HC)).
      cbn [newline lex_str]. unfold lex_char. cbn [lmode_].
      change (ascii_of_N 10) with nl. rewrite NLs by auto. reflexivity.
    + cbn [append newline lex_str]. change (ascii_of_N 10) with nl.
      rewrite (at_num_char _ _ _ _ E4) by reflexivity. rewrite NLs by auto. reflexivity.
Qed.

Lemma all_some_app {A} (l l' : list (option A)) a b :
  all_some l = Some a -> all_some l' = Some b -> all_some (l ++ l') = Some (a ++ b)%list.
Proof.
  revert a. induction l as [|[x|] l IH]; intros a H H'; cbn in *; [injection H as <-; auto| |discriminate].
  destruct (all_some l) as [r|]; [|discriminate]. injection H as <-. rewrite (IH r); auto.
Qed.

Lemma concat_cons (x : string) l : String.concat "" (x :: l) = x ++ String.concat "" l.
Proof.
  destruct l as [|y l]; cbn; [|reflexivity].
  induction x; cbn; congruence.
Qed.

Lemma read_items prog : Forall item_readable prog -> Forall item_finite prog ->
  forall D, exists L, all_some (map block_tokens (exe prog)) = Some L /\
    lex_str (render prog) (mklex D [] Gap) = Some (mklex (D ++ L) [] Gap).
Proof.
  intros HR. induction HR as [|i prog Hi _ IH]; intros HF D.
  - exists []. rewrite app_nil_r. split; reflexivity.
  - inversion HF as [|? ? Fi Fp]; subst.
    destruct (lex_item i D Hi Fi) as [L1 [A1 B1]].
    destruct (IH Fp (D ++ L1)%list) as [L2 [A2 B2]].
    exists (L1 ++ L2)%list. split.
    + change (i :: prog) with ([i] ++ prog)%list. rewrite exe_app, map_app. now apply all_some_app.
    + unfold render. cbn [map]. rewrite concat_cons, (lex_app_some _ _ _ _ B1). fold (render prog).
      rewrite B2. now rewrite app_assoc.
Qed.
