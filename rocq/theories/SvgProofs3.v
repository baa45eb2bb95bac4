(** * SvgProofs3: parse_path on arbitrary strings; explode_path. *)
From Coq Require Import String Ascii ZArith NArith List Bool Lia.
From Verif Require Import Num Str Svg SvgSpec SvgProofs SvgProofs2.
Import ListNotations.

Lemma py_int_exn s e : py_int s = Raise e -> e = ValueError.
Proof.
  unfold py_int. destruct (take_sign s) as [neg r]. destruct (span is_digit r) as [[|] [|]]; now intros [= <-].
Qed.
Lemma decimal_exn s e : decimal s = Raise e -> e = ValueError.
Proof.
  unfold decimal. destruct (take_sign s) as [neg r]. destruct (span is_digit r) as [ip r1].
  destruct (match r1 with [] => _ | _ => _ end) as [fp r2].
  destruct (ip ++ fp); [now intros [= <-]|].
  destruct r2 as [|c q]; [discriminate|]. destruct (cin c "eE"); [|now intros [= <-]].
  destruct (py_int q) as [z|x] eqn:E; [discriminate|]. intros [= <-]. eapply py_int_exn; eauto.
Qed.

Section P.
  Context {N : NumOps}.
  Notation pval := (pval N).
  Notation pst := (pst N).

  Definition typed (cs : list bool) (ps : list pval) : Prop :=
    Forall2 (fun (c : bool) p => match p with F _ => c = false | I _ => c = true end) cs ps.

  (** the documented shape of a yielded tuple *)
  Definition canonical (o : outp N) : Prop :=
    let '(c, ps) := o in
    (c = "M"%char /\ exists x y, ps = [F x; F y]) \/
    (c = "L"%char /\ exists x y, ps = [F x; F y]) \/
    (c = "C"%char /\ exists a b c d x y, ps = [F a; F b; F c; F d; F x; F y]) \/
    (c = "Q"%char /\ exists a b x y, ps = [F a; F b; F x; F y]) \/
    (c = "A"%char /\ exists a b c l s x y, ps = [F a; F b; F c; I l; I s; F x; F y]).

  Definition inv (st : pst) : Prop :=
    match cur st with
    | None => expecting st = true /\ params st = []
    | Some c =>
        PATHDEFS c = Some (pdef st) /\
        (if expecting st then params st = [] else
           exists c1 c2, casts (pdef st) = c1 ++ c2 /\ typed c1 (params st) /\
             (c2 = [] -> nparams (pdef st) = 0))
    end.

  Lemma PATHDEFS_cases c d : PATHDEFS c = Some d ->
    In c ["M"; "L"; "H"; "V"; "C"; "S"; "Q"; "T"; "A"; "Z"]%char /\ d = sdef c /\
    length (casts d) = nparams d /\ length (axes d) = nparams d.
  Proof.
    unfold PATHDEFS, sdef.
    repeat match goal with |- context [if Ascii.eqb c ?x then _ else _] =>
      destruct (Ascii.eqb_spec c x) as [->|?];
      [intros [= <-]; (split; [cbn; tauto|]); repeat split |] end.
    discriminate.
  Qed.

  Lemma ints_are_arc_flags c d k : PATHDEFS c = Some d -> nth_error (casts d) k = Some true ->
    c = "A"%char /\ nth_error (axes d) k = Some None.
  Proof.
    intros H. destruct (PATHDEFS_cases _ _ H) as (Hin & -> & _). revert Hin.
    clear. intros Hin Hk.
    repeat (destruct Hin as [<-|Hin];
      [unfold sdef in Hk; cbn in Hk; do 8 (destruct k as [|k]; [cbn in Hk; try discriminate; split; reflexivity|]);
       cbn in Hk; destruct k; discriminate|]).
    destruct Hin.
  Qed.

  Lemma typed_length cs ps : typed cs ps -> length cs = length ps.
  Proof. induction 1; cbn; congruence. Qed.

  (** the parameters accumulated by one more token *)
  Lemma accumulate_inv st t c :
    cur st = Some c -> PATHDEFS c = Some (pdef st) -> expecting st = false ->
    (exists c1 c2, casts (pdef st) = c1 ++ c2 /\ typed c1 (params st) /\ (c2 = [] -> nparams (pdef st) = 0)) ->
    match accumulate st t with
    | Ok ps => exists c1 c2, casts (pdef st) = c1 ++ c2 /\ typed c1 ps
    | Raise e => e = ValueError /\
        (decimal t = Raise ValueError \/ (c = "A"%char /\ py_int t = Raise ValueError))
    end.
  Proof.
    intros Hc Hd He (c1 & c2 & Hcs & Ht & Hz).
    destruct (PATHDEFS_cases _ _ Hd) as (Hin & Hdef & Hl1 & Hl2).
    unfold accumulate.
    assert (length (params st) = length c1) as Hlen by (symmetry; now apply typed_length).
    destruct (Nat.ltb_spec (length (params st)) (nparams (pdef st))) as [Hlt|Hge]; [|eauto].
    destruct c2 as [|b c2].
    { rewrite app_nil_r in Hcs. rewrite <- Hl1, Hcs in Hlt. lia. }
    assert (nth_error (casts (pdef st)) (length (params st)) = Some b) as Hb.
    { rewrite Hcs, Hlen, nth_error_app2, Nat.sub_diag by lia. reflexivity. }
    rewrite Hb.
    assert (exists a, nth_error (axes (pdef st)) (length (params st)) = Some a) as [a Ha].
    { destruct (nth_error (axes (pdef st)) (length (params st))) eqn:E; [eauto|].
      apply nth_error_None in E. lia. }
    rewrite Ha.
    assert (forall v, (match v with F _ => b = false | I _ => b = true end) ->
      typed (c1 ++ [b]) (params st ++ [v])) as Happ.
    { intros v Hv. apply Forall2_app; [exact Ht|]. constructor; [exact Hv|constructor]. }
    assert (forall v, (match v with F _ => b = false | I _ => b = true end) ->
      exists d1 d2, casts (pdef st) = d1 ++ d2 /\ typed d1 (params st ++ [v])) as Hres.
    { intros v Hv. exists (c1 ++ [b]), c2. split; [now rewrite Hcs, <- app_assoc|auto]. }
    destruct b.
    - (* an int: arc flags *)
      assert (c = "A"%char /\ a = None) as [HA Hax].
      { destruct (ints_are_arc_flags _ _ _ Hd Hb) as [-> H]. split; congruence. }
      destruct (py_int t) as [z|x] eqn:Ez; cbn [rbind].
      + destruct (isrel st); [subst a|]; apply Hres; reflexivity.
      + pose proof (py_int_exn _ _ Ez). subst x. split; [reflexivity|]. right. auto.
    - unfold py_float. destruct (decimal t) as [[[ng m] e]|x] eqn:Ed; cbn [rbind].
      + destruct (isrel st); [destruct a as [a|]|]; apply Hres; reflexivity.
      + pose proof (decimal_exn _ _ Ed). subst x. split; [reflexivity|]. now left.
  Qed.

  Lemma complete_inv st ps c :
    cur st = Some c -> PATHDEFS c = Some (pdef st) -> typed (casts (pdef st)) ps ->
    exists st' o, complete st ps = Cont st' None (Some o) /\ inv st' /\ canonical o /\
      cur st' = Some c /\ (c = "M"%char -> fst o = "M"%char).
  Proof.
    intros Hc Hd Ht. destruct (PATHDEFS_cases _ _ Hd) as (Hin & Hdef & _ & _).
    destruct st as [cu df mv pn lc ir ex pm]. cbn [cur pdef] in *. subst cu df.
    repeat (destruct Hin as [<-|Hin];
      [unfold sdef in Ht; cbn in Ht;
       repeat match goal with H : typed _ _ |- _ => unfold typed in H; inversion H; clear H; subst
              | H : Forall2 _ _ _ |- _ => inversion H; clear H; subst end;
       repeat match goal with H : match ?p with F _ => _ | I _ => _ end |- _ => destruct p; try discriminate; clear H end;
       do 2 eexists; (split; [cbn; reflexivity|]); (split; [cbn; split; reflexivity|]);
       (split; [|split; [reflexivity|cbn; congruence]]); cbn;
       first [left; split; [reflexivity|]; repeat eexists
             |right; left; split; [reflexivity|]; repeat eexists
             |right; right; left; split; [reflexivity|]; repeat eexists
             |right; right; right; left; split; [reflexivity|]; repeat eexists
             |right; right; right; right; split; [reflexivity|]; repeat eexists]|]).
    destruct Hin.
  Qed.

  (** a token as the tokenizer produces it, or the empty token pushed by Z *)
  Definition tok_ok (t : token) : Prop :=
    if snd t then exists c, fst t = [c] /\ cin c "MmZzLlHhVvCcSsQqTtAa" = true
    else forallb number_char (fst t) = true.

  Lemma PATHDEFS_upper c : cin c "MmZzLlHhVvCcSsQqTtAa" = true ->
    exists d, PATHDEFS (upper_ascii c) = Some d.
  Proof.
    intros H. apply cin_In in H. cbn in H.
    repeat (destruct H as [<-|H]; [eexists; reflexivity|]). destruct H.
  Qed.

  Lemma PATHDEFS_shape c d : PATHDEFS c = Some d -> casts d = [] -> nparams d = 0.
  Proof. intros H. destruct (PATHDEFS_cases _ _ H) as (_ & _ & <- & _). now intros ->. Qed.

  Lemma number_not_M t : forallb number_char t = true -> str_eqb (map upper_ascii t) (L "M") = false.
  Proof.
    intros H. unfold str_eqb. destruct (list_eq_dec ascii_dec (map upper_ascii t) (L "M")) as [E|]; [|reflexivity].
    destruct t as [|c [|]]; try discriminate. cbn in E. injection E as E.
    cbn [forallb] in H. rewrite andb_true_r in H. exfalso.
    assert (c = "M"%char \/ c = "m"%char) as [-> | ->]; [|discriminate H..].
    unfold upper_ascii in E. destruct (((97 <=? N_of_ascii c) && (N_of_ascii c <=? 122))%N) eqn:E1; [right|now left].
    assert (N_of_ascii (ascii_of_N (N_of_ascii c - 32)) = N_of_ascii "M"%char) as E2 by now rewrite E.
    apply andb_true_iff in E1 as [E3 E4]. apply N.leb_le in E3, E4.
    rewrite N_ascii_embedding in E2 by lia. change (N_of_ascii "M") with 77%N in E2.
    rewrite <- (ascii_N_embedding c). replace (N_of_ascii c) with 109%N by lia. reflexivity.
  Qed.

  Lemma step_inv st t : inv st -> tok_ok t ->
    match step st t with
    | Break => True
    | Fail e => e = ValueError /\ snd t = false /\
        (decimal (fst t) = Raise ValueError \/ (cur st = Some "A"%char /\ py_int (fst t) = Raise ValueError))
    | Cont st' p o =>
        inv st' /\ (match o with Some x => canonical x | None => True end) /\
        (match p with
         | Some t' => tok_ok t' /\ (t' = t \/ cur st' = Some "Z"%char)
         | None => True end) /\
        (cur st' = cur st \/ (exists c, t = ([c], true) /\ cur st' = Some (upper_ascii c)) \/ cur st' = Some "L"%char)
    end.
  Proof.
    intros Hi Ht. unfold step. destruct (expecting st) eqn:E.
    - assert (params st = []) as Hp by (unfold inv in Hi; destruct (cur st); rewrite ?E in Hi; tauto).
      unfold step_command. destruct t as [t ic]. unfold tok_ok in Ht. cbn [fst snd] in *.
      destruct (match cur st with Some _ => false | None => true end && _) eqn:Eb; [exact Logic.I|].
      destruct ic.
      + destruct Ht as (c & -> & Hc). destruct (PATHDEFS_upper c Hc) as [d Hd]. rewrite Hd.
        split.
        { unfold inv. cbn. split; [exact Hd|]. rewrite Hp. exists [], (casts d).
          split; [reflexivity|]. split; [constructor|]. intros H. eapply PATHDEFS_shape; eauto. }
        split; [exact Logic.I|]. split.
        { cbn [cur]. destruct (Ascii.eqb_spec (upper_ascii c) "Z") as [->|]; [|exact Logic.I].
          split; [reflexivity|]. now right. }
        right. left. eauto.
      + rewrite (number_not_M t Ht) in Eb. cbn [negb] in Eb. rewrite andb_true_r in Eb.
        destruct (cur st) as [c|] eqn:Ec; [|discriminate]. clear Eb.
        unfold inv in Hi. rewrite Ec, E in Hi. destruct Hi as [Hd _].
        cbn [is_cmd]. destruct (Ascii.eqb_spec c "M") as [->|Hc].
        * destruct (PATHDEFS "L") as [d|] eqn:EL; [|discriminate].
          split.
          { unfold inv. cbn [cur pdef expecting params]. split; [exact EL|]. rewrite Hp. exists [], (casts d).
            split; [reflexivity|]. split; [constructor|]. intros H. eapply PATHDEFS_shape; eauto. }
          split; [exact Logic.I|]. split; [split; [exact Ht|now left]|]. right; right; reflexivity.
        * split.
          { unfold inv. cbn [cur pdef expecting params]. split; [exact Hd|]. rewrite Hp. exists [], (casts (pdef st)).
            split; [reflexivity|]. split; [constructor|]. intros H. eapply PATHDEFS_shape; eauto. }
          split; [exact Logic.I|]. split; [split; [exact Ht|now left]|]. left; reflexivity.
    - unfold inv in Hi. destruct (cur st) as [c|] eqn:Ec; [|rewrite E in Hi; destruct Hi; discriminate].
      rewrite E in Hi. destruct Hi as [Hd Hps].
      destruct (snd t) eqn:Et; [exact Logic.I|].
      pose proof (accumulate_inv st (fst t) c Ec Hd E Hps) as Ha.
      destruct (accumulate st (fst t)) as [ps|e].
      + destruct Ha as (c1 & c2 & Hcs & Hty).
        destruct (Nat.eqb_spec (length ps) (nparams (pdef st))) as [El|El].
        * destruct (PATHDEFS_cases _ _ Hd) as (_ & _ & Hl & _).
          assert (c2 = []) as ->.
          { apply typed_length in Hty. apply (f_equal (@length _)) in Hcs. rewrite app_length in Hcs.
            destruct c2; [reflexivity|]. cbn in Hcs. lia. }
          rewrite app_nil_r in Hcs. rewrite <- Hcs in Hty.
          destruct (complete_inv st ps c Ec Hd Hty) as (st' & o & -> & H1 & H2 & H3 & _).
          split; [exact H1|]. split; [exact H2|]. split; [exact Logic.I|]. left. congruence.
        * split.
          { unfold inv. cbn [cur pdef expecting params]. split; [exact Hd|].
            exists c1, c2. split; [exact Hcs|]. split; [exact Hty|]. intros ->. rewrite app_nil_r in Hcs.
            destruct (PATHDEFS_cases _ _ Hd) as (_ & _ & Hl & _). apply typed_length in Hty. congruence. }
          split; [exact Logic.I|]. split; [exact Logic.I|]. left. reflexivity.
      + destruct Ha as [-> Ha]. split; [reflexivity|]. split; [reflexivity|].
        destruct Ha as [Ha|[-> Ha]]; [now left|right; auto].
  Qed.

  Lemma inv0 : inv pst0.
  Proof. split; reflexivity. Qed.

  Lemma prun_any toks : forall st, inv st -> Forall tok_ok toks ->
    Forall canonical (fst (prun toks st)) /\
    (snd (prun toks st) = None \/ snd (prun toks st) = Some ValueError).
  Proof.
    induction toks as [|t toks IH]; intros st Hi Ht; [cbn; auto|].
    inversion_clear Ht as [|? ? Ht1 Ht2]. cbn [prun].
    pose proof (step_inv st t Hi Ht1) as Hs.
    destruct (step st t) as [|e|st1 [t'|] o] eqn:E1.
    - cbn; auto.
    - destruct Hs as [-> _]. cbn; auto.
    - destruct Hs as (Hi1 & Ho & [Ht' _] & _).
      pose proof (step_inv st1 t' Hi1 Ht') as Hs'.
      assert (Forall canonical (fst (match step st1 t' with
        | Break => ([], None) | Fail e => ([], Some e)
        | Cont st2 (Some _) _ => ([], Some OutOfFuel)
        | Cont st2 None o' => emit o' (prun toks st2) end)) /\
        (snd (match step st1 t' with
        | Break => ([], None) | Fail e => ([], Some e)
        | Cont st2 (Some _) _ => ([], Some OutOfFuel)
        | Cont st2 None o' => emit o' (prun toks st2) end) = None \/
         snd (match step st1 t' with
        | Break => ([], None) | Fail e => ([], Some e)
        | Cont st2 (Some _) _ => ([], Some OutOfFuel)
        | Cont st2 None o' => emit o' (prun toks st2) end) = Some ValueError)) as Hm.
      { destruct (step st1 t') as [|e|st2 [t''|] o'] eqn:E2.
        - cbn; auto.
        - destruct Hs' as [-> _]. cbn; auto.
        - pose proof (step_push_expecting _ _ _ _ _ E1). now apply step_nopush in E2.
        - destruct Hs' as (Hi2 & Ho' & _). destruct (IH st2 Hi2 Ht2).
          destruct o'; cbn [emit fst snd]; auto. }
      destruct Hm. destruct o; cbn [emit fst snd]; auto.
    - destruct Hs as (Hi1 & Ho & _). destruct (IH st1 Hi1 Ht2).
      destruct o; cbn [emit fst snd]; auto.
  Qed.

  (** with well-formed numbers and no arcs nothing is raised *)
  Definition tok_good (t : token) : Prop :=
    if snd t then exists c, fst t = [c] /\ cin c "MmZzLlHhVvCcSsQqTt" = true
    else forallb number_char (fst t) = true /\ exists v, decimal (fst t) = Ok v.

  Lemma tok_good_ok t : tok_good t -> tok_ok t.
  Proof.
    unfold tok_good, tok_ok. destruct (snd t); [|tauto].
    intros (c & H & Hc). exists c. split; [exact H|]. apply cin_In in Hc. apply In_cin. cbn in *. tauto.
  Qed.

  Lemma not_A c : cin c "MmZzLlHhVvCcSsQqTt" = true -> upper_ascii c <> "A"%char.
  Proof.
    intros H. apply cin_In in H. cbn in H.
    repeat (destruct H as [<-|H]; [discriminate|]). destruct H.
  Qed.

  Lemma prun_safe toks : forall st, inv st -> cur st <> Some "A"%char -> Forall tok_good toks ->
    snd (prun toks st) = None.
  Proof.
    induction toks as [|t toks IH]; intros st Hi HA Ht; [reflexivity|].
    inversion_clear Ht as [|? ? Ht1 Ht2]. cbn [prun].
    pose proof (step_inv st t Hi (tok_good_ok _ Ht1)) as Hs.
    assert (forall st' : pst, (cur st' = cur st \/ (exists c, t = ([c], true) /\ cur st' = Some (upper_ascii c)) \/ cur st' = Some "L"%char)
      -> cur st' <> Some "A"%char) as HnA.
    { intros st' [->|[(c & -> & ->)| ->]]; [exact HA| |discriminate].
      unfold tok_good in Ht1. cbn [fst snd] in Ht1. destruct Ht1 as (c' & [= <-] & Hc).
      intros [= H]. now apply (not_A c). }
    assert (forall e, snd (fst t, snd t) = false -> decimal (fst t) = Raise e -> False) as Hdec.
    { intros e H1 H2. unfold tok_good in Ht1. cbn [snd] in H1. rewrite H1 in Ht1. destruct Ht1 as (_ & v & Hv). congruence. }
    destruct (step st t) as [|e|st1 [t'|] o] eqn:E1.
    - reflexivity.
    - destruct Hs as (-> & Hf & [Hd|[Hd _]]); [destruct (Hdec _ Hf Hd)|contradiction].
    - destruct Hs as (Hi1 & Ho & [Ht' Hor] & Hcur).
      pose proof (step_inv st1 t' Hi1 Ht') as Hs'.
      assert (snd (match step st1 t' with
        | Break => ([], None) | Fail e => ([], Some e)
        | Cont st2 (Some _) _ => ([], Some OutOfFuel)
        | Cont st2 None o' => emit o' (prun toks st2) end) = None) as Hm.
      { pose proof (step_push_expecting _ _ _ _ _ E1) as Hx1.
        destruct (step st1 t') as [|e|st2 [t''|] o'] eqn:E2.
        - reflexivity.
        - exfalso. destruct Hs' as (-> & Hf & Hd). destruct Hor as [-> | HZ].
          + destruct Hd as [Hd|[Hd _]]; [exact (Hdec _ Hf Hd)|]. now apply (HnA st1).
          + (* Z has no parameters *)
            revert E2. unfold step. rewrite Hx1. unfold inv in Hi1. rewrite HZ in Hi1. destruct Hi1 as [Hd1 _].
            destruct (snd t'); [discriminate|]. unfold accumulate.
            change (PATHDEFS "Z") with (Some (mkdef "L" 0 [] [])) in Hd1. injection Hd1 as Hd1. rewrite <- Hd1. cbn [nparams Nat.ltb Nat.leb].
            destruct (Nat.eqb_spec (length (params st1)) 0) as [El|]; [|discriminate].
            destruct (params st1); [|discriminate].
            destruct (complete_inv st1 [] "Z"%char HZ) as (? & ? & -> & _).
            { now rewrite <- Hd1. }
            { rewrite <- Hd1. constructor. }
            discriminate.
        - now apply step_nopush in E2.
        - destruct Hs' as (Hi2 & _ & _ & Hcur2).
          assert (cur st2 <> Some "A"%char).
          { destruct Hcur2 as [->|[(c & -> & Hc)| ->]]; [now apply HnA| |discriminate].
            exfalso. destruct Hor as [<-|HZ].
            - revert E2. unfold step. rewrite Hx1. discriminate.
            - revert E2. unfold step. rewrite Hx1. discriminate. }
          specialize (IH st2 Hi2 H Ht2). destruct o'; cbn [emit snd]; auto. }
      destruct o; cbn [emit snd]; exact Hm.
    - destruct Hs as (Hi1 & Ho & _ & Hcur).
      specialize (IH st1 Hi1 (HnA _ Hcur) Ht2). destruct o; cbn [emit snd]; auto.
  Qed.

  (** the first yielded command is a moveto *)
  Lemma prun_waiting toks : forall st : pst, cur st = Some "M"%char -> PATHDEFS "M" = Some (pdef st) ->
    expecting st = false -> inv st -> Forall tok_ok toks ->
    match fst (prun toks st) with [] => True | o :: _ => fst o = "M"%char end.
  Proof.
    induction toks as [|t toks IH]; intros st Hc Hd He Hi Ht; [exact Logic.I|].
    inversion_clear Ht as [|? ? Ht1 Ht2]. cbn [prun].
    pose proof (step_inv st t Hi Ht1) as Hs.
    unfold step in *. rewrite He in *. destruct (snd t); [exact Logic.I|].
    destruct (accumulate st (fst t)) as [ps|]; [|exact Logic.I].
    destruct (Nat.eqb _ _).
    - unfold complete in *. rewrite Hc in *. cbn [is_cmd] in *.
      change (Ascii.eqb "M" "M") with true in *. cbn beta iota in *.
      destruct (pidx ps 0); cbn [rbind] in *; [|exact Logic.I].
      destruct (pidx ps 1); cbn [rbind] in *; [|exact Logic.I].
      change (Ascii.eqb "M" "C" || Ascii.eqb "M" "Q") with false in *. cbn beta iota in *. cbn [rbind] in *.
      destruct (pneg ps 2); cbn [rbind] in *; [|exact Logic.I].
      destruct (pneg ps 1); cbn [rbind] in *; [|exact Logic.I].
      cbn [emit fst]. change (PATHDEFS "M") with (Some (mkdef "M" 2 [false; false] [ax; ay])) in Hd.
      injection Hd as <-. reflexivity.
    - cbn [emit]. destruct Hs as [Hi' _]. apply IH; auto.
  Qed.

  Lemma prun_first toks : Forall tok_ok toks ->
    match fst (prun toks (pst0 : pst)) with [] => True | o :: _ => fst o = "M"%char end.
  Proof.
    intros Ht. destruct toks as [|t toks]; [exact Logic.I|].
    inversion_clear Ht as [|? ? Ht1 Ht2]. pose proof (step_inv pst0 t inv0 Ht1) as Hs.
    cbn [prun]. unfold step in *. cbn [expecting pst0] in *. unfold step_command in *.
    destruct t as [t ic]. cbn [cur pst0 andb] in *.
    destruct (str_eqb (map upper_ascii t) (L "M")) eqn:EM; cbn [negb] in *; [|exact Logic.I].
    destruct ic.
    - destruct Ht1 as (c & Hc & Hc'). cbn [fst] in Hc. subst t.
      unfold str_eqb in EM. destruct (list_eq_dec _ _ _) as [E|]; [|discriminate]. cbn in E. injection E as E.
      rewrite E in *. change (PATHDEFS "M") with (Some (mkdef "M" 2 [false; false] [ax; ay])) in *. cbn beta iota in *.
      change (Ascii.eqb "M" "Z") with false in *. cbn beta iota in *. cbn [emit]. destruct Hs as [Hi _].
      apply prun_waiting; auto.
    - unfold tok_ok in Ht1. cbn [fst snd] in Ht1. rewrite (number_not_M t Ht1) in EM. discriminate.
  Qed.

  Lemma tokenizer_ok s : Forall tok_ok (path_tokenizer s).
  Proof.
    eapply Forall_impl; [|apply (tok_shapes false [] s); [reflexivity|discriminate]].
    intros t. unfold tok_ok. destruct (snd t); tauto.
  Qed.

  Lemma item_good i : item_ok i ->
    match i with Cmd c => c <> "A"%char /\ c <> "a"%char | _ => True end -> tok_ok (tok_of i) -> tok_good (tok_of i).
  Proof.
    destruct i as [c|n|b]; unfold tok_ok, tok_good, tok_of; cbn [snd fst item_ok item_text].
    - intros H [H1 H2] _. exists c. split; [reflexivity|]. unfold is_letter in H. cbn in H. apply In_cin. cbn.
      intuition congruence.
    - intros H _ Hn. split; [exact Hn|]. rewrite decimal_text by exact H. eauto.
    - intros _ _ Hn. split; [exact Hn|]. destruct b; cbv; eauto.
  Qed.
End P.
