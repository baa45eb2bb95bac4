(** * SvgProofs2: parse_path against the reference semantics; any string. *)
From Coq Require Import String Ascii ZArith NArith List Bool Lia.
From Verif Require Import Num Str Svg SvgSpec SvgProofs.
Import ListNotations.

Section P.
  Context {N : NumOps}.
  Local Open Scope num_scope.
  Notation pval := (pval N).
  Notation pst := (pst N).

  (** The output tuple (cmd, params) of a drawn segment. *)
  Definition Fxy (p : xy N) : list pval := [F (xx p); F (yy p)].
  Definition flag (b : bool) : pval := I (if b then 1 else 0)%Z.
  Definition tuple (d : drawn N) : outp N :=
    match d with
    | DMove p => ("M"%char, Fxy p)
    | DLine p => ("L"%char, Fxy p)
    | DCurve a b p => ("C"%char, Fxy a ++ Fxy b ++ Fxy p)
    | DQuad a p => ("Q"%char, Fxy a ++ Fxy p)
    | DArc rx ry rot l s p => ("A"%char, [F rx; F ry; F rot; flag l; flag s] ++ Fxy p)
    end.

  (** ** The loop without fuel *)
  Fixpoint prun (toks : list token) (st : pst) : list (outp N) * option exn :=
    match toks with
    | [] => ([], None)
    | t :: r =>
        match step st t with
        | Break => ([], None)
        | Fail e => ([], Some e)
        | Cont st1 None o => emit o (prun r st1)
        | Cont st1 (Some t') o =>
            emit o (match step st1 t' with
                    | Break => ([], None)
                    | Fail e => ([], Some e)
                    | Cont st2 None o' => emit o' (prun r st2)
                    | Cont _ (Some _) _ => ([], Some OutOfFuel)
                    end)
        end
    end.

  Lemma complete_nopush (st : pst) ps st' t o : complete st ps <> Cont st' (Some t) o.
  Proof.
    unfold complete. match goal with |- context [match ?r with Ok _ => _ | Raise _ => _ end] => destruct r as [[? ?]|?] end;
      discriminate.
  Qed.
  Lemma step_nopush (st : pst) t st' t' o : expecting st = false -> step st t <> Cont st' (Some t') o.
  Proof.
    intros H. unfold step. rewrite H. destruct (snd t); [discriminate|].
    destruct (accumulate st (fst t)); [|discriminate].
    destruct (Nat.eqb _ _); [apply complete_nopush|discriminate].
  Qed.
  Lemma step_push_expecting (st : pst) t st' t' o : step st t = Cont st' (Some t') o -> expecting st' = false.
  Proof.
    destruct (expecting st) eqn:E.
    - unfold step. rewrite E. unfold step_command. destruct t as [t []].
      + destruct (_ && _); [discriminate|]. destruct t as [|c [|]]; try discriminate.
        destruct (PATHDEFS _); [|discriminate]. intros [= <- _ _]. reflexivity.
      + destruct (_ && _); [discriminate|]. destruct (is_cmd _ _); [destruct (PATHDEFS _); [|discriminate]|];
          intros [= <- _ _]; reflexivity.
    - intros H. now apply step_nopush in H.
  Qed.

  Lemma ploop_prun toks (st : pst) fuel : 2 * length toks < fuel -> ploop fuel None toks st = prun toks st.
  Proof.
    revert st fuel. induction toks as [|t toks IH]; intros st fuel Hf.
    - destruct fuel; [lia|]. reflexivity.
    - destruct fuel as [|fuel]; [lia|]. cbn [ploop prun]. cbn [length] in Hf.
      destruct (step st t) as [|e|st1 [t'|] o] eqn:E1; try reflexivity.
      + f_equal. destruct fuel as [|fuel]; [lia|]. cbn [ploop].
        pose proof (step_push_expecting _ _ _ _ _ E1) as Hx.
        destruct (step st1 t') as [|e|st2 [t''|] o'] eqn:E2; try reflexivity.
        * now apply step_nopush in E2.
        * rewrite IH by lia. reflexivity.
      + rewrite IH by lia. reflexivity.
  Qed.

  Lemma parse_path_prun d : parse_path d = prun (path_tokenizer d) pst0.
  Proof. unfold parse_path. apply ploop_prun. lia. Qed.

  (** ** One segment *)
  Definition sdef (c : ascii) : pathdef :=
    match PATHDEFS c with Some d => d | None => mkdef "M" 2 [false; false] [ax; ay] end.
  (** the parser about to read the parameters of a segment of kind [c] *)
  Definition ready (c : ascii) (rel : bool) (st : pst) : pst :=
    mkst (Some c) (sdef c) (moveto st) (pen st) (lastc st) rel false [].
  Definition pair (p : xy N) : N * N := (xx p, yy p).

  Lemma step_num (st : pst) n r : expecting st = false -> numeral_ok n ->
    prun (tok_of (Num n) :: r) st =
    match (let k := length (params st) in
           if Nat.ltb k (nparams (pdef st)) then
             match nth_error (casts (pdef st)) k with
             | None => Raise IndexError
             | Some is_int =>
                 if is_int then rbind (py_int (numeral_text n)) (fun z =>
                   rbind (Ok (I z)) (fun v => if isrel st then
                     match nth_error (axes (pdef st)) k with
                     | None => Raise IndexError
                     | Some None => Ok (params st ++ [v])
                     | Some (Some a) => Ok (params st ++ [padd v (if a then snd (pen st) else fst (pen st))])
                     end else Ok (params st ++ [v])))
                 else
                   let v := F (numeral_value n) in
                   if isrel st then
                     match nth_error (axes (pdef st)) k with
                     | None => Raise IndexError
                     | Some None => Ok (params st ++ [v])
                     | Some (Some a) => Ok (params st ++ [padd v (if a then snd (pen st) else fst (pen st))])
                     end else Ok (params st ++ [v])
             end
           else Ok (params st)) with
    | Raise e => ([], Some e)
    | Ok ps =>
        if Nat.eqb (length ps) (nparams (pdef st)) then
          match complete st ps with
          | Break => ([], None)
          | Fail e => ([], Some e)
          | Cont st1 _ o => emit o (prun r st1)
          end
        else prun r (mkst (cur st) (pdef st) (moveto st) (pen st) (lastc st) (isrel st) false ps)
    end.
  Proof.
    intros He Hn. cbn [prun]. unfold step. rewrite He. cbn [tok_of snd fst].
    unfold accumulate. cbn [item_text]. rewrite (py_float_text n Hn).
    cbv zeta. destruct (Nat.ltb _ _).
    - destruct (nth_error (casts (pdef st)) _) as [[]|]; [| |reflexivity]; cbn [rbind].
      + destruct (py_int (numeral_text n)); cbn [rbind]; [|reflexivity].
        destruct (isrel st); [destruct (nth_error _ _) as [[]|]|]; try reflexivity;
        (destruct (Nat.eqb _ _); [|reflexivity];
         match goal with |- context [complete ?a ?b] => pose proof (complete_nopush a b) as Hc; destruct (complete a b) as [| |? [|] ?] end;
         [reflexivity|reflexivity|exfalso; eapply Hc; reflexivity|reflexivity]).
      + destruct (isrel st); [destruct (nth_error _ _) as [[]|]|]; try reflexivity;
        (destruct (Nat.eqb _ _); [|reflexivity];
         match goal with |- context [complete ?a ?b] => pose proof (complete_nopush a b) as Hc; destruct (complete a b) as [| |? [|] ?] end;
         [reflexivity|reflexivity|exfalso; eapply Hc; reflexivity|reflexivity]).
    - destruct (Nat.eqb _ _); [|reflexivity];
         match goal with |- context [complete ?a ?b] => pose proof (complete_nopush a b) as Hc; destruct (complete a b) as [| |? [|] ?] end;
         [reflexivity|reflexivity|exfalso; eapply Hc; reflexivity|reflexivity].
  Qed.

  Lemma step_flag (st : pst) b r : expecting st = false ->
    prun (tok_of (Flag b) :: r) st =
    match accumulate st [if b then "1"%char else "0"%char] with
    | Raise e => ([], Some e)
    | Ok ps =>
        if Nat.eqb (length ps) (nparams (pdef st)) then
          match complete st ps with
          | Break => ([], None)
          | Fail e => ([], Some e)
          | Cont st1 _ o => emit o (prun r st1)
          end
        else prun r (mkst (cur st) (pdef st) (moveto st) (pen st) (lastc st) (isrel st) false ps)
    end.
  Proof.
    intros He. cbn [prun]. unfold step. rewrite He. cbn [tok_of snd fst item_text].
    destruct (accumulate _ _); [|reflexivity].
    destruct (Nat.eqb _ _); [|reflexivity].
    match goal with |- context [complete ?a ?b] => pose proof (complete_nopush a b) as Hc; destruct (complete a b) as [| |? [|] ?] end;
         [reflexivity|reflexivity|exfalso; eapply Hc; reflexivity|reflexivity].
  Qed.

  (** the control point recorded after a segment *)
  Definition last_after (s : segment numeral) (rel : bool) (c : xy N) : xy N :=
    match s with
    | Curve _ b _ => place rel c (val b)
    | Quad a _ => place rel c (val a)
    | _ => c
    end.

  Definition prev_ok (before : option (segment numeral)) (k : xy N) (p : previous N) : Prop :=
    match before with
    | Some (Curve _ _ _) => p = AfterCurve k
    | Some (Quad _ _) => p = AfterQuad k
    | _ => True
    end.

  Ltac one := rewrite step_num by (try reflexivity; assumption);
    cbn -[numeral_value complete prun padd map tok_of]; try (unfold padd; cbn [pnum]).
  Ltac fin := cbn -[numeral_value prun map tok_of padd].

  Lemma ready_segment s rel before (k : xy N) (ps : pstate N) (st : pst) r :
    Forall item_ok (seg_items s) ->
    moveto st = pair (start ps) -> pen st = pair (here ps) -> lastc st = pair k ->
    prev_ok before k (prev ps) ->
    smooth_after before [Some s] ->
    exists st', prun (map tok_of (seg_items s) ++ r) (ready (letter s) rel st)
                = emit (Some (tuple (fst (sem_seg rel s ps)))) (prun r st') /\
      cur st' = Some (letter s) /\ pdef st' = sdef (letter s) /\ isrel st' = rel /\
      expecting st' = true /\ params st' = [] /\
      moveto st' = pair (start (snd (sem_seg rel s ps))) /\
      pen st' = pair (here (snd (sem_seg rel s ps))) /\
      lastc st' = pair (last_after s rel (here ps)) /\
      prev_ok (Some s) (last_after s rel (here ps)) (prev (snd (sem_seg rel s ps))).
  Proof.
    destruct ps as [[sx sy] [hx hy] pv]. destruct k as [kx ky].
    destruct st as [cu df mv pn lc ir ex pm]. unfold pair, ready.
    cbn [start here prev moveto pen lastc xx yy].
    intros Hok -> -> -> Hprev Hsm.
    destruct s as [p|p|x|y|a b p|b p|a p|p|rx ry rot l w p]; unfold seg_items, xy_items in *; cbn [app] in Hok;
      repeat match goal with H : Forall _ (_ :: _) |- _ => inversion H; clear H; subst end;
      repeat match goal with H : item_ok (Num _) |- _ => cbn [item_ok] in H end;
      cbn [app map letter].
    all: try (cbn [smooth_after] in Hsm; destruct Hsm as [(? & ? & ? & ->) _]; cbn [prev_ok] in Hprev; subst pv).
    all: try (cbn [smooth_after] in Hsm; destruct Hsm as [(? & ? & ->) _]; cbn [prev_ok] in Hprev; subst pv).
    all: try (destruct l; destruct w).
    all: destruct rel; eexists; (split; [|]).
    all: repeat (first [rewrite step_num by (try reflexivity; assumption)
                       |rewrite step_flag by reflexivity];
                 cbn -[numeral_value complete prun padd map tok_of]; unfold padd; cbn [pnum]).
    all: try (cbn -[numeral_value prun map tok_of]; reflexivity).
    all: repeat split; reflexivity.
  Qed.

  (** the parser's view of the state between segments *)
  Definition between (before : option (segment numeral)) (c : ascii) (rel : bool) (ps : pstate N) (st : pst) : Prop :=
    cur st = Some c /\ pdef st = sdef c /\ isrel st = rel /\ expecting st = true /\ params st = [] /\
    moveto st = pair (start ps) /\ pen st = pair (here ps) /\
    exists k, lastc st = pair k /\ prev_ok before k (prev ps).

  Lemma seg_items_cons (s : segment numeral) : exists i l, seg_items s = i :: l /\ (forall c, i <> Cmd c).
  Proof. destruct s; cbn; do 2 eexists; (split; [reflexivity|discriminate]). Qed.

  (** a repeated segment *)
  Lemma repeat_segment s rel before c ps st r :
    Forall item_ok (seg_items s) -> between before c rel ps st ->
    letter s = (if Ascii.eqb c "M" then "L"%char else c) ->
    smooth_after before [Some s] ->
    exists st', prun (map tok_of (seg_items s) ++ r) st
                = emit (Some (tuple (fst (sem_seg rel s ps)))) (prun r st') /\
      between (Some s) (letter s) rel (snd (sem_seg rel s ps)) st'.
  Proof.
    intros Hok (H1 & H2 & H3 & H4 & H5 & H6 & H7 & k & H8 & H9) Hc Hsm.
    destruct (ready_segment s rel before k ps st r Hok H6 H7 H8 H9 Hsm)
      as (st' & E & A1 & A2 & A3 & A4 & A5 & A6 & A7 & A8 & A9).
    exists st'. split; [|repeat split; try assumption; eexists; eauto].
    rewrite <- E. destruct (seg_items_cons s) as (i & l & -> & Hi). cbn [map app prun].
    assert (step st (tok_of i) = Cont (ready (letter s) rel st) (Some (tok_of i)) None) as ->.
    { unfold step. rewrite H4. unfold step_command, tok_of.
      replace (match i with Cmd _ => true | _ => false end) with false by (destruct i; [now destruct (Hi c0)| |]; reflexivity).
      rewrite H1. cbn [andb]. unfold is_cmd, ready. rewrite Hc.
      destruct (Ascii.eqb c "M"); rewrite ?H2, H3, H5; reflexivity. }
    cbn [emit].
    destruct (step (ready (letter s) rel st) (tok_of i)) as [| |st1 [t1|] o1] eqn:E1; try reflexivity.
    now apply step_nopush in E1.
  Qed.

  Lemma smooth_split before s r : smooth_after before (s :: r) <->
    (smooth_after before [s] /\ smooth_after s r).
  Proof. cbn [smooth_after]. tauto. Qed.

  Lemma repeat_segments more rel before c ps st r :
    Forall item_ok (flat_map seg_items more) -> between before c rel ps st ->
    Forall (fun s => letter s = (if Ascii.eqb c "M" then "L"%char else c)) more ->
    smooth_after before (map Some more) ->
    exists st', prun (map tok_of (flat_map seg_items more) ++ r) st
                = (map tuple (fst (sem_segs rel more ps)) ++ fst (prun r st'), snd (prun r st')) /\
      between (last (map Some more) before) (match more with [] => c | _ => if Ascii.eqb c "M" then "L"%char else c end)
              rel (snd (sem_segs rel more ps)) st'.
  Proof.
    revert before c ps st. induction more as [|s more IH]; intros before c ps st Hok Hb Hl Hsm.
    - exists st. split; [cbn; destruct (prun r st); reflexivity|]. exact Hb.
    - cbn [flat_map] in Hok. apply Forall_app in Hok as [Hok1 Hok2].
      inversion_clear Hl as [|? ? Hl1 Hl2]. cbn [map] in Hsm. apply smooth_split in Hsm as [Hs1 Hs2].
      cbn [flat_map]. rewrite map_app, <- app_assoc.
      destruct (repeat_segment s rel before c ps st (map tok_of (flat_map seg_items more) ++ r) Hok1 Hb Hl1 Hs1)
        as (st1 & E1 & Hb1).
      rewrite E1.
      assert (Forall (fun s0 => letter s0 = (if Ascii.eqb (letter s) "M" then "L"%char else letter s)) more) as Hl3.
      { eapply Forall_impl; [|exact Hl2]. cbn beta. intros a ->. rewrite Hl1.
        destruct (Ascii.eqb_spec c "M"); [reflexivity|].
        destruct (Ascii.eqb_spec c "M"); [contradiction|reflexivity]. }
      destruct (IH (Some s) (letter s) _ st1 Hok2 Hb1 Hl3 Hs2) as (st2 & E2 & Hb2).
      exists st2. rewrite E2. cbn [sem_segs].
      destruct (sem_seg rel s ps) as [d ps1]. cbn [fst snd] in *.
      destruct (sem_segs rel more ps1) as [ds ps2]. cbn [fst snd map app emit] in *.
      split; [reflexivity|].
      replace (last (Some s :: map Some more) before) with (last (map Some more) (Some s)).
      2:{ destruct more as [|m more]; [reflexivity|]. cbn [map].
          clear. change (last (Some s :: Some m :: map Some more) before) with (last (Some m :: map Some more) before).
          generalize (map Some more) (Some m). clear. intros l. revert s before.
          induction l as [|x l IH]; intros; [reflexivity|]. cbn [last] in *. apply (IH s before). }
      destruct more as [|m more].
      + now rewrite Hl1 in Hb2.
      + rewrite Hl1 in Hb2. destruct (Ascii.eqb_spec c "M") as [->|Hne]; [exact Hb2|].
        destruct (Ascii.eqb_spec c "M"); [contradiction|exact Hb2].
  Qed.

  Definition cmd_letter (rel : bool) (s : segment numeral) : ascii :=
    if rel then small (letter s) else letter s.

  (** a command token *)
  Lemma step_letter s rel (st : pst) : expecting st = true -> params st = [] ->
    (cur st <> None \/ letter s = "M"%char) ->
    step st ([cmd_letter rel s], true) = Cont (ready (letter s) rel st) None None.
  Proof.
    intros He Hp Hc. unfold step. rewrite He. unfold step_command.
    destruct st as [cu df mv pn lc ir ex pm]. cbn [cur expecting params moveto pen lastc] in *. subst.
    destruct cu as [c|].
    - cbn [andb]. destruct s, rel; reflexivity.
    - destruct Hc as [Hc|Hc]; [congruence|]. destruct s; try discriminate. destruct rel; reflexivity.
  Qed.

  Definition idle (before : option (segment numeral)) (ps : pstate N) (st : pst) : Prop :=
    expecting st = true /\ params st = [] /\ 
    moveto st = pair (start ps) /\ pen st = pair (here ps) /\
    exists k, lastc st = pair k /\ prev_ok before k (prev ps).

  Lemma between_idle before c rel ps st : between before c rel ps st -> idle before ps st /\ cur st <> None.
  Proof. intros (H1 & H2 & H3 & H4 & H5 & H6 & H7 & H8). unfold idle. rewrite H1. repeat split; auto; discriminate. Qed.

  Lemma run_cmd c before ps st r :
    Forall item_ok (cmd_items c) -> cmd_ok c -> idle before ps st ->
    (cur st <> None \/ exists rel q more, c = Segs rel (Move q) more) ->
    smooth_after before (segs_of c) ->
    exists st', prun (map tok_of (cmd_items c) ++ r) st
                = (map tuple (fst (sem_cmd c ps)) ++ fst (prun r st'), snd (prun r st')) /\
      idle (last (segs_of c) before) (snd (sem_cmd c ps)) st' /\ cur st' <> None.
  Proof.
    intros Hok Hc (I1 & I2 & I3 & I4 & k & I5 & I6) Hcur Hsm.
    destruct c as [rel f more|rel].
    - cbn [cmd_items map app prun]. unfold tok_of at 1. cbn [item_text].
      fold (cmd_letter rel f).
      rewrite step_letter; [|assumption|assumption|].
      2:{ destruct Hcur as [Hcur|(? & ? & ? & [= -> -> ->])]; [now left|right; reflexivity]. }
      cbn [emit]. cbn [cmd_items] in Hok. inversion_clear Hok as [|? ? _ Hok1].
      cbn [flat_map] in *. apply Forall_app in Hok1 as [Hok1 Hok2].
      cbn [segs_of map] in Hsm. apply smooth_split in Hsm as [Hs1 Hs2].
      rewrite map_app, <- app_assoc.
      destruct (ready_segment f rel before k ps st (map tok_of (flat_map seg_items more) ++ r) Hok1 I3 I4 I5 I6 Hs1)
        as (st1 & E & A1 & A2 & A3 & A4 & A5 & A6 & A7 & A8 & A9).
      assert (between (Some f) (letter f) rel (snd (sem_seg rel f ps)) st1) as Hb1
        by (repeat split; try assumption; eexists; eauto).
      assert (Forall (fun s => letter s = (if Ascii.eqb (letter f) "M" then "L"%char else letter f)) more) as Hl.
      { cbn [cmd_ok] in Hc. eapply Forall_impl; [|exact Hc]. cbn beta. intros a ->. destruct f; reflexivity. }
      destruct (repeat_segments more rel (Some f) (letter f) _ st1 r Hok2 Hb1 Hl Hs2) as (st2 & E2 & Hb2).
      exists st2. rewrite E, E2. cbn [sem_cmd sem_segs].
      destruct (sem_seg rel f ps) as [d ps1]. cbn [fst snd] in *.
      destruct (sem_segs rel more ps1) as [ds ps2]. cbn [fst snd map app emit] in *.
      split; [reflexivity|].
      replace (last (segs_of (Segs rel f more)) before) with (last (map Some more) (Some f)).
      2:{ cbn [segs_of map]. clear. generalize (map (@Some (segment numeral)) more) (Some f). clear. 
          intros l. induction l as [|x l IH]; intros; [reflexivity|].
          cbn [last] in *. destruct l as [|y l]; [reflexivity|]. apply IH. }
      now apply between_idle in Hb2.
    - destruct Hcur as [Hcur|(? & ? & ? & [=])].
      cbn [cmd_items map app prun]. unfold tok_of at 1. cbn [item_text].
      destruct st as [cu df mv pn lc ir ex pm]. cbn [cur expecting params moveto pen lastc] in *. subst.
      destruct cu as [c|]; [|congruence].
      eexists. split.
      + destruct rel; cbn -[prun]; reflexivity.
      + split; [|discriminate]. unfold idle. cbn. repeat split. eexists. split; [|exact Logic.I].
        instantiate (1 := here ps). destruct rel; reflexivity.
  Qed.

  Lemma smooth_app before l l' : smooth_after before (l ++ l') <->
    smooth_after before l /\ smooth_after (last l before) l'.
  Proof.
    revert before. induction l as [|x l IH]; intros before; [cbn; tauto|].
    cbn [app]. rewrite smooth_split, (smooth_split before x l), IH.
    replace (last (x :: l) before) with (last l x); [tauto|].
    clear. revert x. induction l as [|y l IH]; intros x; [reflexivity|].
    cbn [last] in *. destruct l as [|z l]; [reflexivity|]. apply IH.
  Qed.

  Lemma run_path p before ps st :
    Forall item_ok (path_items p) -> Forall cmd_ok p -> idle before ps st ->
    (cur st <> None \/ p = [] \/ exists rel q more r, p = Segs rel (Move q) more :: r) ->
    smooth_after before (flat_map segs_of p) ->
    prun (map tok_of (path_items p)) st = (map tuple (sem_path p ps), None).
  Proof.
    revert before ps st. induction p as [|c p IH]; intros before ps st Hok Hc Hi Hcur Hsm; [reflexivity|].
    unfold path_items in *. cbn [flat_map] in *. apply Forall_app in Hok as [Hok1 Hok2].
    inversion_clear Hc as [|? ? Hc1 Hc2]. apply smooth_app in Hsm as [Hs1 Hs2].
    rewrite map_app.
    destruct (run_cmd c before ps st (map tok_of (flat_map cmd_items p)) Hok1 Hc1 Hi) as (st1 & E & Hi1 & Hcur1).
    { destruct Hcur as [Hcur|[Hcur|(rel & q & more & r & [= -> ->])]]; [now left|discriminate|right; eauto]. }
    { exact Hs1. }
    rewrite E. cbn [sem_path]. destruct (sem_cmd c ps) as [ds ps1]. cbn [fst snd] in *.
    rewrite (IH _ _ _ Hok2 Hc2 Hi1 (or_introl Hcur1) Hs2). cbn [fst snd]. now rewrite map_app.
  Qed.

  Theorem parse_path_drawing p s :
    path_ok p -> Forall item_ok (path_items p) -> smooth_directly p -> written (path_items p) s ->
    parse_path s = (map tuple (drawing p), None).
  Proof.
    intros [Hc Hm] Hok Hsm Hw. rewrite parse_path_prun, (tok_written _ _ Hok Hw).
    unfold drawing. eapply run_path with (before := None); try assumption.
    - unfold idle. cbn. repeat split. exists origin. split; [reflexivity|exact Logic.I].
    - right. destruct Hm as [->|(rel & q & more & r & ->)]; [now left|right; eauto 6].
  Qed.
End P.
