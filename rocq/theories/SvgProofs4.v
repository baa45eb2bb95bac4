(** * SvgProofs4: explode_path. *)
From Coq Require Import String Ascii ZArith NArith List Bool Lia.
From Verif Require Import Num Str Svg SvgSpec SvgProofs SvgProofs2 SvgProofs3.
Import ListNotations.

Section P.
  Context {N : NumOps}.

  (** where a drawn segment ends *)
  Definition ends (d : drawn N) : xy N :=
    match d with DMove p | DLine p | DCurve _ _ p | DQuad _ p | DArc _ _ _ _ _ p => p end.
  (** the drawn segments (moves excluded) with their starting points *)
  Fixpoint chunks (c : xy N) (ds : list (drawn N)) : list (xy N * drawn N) :=
    match ds with
    | [] => []
    | DMove p :: r => chunks p r
    | d :: r => (c, d) :: chunks (ends d) r
    end.
  Definition piece (q : xy N * drawn N) : (N * N) * ascii * list (pval N) :=
    ((xx (fst q), yy (fst q)), fst (tuple (snd q)), snd (tuple (snd q))).

  Lemma explode_chunks ds c : explode_loop (Some (xx c, yy c)) (map tuple ds) = Ok (map piece (chunks c ds)).
  Proof.
    revert c. induction ds as [|d ds IH]; intros c; [reflexivity|].
    destruct d; cbn [map tuple explode_loop app Fxy pneg length Nat.ltb Nat.leb nth_error Nat.sub rbind pnum];
      cbn [Fxy app length Nat.ltb Nat.leb nth_error Nat.sub rbind pnum]; cbn [chunks map ends].
    all: unfold pneg; cbn [Fxy app length Nat.ltb Nat.leb nth_error Nat.sub rbind pnum].
    all: match goal with |- context [Ascii.eqb ?a ?b] => let v := eval compute in (Ascii.eqb a b) in change (Ascii.eqb a b) with v end.
    all: cbv iota; rewrite IH; reflexivity.
  Qed.

  Lemma explode_none ds : match ds with [] | DMove _ :: _ => True | _ => False end ->
    explode_loop None (map tuple ds) = Ok (map piece (chunks origin ds)).
  Proof.
    destruct ds as [|[p| | | |] ds]; try tauto. intros _. cbn [map tuple explode_loop Fxy].
    unfold pneg. cbn [length Nat.ltb Nat.leb nth_error Nat.sub rbind pnum]. cbn [chunks].
    change (Ascii.eqb "M" "M") with true. cbv iota. apply explode_chunks.
  Qed.

  Lemma drawing_starts p : path_ok p ->
    match drawing (N:=N) p with [] | DMove _ :: _ => True | _ :: _ => False end.
  Proof.
    intros [_ [-> |(rel & q & more & r & ->)]]; [exact Logic.I|].
    unfold drawing. cbn [sem_path sem_cmd sem_segs].
    destruct (sem_seg rel (Move q) _) as [d st1] eqn:E. cbn [sem_seg] in E. injection E as <- <-.
    destruct (sem_segs rel more _) as [ds st2]. exact Logic.I.
  Qed.

  (** any string: one piece per command that is not a moveto *)
  Lemma canonical_ends (o : outp N) : canonical o -> exists x y, pneg (snd o) 2 = Ok x /\ pneg (snd o) 1 = Ok y.
  Proof.
    destruct o as [c ps]. cbn [canonical snd]. unfold pneg.
    intros [(_ & x & y & ->)|[(_ & x & y & ->)|[(_ & a & b & c' & d & x & y & ->)|[(_ & a & b & x & y & ->)|(_ & a & b & c' & l & s & x & y & ->)]]]];
      do 2 eexists; split; reflexivity.
  Qed.
  Lemma explode_count (l : list (outp N)) p : Forall canonical l ->
    exists ps, explode_loop (Some p) l = Ok ps /\
      map (fun q => (snd (fst q), snd q)) ps = filter (fun o => negb (Ascii.eqb (fst o) "M")) l.
  Proof.
    revert p. induction l as [|[c ps] l IH]; intros p H.
    - exists []. split; reflexivity.
    - inversion_clear H as [|? ? Ho Hl]. destruct (canonical_ends _ Ho) as (x & y & Hx & Hy). cbn [snd] in Hx, Hy.
      cbn [explode_loop filter fst]. rewrite Hx, Hy. cbn [rbind].
      destruct (IH (x, y) Hl) as (r & Er & Hr). rewrite Er.
      destruct (Ascii.eqb c "M"); cbn [negb rbind].
      + eauto.
      + eexists. split; [reflexivity|]. cbn [map fst snd]. now rewrite Hr.
  Qed.
  Lemma explode_all (l : list (outp N)) : Forall canonical l -> match l with [] => True | o :: _ => fst o = "M"%char end ->
    exists ps, explode_loop None l = Ok ps /\
      map (fun q => (snd (fst q), snd q)) ps = filter (fun o => negb (Ascii.eqb (fst o) "M")) l.
  Proof.
    destruct l as [|[c ps] l]; intros H Hm; [exists []; split; reflexivity|].
    cbn [fst] in Hm. subst c. inversion_clear H as [|? ? Ho Hl].
    destruct (canonical_ends _ Ho) as (x & y & Hx & Hy). cbn [snd] in Hx, Hy.
    cbn [explode_loop filter fst]. rewrite Hx, Hy. cbn [rbind].
    change (Ascii.eqb "M" "M") with true. cbn [negb]. cbv iota. now apply explode_count.
  Qed.
End P.
