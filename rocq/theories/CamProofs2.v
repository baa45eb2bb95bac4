(** * CamProofs2: structure of a job (C25-C27, C30, C31), generic part. *)
From Coq Require Import String ZArith NArith List Bool Lia.
From Verif Require Import Num Str Gcode GcodeSpec GcodeProofs GcodeProofs2 GcodeProofs3 Geom Cam CamSpec CamProofs1.
Import ListNotations.
Local Open Scope string_scope.

Section Jobs.
  Context {N : NumOps} {E : Epsilon N}.
  Notation path := (list (cseg N)).

  (** ** Monad lemmas *)
  Lemma cbind_ok {A B} (m : @CM N A) (f : A -> @CM N B) s s' b :
    cbind m f s = (s', Ok b) -> exists s1 a, m s = (s1, Ok a) /\ f a s1 = (s', Ok b).
  Proof. unfold cbind. destruct (m s) as [s1 [a|e]]; [eauto|discriminate]. Qed.
  Lemma cseq_ok (m m' : @CM N unit) s s' b :
    cseq m m' s = (s', Ok b) -> exists s1, m s = (s1, Ok tt) /\ m' s1 = (s', Ok b).
  Proof. intros H. apply cbind_ok in H as (s1 & [] & H1 & H2). eauto. Qed.
  Lemma call_ok (c : config N) o s s' :
    call c o s = (s', Ok tt) -> trace s' = (trace s ++ [o])%list /\ current_angle s' = current_angle s.
  Proof. unfold call. destruct (exec c o (gs s)) as [g r]. intros [= <- ->]. split; reflexivity. Qed.

  (** ** Every job is a sequence of calls *)
  Definition emits {A} (c : config N) (Q : @op N -> Prop) (m : @CM N A) : Prop :=
    forall s, exists ops, trace (fst (m s)) = (trace s ++ ops)%list /\
      gs (fst (m s)) = run c ops (gs s) /\ Forall Q ops.
  Lemma em_quiet {A} c Q (m : @CM N A) :
    (forall s, trace (fst (m s)) = trace s /\ gs (fst (m s)) = gs s) -> emits c Q m.
  Proof. intros H s. exists []. destruct (H s) as [-> ->]. rewrite app_nil_r. auto. Qed.
  Lemma em_ret {A} c Q (a : A) : emits c Q (cret a). Proof. apply em_quiet; auto. Qed.
  Lemma em_raise {A} c Q e : emits c Q (@craise N A e). Proof. apply em_quiet; auto. Qed.
  Lemma em_lift {A} c Q (r : res A) : emits c Q (lift r). Proof. apply em_quiet; auto. Qed.
  Lemma em_bind {A B} c Q (m : @CM N A) (f : A -> @CM N B) :
    emits c Q m -> (forall a, emits c Q (f a)) -> emits c Q (cbind m f).
  Proof.
    intros Hm Hf s. unfold cbind. destruct (Hm s) as (o1 & T1 & G1 & F1).
    destruct (m s) as [s1 [a|e]]; cbn [fst] in *; [|eauto].
    destruct (Hf a s1) as (o2 & T2 & G2 & F2). exists (o1 ++ o2)%list.
    rewrite T2, T1, G2, G1, app_assoc. unfold run. rewrite fold_left_app.
    split; [reflexivity|]. split; [reflexivity|]. now apply Forall_app.
  Qed.
  Lemma em_seq c Q m m' : emits c Q m -> emits c Q m' -> emits c Q (cseq m m').
  Proof. intros H H'. apply em_bind; auto. Qed.
  Lemma em_call c (Q : op -> Prop) o : Q o -> emits c Q (call c o).
  Proof.
    intros H s. exists [o]. unfold call, run. cbn [fold_left].
    destruct (exec c o (gs s)) as [g r]. cbn. auto.
  Qed.
  Lemma em_get_angle c Q : emits c Q get_angle. Proof. apply em_quiet; auto. Qed.
  Lemma em_set_angle c Q a : emits c Q (set_angle a). Proof. apply em_quiet; auto. Qed.
  Lemma em_get_xy c Q : emits c Q get_xy.
  Proof. apply em_quiet. intros s. unfold get_xy. destruct (vX _); [destruct (vY _)|]; auto. Qed.

  Section Emission.
    Variable c : config N.
    Variable k : cam N.
    Variable Q : @op N -> Prop.
    Hypothesis Qcom : forall a semi, Q (OComment a semi).
    Hypothesis Qrapid : forall x y a, Q (ORapid x y None a None).

    Lemma em_rapid_to_path p : emits c Q (rapid_to_path c k p).
    Proof.
      destruct p as [|s r]; [apply em_raise|]. apply em_seq.
      - destruct (enable_tangent k); [|apply em_ret]. apply em_bind; [apply em_get_angle|intros a; apply em_set_angle].
      - apply em_bind; [apply em_get_angle|intros a; apply em_call, Qrapid].
    Qed.
    Lemma em_paint_rapid b p : emits c Q (paint_rapid_to_path c k b p).
    Proof. unfold paint_rapid_to_path. destruct (reload_enable b); [apply em_raise|apply em_rapid_to_path]. Qed.

    (** Calls of one segment at a given depth. *)
    Definition Qcut (depth : N) (s : cseg N) : Prop :=
      let z := dflt depth (inline_z s) in
      (forall x y a, Q (OFeed (Some x) (Some y) (Some z) (Some a) None None)) /\
      (forall cw x y i j a, Q (OArc cw x y i j (Some a) (Some z) None None)) /\
      (forall a, Q (OFeed None None None (Some a) None None)).
    Lemma em_segment s depth : Qcut depth s -> emits c Q (segment_gcode c k s depth).
    Proof.
      intros (Qf & Qa & Qr). unfold segment_gcode. apply em_seq; [apply em_quiet; auto|].
      apply em_bind.
      - destruct (_ || _); [apply em_get_angle|]. apply em_bind; [apply em_get_angle|intros a].
        apply em_bind.
        + destruct (is_zero _); [apply em_ret|]. apply em_seq; [apply em_set_angle|]. apply em_call, Qr.
        + intros _. apply em_bind; [apply em_get_angle|intros a']. apply em_ret.
      - intros ea. apply em_seq; [|apply em_set_angle].
        destruct (geo s) as [l|ar]; [apply em_call, Qf|].
        apply em_bind; [apply em_get_xy|intros xy].
        destruct (negb _); [apply em_call, Qf|apply em_call, Qa].
    Qed.
    Lemma em_segments p depth : Forall (Qcut depth) p -> emits c Q (segments_gcode c k p depth).
    Proof.
      induction 1 as [|s p Hs Hp IH]; [apply em_ret|]. apply em_seq; auto. now apply em_segment.
    Qed.
    (** Calls of one path. *)
    Definition Qpath (depth : N) (p : path) : Prop :=
      Forall (Qcut depth) p /\
      Q (OToolDown depth None None None) /\ (Exists (fun s => inline_z s <> None) p -> Q (OToolDown (of_Z 0) None None None)).
    Lemma em_cut_path rapid text p depth :
      (forall p, emits c Q (rapid p)) -> Qpath depth p -> emits c Q (cut_path c k rapid text p depth).
    Proof.
      intros HR (Hs & Hd & H0). unfold cut_path.
      repeat (apply em_seq; [first [apply em_call, Qcom|apply HR|idtac]|]).
      - destruct p as [|s r]; [apply em_raise|]. apply em_call.
        destruct (inline_z s) eqn:Ez; auto. apply H0. left. rewrite Ez. discriminate.
      - now apply em_segments.
    Qed.
    Lemma em_pass rapid text depth pass l :
      (forall p, emits c Q (rapid p)) -> Forall (Qpath depth) l ->
      forall i, emits c Q (one_pass c k rapid text i pass depth l).
    Proof.
      intros HR. induction 1 as [|p l Hp Hl IH]; intros i; [apply em_ret|].
      cbn [one_pass]. apply em_seq; [|apply IH].
      destruct (_ && _); [now apply em_cut_path|apply em_ret].
    Qed.
    Lemma em_depth_loop rapid text l step zd :
      (forall p, emits c Q (rapid p)) ->
      (forall d, leb zd d = true -> Forall (Qpath d) l) ->
      forall fuel pass d, emits c Q (depth_loop fuel c k rapid text l step zd pass d).
    Proof.
      intros HR HP. induction fuel as [|f IH]; intros pass d; cbn [depth_loop];
        (destruct (leb zd d) eqn:Ed; [|apply em_ret]); [apply em_raise|].
      apply em_seq; [apply em_pass; auto|apply IH].
    Qed.
  End Emission.

  (** Fields of the configuration that generate_header leaves alone. *)
  Lemma job_config_fields (c : config N) n t :
    let c' := job_config c n t in
    (plain_config c -> plain_config c') /\ zsafe c' = zsafe c /\ tolerance c' = tolerance c /\
    (forall a, out_name c' a = out_name c a) /\
    (forall a v, program_value c' a v = program_value c a v) /\
    axis_letters c' = axis_letters c.
  Proof. destruct c. cbn. repeat split; auto; apply H. Qed.

  (** The calls of a whole job, whatever the outcome. *)
  Theorem job_calls fuel c k pre rapid today text ct l (Q : @op N -> Prop) :
    (forall a semi, Q (OComment a semi)) -> (forall x y a, Q (ORapid x y None a None)) ->
    Q (OHeader today None) -> Q (OToolUp true None None) -> Q OFooter ->
    (forall c' p, emits c' Q (rapid c' p)) ->
    (forall l0 l1, pre l0 = Ok l1 -> forall d, leb (z_depth k) d = true -> Forall (Qpath Q d) l1) ->
    let r := generate_gcode fuel c k pre rapid today text ct l cam_start in
    exists n, gs (fst r) = run (job_config c n ct) (trace (fst r)) init /\ Forall Q (trace (fst r)).
  Proof.
    intros Qc Qr Qh Qu Qf HR HP. cbn zeta.
    remember (generate_gcode fuel c k pre rapid today text ct l cam_start) as r eqn:Er.
    unfold generate_gcode, cbind at 1, lift at 1 in Er.
    destruct (match path_sort_method k with Some _ => _ | None => _ end) as [l1|e];
      [|exists 0; subst r; cbn; auto].
    unfold cbind at 1, lift at 1 in Er. destruct (pre l1) as [l2|e] eqn:Ep; [|exists 0; subst r; cbn; auto].
    exists (length l2). set (c' := job_config c (length l2) ct) in *.
    match type of Er with r = ?m cam_start => assert (EM : emits c' Q m) end.
    { apply em_seq; [apply em_call, Qh|]. apply em_seq; [apply em_call, Qu|].
      apply em_seq; [apply em_depth_loop; auto; apply (HP _ _ Ep)|].
      apply em_seq; [apply em_call, Qu|]. apply em_seq; [|apply em_call, Qf].
      unfold cwhen. destruct (home_when_done k); [apply em_call, Qr|apply em_ret]. }
    destruct (EM cam_start) as (ops & T & G & F). rewrite <- Er in T, G. cbn [cam_start trace gs app] in T, G.
    now rewrite T, G.
  Qed.

  (** ** Shape of the calls of a completed job *)
  Lemma segment_shape (c : config N) k s depth st st' :
    segment_gcode c k s depth st = (st', Ok tt) ->
    exists ops, trace st' = (trace st ++ ops)%list /\ segment_program depth s ops.
  Proof.
    unfold segment_gcode. intros H. apply cseq_ok in H as (s0 & H0 & H). injection H0 as <-.
    apply cbind_ok in H as (s1 & ea & H1 & H).
    assert (R : exists rot, trace s1 = (trace st ++ rot)%list /\
              (rot = [] \/ exists a, rot = [OFeed None None None (Some a) None None])).
    { destruct (_ || _).
      - injection H1 as <- _. exists []. rewrite app_nil_r. auto.
      - apply cbind_ok in H1 as (s2 & a & H2 & H1). injection H2 as <- <-.
        apply cbind_ok in H1 as (s3 & u & H3 & H1).
        apply cbind_ok in H1 as (s4 & a & H4 & H1). injection H4 as <- <-. injection H1 as <- _.
        destruct (is_zero _).
        + injection H3 as <- _. exists []. cbn [trace]. rewrite app_nil_r. auto.
        + apply cbind_ok in H3 as (s5 & [] & H5 & H3). injection H5 as <-. destruct u.
          apply call_ok in H3 as [T _]. cbn [trace] in T. eauto. }
    destruct R as (rot & T1 & R).
    apply cseq_ok in H as (s2 & H & H2). injection H2 as <-. cbn [trace].
    assert (M : exists o, trace s2 = (trace s1 ++ [o])%list /\ cuts_segment depth s o).
    { destruct (geo s) as [l|ar] eqn:G.
      - apply call_ok in H as [T _]. eexists. split; [exact T|]. exists ea. left. rewrite G. reflexivity.
      - apply cbind_ok in H as (s3 & xy & H3 & H).
        assert (s3 = s1) as -> by (unfold get_xy in H3; destruct (vX _); [destruct (vY _)|]; congruence).
        destruct (negb (feq _ _)).
        + apply call_ok in H as [T _]. eexists. split; [exact T|]. exists ea. left. rewrite G. reflexivity.
        + apply call_ok in H as [T _]. eexists. split; [exact T|]. exists ea. right. exists ar.
          split; [exact G|reflexivity]. }
    destruct M as (o & T2 & M). exists (rot ++ [o])%list. rewrite T2, T1, app_assoc. split; [reflexivity|].
    exists o. split; [exact M|]. destruct R as [->|[a ->]]; [left; reflexivity|right; exists a; reflexivity].
  Qed.
  Lemma segments_shape (c : config N) k p depth : forall st st',
    segments_gcode c k p depth st = (st', Ok tt) ->
    exists ops, trace st' = (trace st ++ ops)%list /\ concat_of (segment_program depth) p ops.
  Proof.
    induction p as [|s p IH]; intros st st' H.
    - injection H as <-. exists []. rewrite app_nil_r. split; [reflexivity|constructor].
    - cbn [segments_gcode] in H. apply cseq_ok in H as (s1 & H1 & H2).
      apply segment_shape in H1 as (o1 & T1 & P1). apply IH in H2 as (o2 & T2 & P2).
      exists (o1 ++ o2)%list. rewrite T2, T1, app_assoc. split; [reflexivity|]. now constructor.
  Qed.
  (** What a rapid method must do; both variants do. *)
  Definition rapid_ok (c : config N) (rapid : path -> @CM N unit) : Prop :=
    forall p st st', rapid p st = (st', Ok tt) -> exists s r a, p = s :: r /\
      trace st' = (trace st ++ [ORapid (Some (px (s_p1 (geo s)))) (Some (py (s_p1 (geo s)))) None (Some a) None])%list.
  Lemma simple_rapid_ok c k : rapid_ok c (rapid_to_path c k).
  Proof.
    intros [|s r] st st' H; [discriminate|]. cbn [rapid_to_path] in H.
    apply cseq_ok in H as (s1 & H1 & H).
    assert (T1 : trace s1 = trace st).
    { destruct (enable_tangent k); [|now injection H1 as <-].
      apply cbind_ok in H1 as (s2 & a & H2 & H1). injection H2 as <- <-. now injection H1 as <-. }
    apply cbind_ok in H as (s2 & a & H2 & H). injection H2 as <- <-.
    apply call_ok in H as [T _]. rewrite T, T1. eauto.
  Qed.
  Lemma paint_rapid_ok c k b : rapid_ok c (paint_rapid_to_path c k b).
  Proof.
    intros p st st'. unfold paint_rapid_to_path. destruct (reload_enable b); [discriminate|]. apply simple_rapid_ok.
  Qed.

  Lemma path_shape (c : config N) k rapid text p depth st st' : rapid_ok c rapid ->
    cut_path c k rapid text p depth st = (st', Ok tt) ->
    exists ops, trace st' = (trace st ++ ops)%list /\ path_program depth p ops.
  Proof.
    intros RO H. unfold cut_path in H.
    apply cseq_ok in H as (s1 & H1 & H). apply call_ok in H1 as [T1 _].
    apply cseq_ok in H as (s2 & H2 & H). apply call_ok in H2 as [T2 _].
    apply cseq_ok in H as (s3 & H3 & H). apply RO in H3 as (s & r & a & -> & T3).
    apply cseq_ok in H as (s4 & H4 & H). apply call_ok in H4 as [T4 _].
    apply cseq_ok in H as (s5 & H5 & H). apply call_ok in H5 as [T5 _].
    apply segments_shape in H as (body & T6 & B).
    eexists. split.
    2:{ exists s, r, text, a, body. split; [reflexivity|]. split; [reflexivity|exact B]. }
    rewrite T6, T5, T4, T3, T2, T1, <- !app_assoc. reflexivity.
  Qed.
  Definition path_ok (c : config N) k rapid (PP : N -> path -> list (@op N) -> Prop) : Prop :=
    forall text p depth st st', cut_path c k rapid text p depth st = (st', Ok tt) ->
    exists ops, trace st' = (trace st ++ ops)%list /\ PP depth p ops.
  Lemma pass_shape (c : config N) k rapid PP text pass depth l : path_ok c k rapid PP -> forall i st st',
    one_pass c k rapid text i pass depth l st = (st', Ok tt) ->
    exists ops, trace st' = (trace st ++ ops)%list /\
      concat_of (PP depth) (selected (path_count_start k - i + 1) l) ops.
  Proof.
    intros RO. induction l as [|p l IH]; intros i st st' H.
    - injection H as <-. exists []. rewrite app_nil_r. split; [reflexivity|]. unfold selected.
      rewrite skipn_nil. constructor.
    - cbn [one_pass] in H. apply cseq_ok in H as (s1 & H1 & H2). apply IH in H2 as (o2 & T2 & P2).
      assert (Hsel : selected (path_count_start k - i + 1) (p :: l) =
        ((if negb (match p with [] => true | _ => false end) && Z.leb (path_count_start k) i then [p] else [])
        ++ selected (path_count_start k - (i + 1) + 1) l)%list).
      { unfold selected. destruct (Z.leb_spec (path_count_start k) i) as [L|L].
        - replace (Z.to_nat (path_count_start k - i + 1 - 1)) with 0 by lia.
          replace (Z.to_nat (path_count_start k - (i + 1) + 1 - 1)) with 0 by lia.
          cbn [skipn filter]. destruct p; reflexivity.
        - replace (Z.to_nat (path_count_start k - i + 1 - 1)) with
            (S (Z.to_nat (path_count_start k - (i + 1) + 1 - 1))) by lia.
          rewrite andb_false_r. reflexivity. }
      rewrite Hsel. destruct (negb _ && _).
      + apply RO in H1 as (o1 & T1 & P1).
        exists (o1 ++ o2)%list. rewrite T2, T1, app_assoc. split; [reflexivity|]. now constructor.
      + injection H1 as <-. exists o2. split; auto.
  Qed.

  (** ** The depths of the passes *)
  Fixpoint depths (fuel : nat) (c : config N) (step zd d : N) : option (list N) :=
    if leb zd d then
      match fuel with
      | O => None
      | S f => option_map (cons d) (depths f c step zd (next_depth c step zd d))
      end
    else Some [].

  Lemma loop_shape (c : config N) k rapid PP text l step zd : path_ok c k rapid PP -> forall fuel pass d st st',
    depth_loop fuel c k rapid text l step zd pass d st = (st', Ok tt) ->
    exists ds ops, depths fuel c step zd d = Some ds /\ trace st' = (trace st ++ ops)%list /\
      concat_of (fun d => concat_of (PP d) (selected (path_count_start k) l)) ds ops.
  Proof.
    intros RO. induction fuel as [|f IH]; intros pass d st st'; cbn [depth_loop depths];
      (destruct (leb zd d); [|intros [= <-]; exists [], []; rewrite app_nil_r; repeat split; constructor]);
      [discriminate|].
    intros H. apply cseq_ok in H as (s1 & H1 & H2).
    apply (pass_shape _ _ _ PP) in H1 as (o1 & T1 & P1); [|exact RO].
    replace (path_count_start k - 1 + 1)%Z with (path_count_start k) in P1 by lia.
    apply IH in H2 as (ds & o2 & D & T2 & P2). exists (d :: ds), (o1 ++ o2)%list.
    rewrite D, T2, T1, app_assoc. repeat split. now constructor.
  Qed.

  Definition sorted_input (k : cam N) (l : list path) : res (list path) :=
    match path_sort_method k with None => Ok l | Some m => sort_paths l m end.
  Theorem job_shape_of fuel c k pre rapid PP today text ct l st' :
    (forall c', path_ok c' k (rapid c') PP) ->
    generate_gcode fuel c k pre rapid today text ct l cam_start = (st', Ok tt) ->
    exists l1 l2 ds, sorted_input k l = Ok l1 /\ pre l1 = Ok l2 /\
      depths fuel (job_config c (length l2) ct) (eff_step k) (z_depth k) (first_depth k) = Some ds /\
      job_program_of PP (home_when_done k) (path_count_start k) l2 ds (trace st').
  Proof.
    intros RO H. unfold generate_gcode in H.
    apply cbind_ok in H as (s1 & l1 & H1 & H). injection H1 as <- H1.
    apply cbind_ok in H as (s2 & l2 & H2 & H). injection H2 as <- H2.
    apply cseq_ok in H as (s3 & H3 & H). apply call_ok in H3 as [T3 _].
    apply cseq_ok in H as (s4 & H4 & H). apply call_ok in H4 as [T4 _].
    apply cseq_ok in H as (s5 & H5 & H). apply (loop_shape _ _ _ PP) in H5 as (ds & body & D & T5 & B); [|apply RO].
    apply cseq_ok in H as (s6 & H6 & H). apply call_ok in H6 as [T6 _].
    apply cseq_ok in H as (s7 & H7 & H). apply call_ok in H as [T8 _].
    exists l1, l2, ds. split; [exact H1|]. split; [exact H2|]. split; [exact D|].
    exists today, body. split; [exact B|].
    assert (T7 : trace s7 = (trace s6 ++ if home_when_done k
       then [ORapid (Some (of_Z 0)) (Some (of_Z 0)) None (Some (of_Z 0)) None] else [])%list).
    { unfold cwhen in H7. destruct (home_when_done k).
      - apply call_ok in H7 as [T _]. exact T.
      - injection H7 as <-. now rewrite app_nil_r. }
    rewrite T8, T7, T6, T5, T4, T3. cbn [cam_start trace app]. rewrite <- !app_assoc. reflexivity.
  Qed.
  Theorem job_shape fuel c k pre rapid today text ct l st' :
    (forall c', rapid_ok c' (rapid c')) ->
    generate_gcode fuel c k pre rapid today text ct l cam_start = (st', Ok tt) ->
    exists l1 l2 ds, sorted_input k l = Ok l1 /\ pre l1 = Ok l2 /\
      depths fuel (job_config c (length l2) ct) (eff_step k) (z_depth k) (first_depth k) = Some ds /\
      job_program (home_when_done k) (path_count_start k) l2 ds (trace st').
  Proof.
    intros RO. apply job_shape_of. intros c' text0 p depth st st''. apply path_shape, RO.
  Qed.

  (** ** Running out of passes *)
  Lemma depths_none_loop (c : config N) k rapid text l step zd : forall fuel pass d st,
    depths fuel c step zd d = None -> snd (depth_loop fuel c k rapid text l step zd pass d st) <> Ok tt.
  Proof.
    induction fuel as [|f IH]; intros pass d st; cbn [depth_loop depths];
      (destruct (leb zd d); [|discriminate]); [intros _; discriminate|].
    intros H. destruct (depths f c step zd (next_depth c step zd d)) eqn:D; [discriminate|].
    unfold cseq, cbind. destruct (one_pass _ _ _ _ _ _ _ _ _) as [s1 [[]|e]]; [|discriminate].
    now apply IH.
  Qed.

  (** No modelled Python operation reports OutOfFuel. *)
  Definition fine {A} (m : @CM N A) : Prop := forall s, snd (m s) <> Raise OutOfFuel.
  Definition gfine {A} (m : @M N A) : Prop := forall s, snd (m s) <> Raise OutOfFuel.
  Lemma gf_bind {A B} (m : @M N A) (f : A -> M B) : gfine m -> (forall a, gfine (f a)) -> gfine (bind m f).
  Proof.
    intros Hm Hf s. unfold bind. specialize (Hm s). destruct (m s) as [s1 [a|e]]; [apply Hf|].
    cbn in *. congruence.
  Qed.
  Lemma gf_when b (m : @M N unit) : gfine m -> gfine (when b m).
  Proof. intros H. destruct b; auto. intros s; discriminate. Qed.
  Lemma gf_ok {A} (m : @M N A) : (forall s, exists a, snd (m s) = Ok a) -> gfine m.
  Proof. intros H s. destruct (H s) as [a ->]. discriminate. Qed.
  Lemma gf_line c b cm : gfine (write_line (N := N) c b cm). Proof. intros s; discriminate. Qed.
  Lemma gf_emit i : gfine (@emit N i). Proof. intros s; discriminate. Qed.
  Lemma gf_plot e : gfine (@plot N e). Proof. intros s; discriminate. Qed.
  Lemma gf_set_up b : gfine (@set_up N b). Proof. intros s; discriminate. Qed.
  Lemma gf_dwell c ms cm : gfine (dwell (N := N) c ms cm). Proof. apply gf_when, gf_line. Qed.
  Lemma gf_spindle_on c a b d e : gfine (spindle_on (N := N) c a b d e).
  Proof. apply gf_bind; [apply gf_line|intros _; apply gf_when, gf_dwell]. Qed.
  Lemma gf_spindle_off c a b : gfine (spindle_off (N := N) c a b).
  Proof. apply gf_bind; [apply gf_line|intros _; apply gf_when, gf_dwell]. Qed.
  Lemma gf_gcode c cmd args : gfine (gcode_command (N := N) c cmd args).
  Proof.
    intros s. unfold gcode_command. destruct (negb (nonempty cmd)); [discriminate|].
    destruct (mem_str _ _ && _); [discriminate|].
    destruct (fold_left _ _ _) as [[lv up] pos].
    destruct (Nat.ltb 0 _); [destruct (_ || _)|destruct (negb _)]; discriminate.
  Qed.
  Lemma gf_comment c a semi : gfine (comment (N := N) c a semi).
  Proof.
    apply gf_when.
    assert (W : forall o, gfine (@write_comment N semi o)).
    { intros [s|]; unfold write_comment; [destruct (nonempty s)|]; apply gf_emit. }
    destruct a as [|s|l]; [apply W|apply W|].
    induction l as [|x l IH]; [intros s; discriminate|]. apply gf_bind; [apply W|intros _; exact IH].
  Qed.
  Lemma gf_feed_rate c f : gfine (feed_rate (N := N) c f).
  Proof. intros s. unfold feed_rate. destruct (vF _); discriminate. Qed.
  Lemma gf_tool_up c r w cm : gfine (tool_up (N := N) c r w cm).
  Proof.
    unfold tool_up. apply gf_bind; [destruct (alt_tool_up c); apply gf_gcode|intros _].
    apply gf_bind; [apply gf_when, gf_spindle_off|intros _].
    apply gf_bind; [apply gf_when, gf_dwell|intros _].
    apply gf_bind; [apply gf_set_up|intros _; apply gf_plot].
  Qed.
  Lemma gf_tool_down c z f w cm : gfine (tool_down (N := N) c z f w cm).
  Proof.
    unfold tool_down. apply gf_bind; [apply gf_when, gf_spindle_on|intros _].
    apply gf_bind; [destruct (alt_tool_down c); apply gf_gcode|intros _].
    apply gf_bind; [apply gf_set_up|intros _].
    apply gf_bind; [apply gf_when, gf_dwell|intros _; apply gf_plot].
  Qed.
  Lemma gf_header c t cm : gfine (header (N := N) c t cm).
  Proof.
    unfold header.
    repeat (apply gf_bind; [first [apply gf_emit|apply gf_comment|apply gf_line|apply gf_feed_rate|idtac]|intros _]).
    - generalize (header_comments c). intros l. induction l as [|x l IH]; [intros s; discriminate|].
      apply gf_bind; [apply gf_comment|intros _; apply IH].
    - destruct cm; [apply gf_comment|intros s; discriminate].
    - destruct (String.eqb _ _); apply gf_line.
    - unfold blend_line. destruct (blend_mode c); [|intros s0; discriminate].
      destruct (String.eqb _ _); [destruct (blend_tolerance c); [destruct (blend_qtolerance c)|]; apply gf_line|].
      destruct (String.eqb _ _); [apply gf_line|intros s0; discriminate].
    - apply gf_emit.
  Qed.
  Lemma gf_exec c o : gfine (exec (N := N) c o).
  Proof.
    destruct o; cbn [exec].
    - apply gf_comment.
    - apply gf_header.
    - apply gf_bind; [apply gf_emit|intros _]. apply gf_bind.
      + intros s. destruct (axis_offset_reset s); [apply gf_gcode|discriminate].
      + intros _. apply gf_bind; [apply gf_line|intros _; apply gf_emit].
    - apply gf_feed_rate.
    - unfold pause. destruct conditional; apply gf_gcode.
    - apply gf_dwell.
    - apply gf_tool_up.
    - apply gf_tool_down.
    - apply gf_spindle_on.
    - apply gf_spindle_off.
    - intros s. unfold normalize_axis_angle.
      repeat (match goal with |- context [match ?x with _ => _ end] => destruct x; try discriminate end).
    - unfold rapid_move. apply gf_bind; [intros s; apply gf_when, gf_tool_up|intros _].
      apply gf_bind; [apply gf_gcode|intros _ s; discriminate].
    - unfold Gcode.feed. destruct (feed_default _ _ _ _ _ _); [|intros s; discriminate].
      apply gf_bind; [apply gf_gcode|intros _ s; discriminate].
    - intros s. unfold feed_arc. destruct (vX _); [|discriminate]. destruct (vY _); [|discriminate].
      destruct (negb _); [discriminate|].
      match goal with |- snd (bind ?m ?f s) <> _ => apply (gf_bind m f) end; [apply gf_gcode|intros _ s'; discriminate].
    - apply gf_gcode.
  Qed.
  Lemma f_bind {A B} (m : @CM N A) (f : A -> @CM N B) : fine m -> (forall a, fine (f a)) -> fine (cbind m f).
  Proof.
    intros Hm Hf s. unfold cbind. specialize (Hm s). destruct (m s) as [s1 [a|e]]; [apply Hf|].
    cbn in *. congruence.
  Qed.
  Lemma f_seq (m m' : @CM N unit) : fine m -> fine m' -> fine (cseq m m').
  Proof. intros H H'. apply f_bind; auto. Qed.
  Lemma f_call (c : config N) o : fine (call c o).
  Proof. intros s. unfold call. pose proof (gf_exec c o (gs s)). destruct (exec c o (gs s)). exact H. Qed.
  Lemma f_get_xy : fine (@get_xy N).
  Proof. intros s. unfold get_xy. destruct (vX _); [destruct (vY _)|]; discriminate. Qed.
  Lemma f_rapid (c : config N) k p : fine (rapid_to_path c k p).
  Proof.
    destruct p as [|s r]; [intros st; discriminate|]. apply f_seq.
    - destruct (enable_tangent k); [|intros st; discriminate]. apply f_bind; intros ? ?; discriminate.
    - apply f_bind; [intros ?; discriminate|intros a; apply f_call].
  Qed.
  Lemma f_paint_rapid (c : config N) k b p : fine (paint_rapid_to_path c k b p).
  Proof. unfold paint_rapid_to_path. destruct (reload_enable b); [intros s; discriminate|apply f_rapid]. Qed.
  Lemma f_segment (c : config N) k s d : fine (segment_gcode c k s d).
  Proof.
    unfold segment_gcode. apply f_seq; [intros st; discriminate|]. apply f_bind.
    - destruct (_ || _); [intros st; discriminate|].
      apply f_bind; [intros st; discriminate|intros a]. apply f_bind.
      + destruct (is_zero _); [intros st; discriminate|]. apply f_seq; [intros st; discriminate|apply f_call].
      + intros _. apply f_bind; intros ? ?; discriminate.
    - intros ea. apply f_seq; [|intros st; discriminate].
      destruct (geo s); [apply f_call|]. apply f_bind; [apply f_get_xy|intros xy].
      destruct (negb _); apply f_call.
  Qed.
  Lemma f_segments (c : config N) k p d : fine (segments_gcode c k p d).
  Proof. induction p as [|s p IH]; [intros st; discriminate|]. apply f_seq; [apply f_segment|exact IH]. Qed.
  Lemma f_cut_path (c : config N) k rapid text p d : (forall p, fine (rapid p)) -> fine (cut_path c k rapid text p d).
  Proof.
    intros HR. unfold cut_path. repeat (apply f_seq; [first [apply f_call|apply HR|idtac]|]).
    - destruct p; [intros s; discriminate|apply f_call].
    - apply f_segments.
  Qed.
  Lemma f_pass (c : config N) k rapid text pass d l : (forall p, fine (rapid p)) ->
    forall i, fine (one_pass c k rapid text i pass d l).
  Proof.
    intros HR. induction l as [|p l IH]; intros i; [intros s; discriminate|].
    apply f_seq; [|apply IH]. destruct (_ && _); [now apply f_cut_path|intros s; discriminate].
  Qed.
  Lemma f_loop (c : config N) k rapid text l step zd : (forall p, fine (rapid p)) ->
    forall fuel ds pass d, depths fuel c step zd d = Some ds -> fine (depth_loop fuel c k rapid text l step zd pass d).
  Proof.
    intros HR. induction fuel as [|f IH]; intros ds pass d; cbn [depth_loop depths];
      (destruct (leb zd d); [|intros _ s; discriminate]); [discriminate|].
    destruct (depths f c step zd (next_depth c step zd d)) as [ds'|] eqn:D; [|discriminate]. intros _.
    apply f_seq; [now apply f_pass|]. now apply (IH ds').
  Qed.
  Lemma f_job fuel c k pre rapid today text ct l ds :
    (forall c p, fine (rapid c p)) -> (forall l, pre l <> Raise OutOfFuel) ->
    (forall n, depths fuel (job_config c n ct) (eff_step k) (z_depth k) (first_depth k) = Some ds) ->
    fine (generate_gcode fuel c k pre rapid today text ct l).
  Proof.
    intros HR HP HD. unfold generate_gcode. apply f_bind.
    - intros s. cbn. destruct (path_sort_method k) as [m|]; [|discriminate].
      unfold sort_paths, sort_segment_paths_1, keyed, flip_paths.
      repeat (match goal with |- context [match ?x with _ => _ end] => destruct x; try discriminate end).
    - intros l1. apply f_bind; [intros s; apply HP|intros l2].
      repeat (apply f_seq; [first [apply f_call|idtac]|]).
      + now apply (f_loop _ _ _ _ _ _ _ (HR _) _ ds).
      + unfold cwhen. destruct (home_when_done k); [apply f_call|intros s; discriminate].
      + apply f_call.
  Qed.
  Lemma preprocess_fine k (l : list path) : preprocess k l <> Raise OutOfFuel.
  Proof.
    induction l as [|p l IH]; [discriminate|]. cbn.
    destruct (if path_split_cusps k then split_path_g1 p else Ok [p]) as [ps|e] eqn:Ep; cbn.
    - destruct (preprocess k l); cbn; congruence.
    - destruct (path_split_cusps k); [|discriminate]. destruct p; [|discriminate]. cbn in Ep. congruence.
  Qed.
  Lemma job_config_depths fuel (c : config N) n ct step zd : forall d,
    depths fuel (job_config c n ct) step zd d = depths fuel c step zd d.
  Proof.
    destruct (job_config_fields c n ct) as (_ & _ & Ht & _).
    induction fuel as [|f IH]; intros d; cbn [depths]; auto. rewrite IH. unfold next_depth. now rewrite Ht.
  Qed.

  (** ** The route (C31) *)
  Lemma route_app (a b : list (@op N)) : xy_route (a ++ b) = (xy_route a ++ xy_route b)%list.
  Proof. apply flat_map_app. Qed.
  Lemma segment_route d (s : cseg N) ops : segment_program d s ops -> xy_route ops = [@s_p2 N (geo s)].
  Proof.
    intros (o & (a & [-> | (ar & G & ->)]) & [-> | (a0 & ->)]); cbn; try rewrite G; try reflexivity;
      try (now destruct (s_p2 (geo s))); cbn; now destruct (ap2 ar).
  Qed.
  Lemma path_route d (p : path) ops : path_program d p ops -> xy_route ops = vertices p.
  Proof.
    intros (s & r & text & a & body & -> & -> & C). cbn [xy_route flat_map xy_target app].
    change (flat_map xy_target body) with (xy_route body). unfold vertices.
    assert (R : forall p0, concat_of (segment_program d) p0 body -> xy_route body = map (fun s : cseg N => s_p2 (geo s)) p0).
    { clear C. intros p0 C. induction C as [|x xs o os Hx _ IH]; [reflexivity|].
      rewrite route_app, IH, (segment_route d x o Hx). reflexivity. }
    rewrite (R _ C). now destruct (s_p1 (geo s)).
  Qed.
  Lemma job_route home start (l : list path) ds ops : job_program home start l ds ops ->
    xy_route ops = (concat (map (fun _ => concat (map vertices (selected start l))) ds)
                    ++ if home then [P (of_Z 0) (of_Z 0)] else [])%list.
  Proof.
    intros (today & body & C & ->). rewrite !route_app. cbn [xy_route flat_map xy_target app].
    change (flat_map xy_target body) with (xy_route body). rewrite app_nil_r. f_equal.
    - induction C as [|d ds o os Hd _ IH]; [reflexivity|]. rewrite route_app, IH. cbn [map concat]. f_equal.
      clear -Hd. induction Hd as [|p l0 o os Hp _ IH]; [reflexivity|].
      rewrite route_app, IH, (path_route d p o Hp). reflexivity.
    - destruct home; reflexivity.
  Qed.
End Jobs.
