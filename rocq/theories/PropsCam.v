(** * PropsCam: the cutting-job properties (C25-C32), stated on the model [Cam] and
      the specification [CamSpec] (what the calls of a job must look like) and
      [GcodeSpec] (the machine that executes the program).

    A job is [simple_job fuel ...] (SimpleCAM) or [paint_job fuel ...] (PaintCAM);
    [fuel] bounds the number of depth passes the model runs and [OutOfFuel] is the
    model's way to say "still running": it is not an outcome of the program. *)
From Verif Require Import Num NumR NumF64 Str Gcode GcodeSpec GcodeProofs GcodeProofs2 GcodeProofs3 GcodeProofs4 GcodeR
  Geom GeomSpec GeomR Cam CamSpec CamProofs1 CamProofs2 CamProofs3 CamR PropsGcode.
From Coq Require Import String ZArith NArith Reals Lra Lia List Bool Permutation.
Import ListNotations.
Local Open Scope string_scope.
Local Open Scope R_scope.

(** Paths without Z hints. *)
Definition no_z_hints {N : NumOps} (l : list (list (cseg N))) : Prop :=
  Forall (Forall (fun s => inline_z s = None)) l.

(** ** C25 *)
Section C25.
  Context {E : Epsilon ROps}.
  Notation path := (list (cseg ROps)).
  Theorem C25_terminates (c : config ROps) k today text ct (l : list path) :
    step_of k < 0 ->
    exists n, forall fuel, (n <= fuel)%nat ->
      snd (simple_job fuel c k today text ct l) <> Raise OutOfFuel /\
      simple_job fuel c k today text ct l = simple_job n c k today text ct l.
  Proof.
    intros H. destruct (job_depths c k H) as [n D]. exists n. intros fuel Hf. split.
    - refine (f_job fuel c k _ _ today text ct l _ (fun c0 p => f_rapid c0 k p) (preprocess_fine k) _ cam_start).
      intros m. rewrite job_config_depths. apply (D fuel Hf).
    - exact (job_fuel c k _ _ today text ct l _ n fuel Hf (D n (le_n n)) cam_start).
  Qed.
  Theorem C25_terminates_paint (c : config ROps) k b today text ct (l : list path) :
    step_of k < 0 ->
    exists n, forall fuel, (n <= fuel)%nat ->
      snd (paint_job fuel c k b today text ct l) <> Raise OutOfFuel /\
      paint_job fuel c k b today text ct l = paint_job n c k b today text ct l.
  Proof.
    intros H. destruct (job_depths c k H) as [n D]. exists n. intros fuel Hf. split.
    - refine (f_job fuel c k _ _ today text ct l _ (fun c0 p => f_paint_rapid c0 k b p) _ _ cam_start).
      2: intros m; rewrite job_config_depths; apply (D fuel Hf).
      assert (B : forall p, process_brush_path c k b p <> Raise OutOfFuel).
      { intros [|s p]; [discriminate|]. unfold process_brush_path.
        repeat match goal with |- (if ?x then _ else _) <> _ => destruct x | |- match ?x with _ => _ end <> _ => destruct x end;
          discriminate. }
      assert (PP : forall l0 : list path, paint_paths c k b l0 <> Raise OutOfFuel).
      { induction l0 as [|p l0 IH]; [discriminate|]. cbn.
        destruct (if _ || _ then _ else Ok p) as [p'|e] eqn:Ep; cbn.
        - destruct (paint_paths c k b l0); cbn; congruence.
        - destruct (_ || _); [|discriminate]. intros [= ->]. exact (B p Ep). }
      intros l0. pose proof (preprocess_fine k l0) as F. destruct (preprocess k l0); cbn; [apply PP|congruence].
    - exact (job_fuel c k _ _ today text ct l _ n fuel Hf (D n (le_n n)) cam_start).
  Qed.
  Theorem C25_diverges (c : config ROps) k today text ct (l : list path) :
    0 <= step_of k -> forall fuel, snd (simple_job fuel c k today text ct l) <> Ok tt.
  Proof.
    intros H fuel. apply job_never. intros n. rewrite job_config_depths, eff_step_R.
    apply depths_nonneg; [exact H|apply first_depth_ge].
  Qed.
  Theorem C25_diverges_paint (c : config ROps) k b today text ct (l : list path) :
    0 <= step_of k -> forall fuel, snd (paint_job fuel c k b today text ct l) <> Ok tt.
  Proof.
    intros H fuel. apply job_never. intros n. rewrite job_config_depths, eff_step_R.
    apply depths_nonneg; [exact H|apply first_depth_ge].
  Qed.
  (** The command line derives the step from its options: the job ends exactly when
      the depth option is negative, whatever the step option is. *)
  Theorem C25_command_line (step : R) (k : cam ROps) : 0 < EPS ->
    z_step k = option_step step (z_depth k) -> (step_of k < 0 <-> z_depth k < 0).
  Proof.
    intros He H. unfold step_of. rewrite H. unfold option_step, pymax. rnum.
    destruct (Rltb (- Rabs step) (z_depth k)) eqn:L; rbool; pose proof (Rabs_pos step) as P;
      (destruct (Rlt_dec _ _) as [Q|Q]); try tauto.
    - split; intros X.
      + lra.
      + rewrite Rabs_left1 in Q by lra. lra.
  Qed.
End C25.
(** In binary64 a job with depth 0 and step 0 never ends either. *)
Theorem C25_zero_diverges_binary64 {E : Epsilon F64Ops} (c : config F64Ops) (k : cam F64Ops) today text ct l :
  z_step k = z64 0 -> z_depth k = z64 0 ->
  forall fuel, snd (simple_job fuel c k today text ct l) <> Ok tt.
Proof.
  intros Hs Hd fuel. apply job_never. intros n. rewrite job_config_depths.
  assert (He : eff_step k = z64 0) by (unfold eff_step; rewrite Hs, Hd; destruct (is_zero _); reflexivity).
  unfold first_depth. rewrite He, Hd.
  replace (if _ || _ then z64 0 else z64 0) with (z64 0) by (destruct (_ || _); reflexivity).
  induction fuel as [|f IH]; [reflexivity|]. cbn [depths].
  change (@Num.leb F64Ops (z64 0) (z64 0)) with true. cbn iota.
  assert (@next_depth F64Ops c (z64 0) (z64 0) (z64 0) = z64 0) as ->.
  { unfold next_depth. destruct (_ && _); reflexivity. }
  rewrite IH. reflexivity.
Qed.

(** ** C26 *)
Section Heights.
  Context {N : NumOps} {E : Epsilon N}.
  Notation path := (list (cseg N)).
  (** Every height the machine is ever sent during a job is the safe height, a pass
      depth (>= z_depth), a Z hint of a segment or, for a path that starts with a
      hint, zero. *)
  Lemma job_heights fuel c k pre rapid today text ct (l : list path) (Zok : N -> Prop) :
    plain_config c -> Zok (zsafe c) -> (forall d, Num.leb (z_depth k) d = true -> Zok d) ->
    (forall c' (Q : @op N -> Prop) p, (forall x y a, Q (ORapid x y None a None)) -> emits c' Q (rapid c' p)) ->
    (forall l0 l1, sorted_input k l = Ok l0 -> pre l0 = Ok l1 ->
       Forall (Forall (fun s => match inline_z s with Some z => Zok z /\ Zok (of_Z 0) | None => True end)) l1) ->
    forall prefix rest m d,
      out (gs (fst (generate_gcode fuel c k pre rapid today text ct l cam_start))) = (prefix ++ rest)%list ->
      replay (axis_letters c) prefix machine0 = Some m ->
      mpos m (out_name c PZ) = Some d -> exists z, Zok z /\ d = program_value c PZ z.
  Proof.
    intros PC Zs Zd HR HP prefix rest m d Ho Hr Hm.
    set (pre' := fun _ : list path => match sorted_input k l with
                           | Ok l1 => pre l1 | Raise e => Raise e end).
    assert (Eq : generate_gcode fuel c k pre rapid today text ct l cam_start =
                 generate_gcode fuel c k pre' rapid today text ct l cam_start).
    { unfold generate_gcode, cbind, lift, pre'. fold (sorted_input k l).
      destruct (sorted_input k l); reflexivity. }
    rewrite Eq in Ho.
    destruct (job_calls fuel c k pre' rapid today text ct l
                (op_zok c Zok)) as (n & G & F); cbn [op_zok]; auto.
    - intros x y a. split; [exact Zs|discriminate].
    - intros c' p. apply HR. intros x y a. split; [exact Zs|discriminate].
    - intros l0 l1 Hl d' Hd'. unfold pre' in Hl. destruct (sorted_input k l) as [ls|e] eqn:Es; [|discriminate].
      eapply Forall_impl; [|exact (HP ls l1 eq_refl Hl)]. intros p Hp. split; [|split].
      + eapply Forall_impl; [|exact Hp]. intros s Hs. unfold Qcut, dflt.
        repeat split; cbn [op_zok]; intros; try discriminate;
          match goal with H : Some _ = Some _ |- _ => injection H as <- end; cbn beta in Hs; destruct (inline_z s); auto; apply Hs.
      + cbn. auto.
      + intros Ex. cbn. apply Exists_exists in Ex as (s & Is & Hs). rewrite Forall_forall in Hp. specialize (Hp s Is).
        destruct (inline_z s); [apply Hp|congruence].
    - destruct (job_config_fields c n ct) as (F1 & F2 & F3 & F4 & F5 & F6).
      rewrite G in Ho.
      assert (Fo : Forall (op_zok (job_config c n ct) Zok) (trace (fst (generate_gcode fuel c k pre' rapid today text ct l cam_start)))).
      { eapply Forall_impl; [|exact F]. intros o. unfold op_zok. destruct o; try rewrite F2; auto. }
      rewrite <- F6 in Hr. rewrite <- F4 in Hm.
      destruct (heights (job_config c n ct) Zok (F1 PC) _ prefix rest m Fo Ho Hr d Hm) as (z & Hz & ->).
      exists z. split; [exact Hz|]. apply F5.
  Qed.
  Theorem C26_never_below fuel c k today text ct (l : list path) :
    plain_config c -> no_z_hints l -> Num.leb (z_depth k) (zsafe c) = true ->
    forall prefix rest m d,
      out (gs (fst (simple_job fuel c k today text ct l))) = (prefix ++ rest)%list ->
      replay (axis_letters c) prefix machine0 = Some m ->
      mpos m (out_name c PZ) = Some d ->
      exists z, Num.leb (z_depth k) z = true /\ d = program_value c PZ z.
  Proof.
    intros PC NH Hz. apply job_heights with (Zok := fun z => Num.leb (z_depth k) z = true); auto.
    - intros c' Q p HQ. now apply em_rapid_to_path.
    - intros l0 l1 Hs Hp.
      assert (NH1 : no_z_hints l1).
      { apply (preprocess_forall _ _ _ _ Hp). unfold sorted_input in Hs.
        destruct (path_sort_method k) as [m|]; [|injection Hs as <-; exact NH].
        refine (sort_paths_forall _ _ _ m _ Hs NH). reflexivity. }
      eapply Forall_impl; [|exact NH1]. intros p. apply Forall_impl. intros s ->. exact I.
  Qed.
  (** PaintCAM adds landing and lift-off segments with Z hints z_step and 0. *)
  Theorem C26_never_below_paint fuel c k b today text ct (l : list path) :
    plain_config c -> no_z_hints l -> Num.leb (z_depth k) (zsafe c) = true ->
    Num.leb (z_depth k) (of_Z 0) = true -> Num.leb (z_depth k) (eff_step k) = true ->
    forall prefix rest m d,
      out (gs (fst (paint_job fuel c k b today text ct l))) = (prefix ++ rest)%list ->
      replay (axis_letters c) prefix machine0 = Some m ->
      mpos m (out_name c PZ) = Some d ->
      exists z, Num.leb (z_depth k) z = true /\ d = program_value c PZ z.
  Proof.
    intros PC NH Hz H0 Hst. apply job_heights with (Zok := fun z => Num.leb (z_depth k) z = true); auto.
    - intros c' Q p HQ. now apply em_paint_rapid.
    - intros l0 l2 Hs Hp. destruct (preprocess k l0) as [l1|e] eqn:Ep; [|discriminate]. cbn in Hp.
      set (OK := fun s : cseg N => inline_z s = None \/ inline_z s = Some (eff_step k) \/ inline_z s = Some (of_Z 0)).
      assert (NH1 : Forall (Forall OK) l1).
      { apply (preprocess_forall _ _ _ _ Ep). assert (NH' : Forall (Forall OK) l).
        { eapply Forall_impl; [|exact NH]. intros p. apply Forall_impl. intros s Hs'. left. exact Hs'. }
        unfold sorted_input in Hs. destruct (path_sort_method k) as [m|]; [|injection Hs as <-; exact NH'].
        refine (sort_paths_forall _ _ _ m _ Hs NH'). left. reflexivity. }
      assert (B : forall p p', process_brush_path c k b p = Ok p' -> Forall OK p -> Forall OK p').
      { intros [|s p] p' H F; [discriminate|]. unfold process_brush_path in H. cbv zeta in H.
        assert (LI : forall x y z, OK (lead_in x y z)) by (intros; left; reflexivity).
        set (p1 := if Num.ltb _ (landing_strip b) then _ else _) in H.
        assert (F1 : Forall OK p1) by (unfold p1; destruct (Num.ltb _ _); auto).
        match type of H with (if _ then _ else Ok ?q) = _ => set (p2 := q) in H end.
        assert (F2 : Forall OK p2).
        { unfold p2. destruct p1; [exact F1|]. destruct (_ && _); [|exact F1]. constructor; [|exact F1].
          right. left. reflexivity. }
        destruct (overshoot_enable b); [|injection H as <-; exact F2].
        destruct (Num.ltb _ (if overshoot_auto b then _ else _));
          (destruct (_ && _); [|injection H as <-]); try discriminate.
        - injection H as <-. rewrite <- app_assoc. apply Forall_app. split; [exact F2|].
          constructor; [left; reflexivity|constructor; [right; right; reflexivity|constructor]].
        - apply Forall_app. split; [exact F2|]. constructor; [left; reflexivity|constructor].
        - exact F2. }
      assert (NH2 : Forall (Forall OK) l2).
      { clear Hs Ep l0. revert l2 Hp. induction NH1 as [|p l1 Fp _ IH]; intros l2 Hp; [injection Hp as <-; constructor|].
        cbn in Hp. destruct (if _ || _ then _ else Ok p) as [p'|e] eqn:Ep; [|discriminate]. cbn in Hp.
        destruct (paint_paths c k b l1) as [r|e] eqn:Er; [|discriminate]. injection Hp as <-. constructor; [|now apply IH].
        destruct (_ || _); [exact (B _ _ Ep Fp)|injection Ep as <-; exact Fp]. }
      eapply Forall_impl; [|exact NH2]. intros p. apply Forall_impl. intros s [->|[->| ->]]; auto.
  Qed.
End Heights.
