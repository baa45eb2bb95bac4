(** * GcodeR: numerical content of the G-code theorems over the reals, and the
      counterexamples found on the way. *)
From Coq Require Import String Ascii ZArith NArith List Bool Lia Reals Lra Floats.SpecFloat.
From Verif Require Import Num NumR NumF64 Str Gcode GcodeSpec GcodeProofs GcodeProofs2 GcodeProofs3
  GcodeProofs4 GcodeProofs5.
Import ListNotations.
Local Open Scope string_scope.

(** ** A difference with itself is zero *)
Lemma no_self_change_R (c : config ROps) :
  (0 <= tolerance c)%R -> (0 <= angle_tolerance c)%R -> no_self_change c.
Proof.
  intros H1 H2. split; intros v; rnum; apply Rltb_false; replace (v - v)%R with 0%R by lra; rewrite Rabs_R0; auto.
Qed.

Lemma f64_self_sub (v : f64) : SFsub prec emax v v = S754_nan \/ exists s, SFsub prec emax v v = S754_zero s.
Proof.
  destruct v as [s|s| |s m e]; cbn.
  - right. destruct s; cbn; eauto.
  - left. destruct s; reflexivity.
  - left; reflexivity.
  - right. rewrite Z.sub_diag. cbn. eauto.
Qed.
Lemma no_self_change_F64 (c : config F64Ops) :
  SFltb (tolerance c) (S754_zero false) = false -> SFltb (angle_tolerance c) (S754_zero false) = false ->
  no_self_change c.
Proof.
  assert (K : forall t v : f64, SFltb t (S754_zero false) = false -> SFltb t (SFabs (f64_sub v v)) = false).
  { intros t v H. unfold f64_sub. destruct (f64_self_sub v) as [->|[s ->]]; cbn [SFabs]; auto.
    unfold SFltb, SFcompare. destruct t; try destruct s; reflexivity. }
  intros H1 H2. split; intros v; apply K; auto.
Qed.

Local Open Scope R_scope.

(** ** Value of a decimal in the program *)
Definition dec_val (d : decimal) : option R :=
  match snd d with
  | DFin neg mag => Some ((if neg then -1 else 1) * IZR (Z.of_N mag) / 10 ^ fst d)
  | _ => None
  end.

Lemma pow10_pos n : 0 < 10 ^ n.
Proof. apply pow_lt; lra. Qed.

Lemma Zrnd_0 : Zrnd 0 = 0%Z.
Proof. exact (Zrnd_IZR 0). Qed.

Lemma Rfmt_val n x : dec_val (n, Rfmt n x) = Some (IZR (Zrnd (x * 10 ^ n)) / 10 ^ n).
Proof.
  unfold dec_val, Rfmt. cbn [fst snd]. f_equal. pose proof (pow10_pos n) as P.
  unfold Rdiv. f_equal. rewrite N2Z.inj_abs_N.
  destruct (Rltb x 0) eqn:E; rbool.
  - assert ((Zrnd (x * 10 ^ n) <= 0)%Z).
    { rewrite <- Zrnd_0. apply Zrnd_mono. nra. }
    rewrite Z.abs_neq by lia. rewrite opp_IZR. lra.
  - assert ((0 <= Zrnd (x * 10 ^ n))%Z).
    { rewrite <- Zrnd_0 at 1. apply Zrnd_mono. nra. }
    rewrite Z.abs_eq by lia. lra.
Qed.

Lemma Rfmt_half n x : exists d, dec_val (n, Rfmt n x) = Some d /\ Rabs (d - x) <= / 2 * / 10 ^ n.
Proof.
  eexists. split; [apply Rfmt_val|]. pose proof (pow10_pos n) as P.
  replace (IZR (Zrnd (x * 10 ^ n)) / 10 ^ n - x) with ((IZR (Zrnd (x * 10 ^ n)) - x * 10 ^ n) * / 10 ^ n)
    by (field; lra).
  rewrite Rabs_mult, (Rabs_pos_eq (/ 10 ^ n)) by (left; apply Rinv_0_lt_compat; auto).
  apply Rmult_le_compat_r; [left; apply Rinv_0_lt_compat; auto|].
  pose proof (Zrnd_half (x * 10 ^ n)). lra.
Qed.

Lemma Rfmt_mono n x y d e : x <= y -> dec_val (n, Rfmt n x) = Some d -> dec_val (n, Rfmt n y) = Some e -> d <= e.
Proof.
  intros H. rewrite !Rfmt_val. intros [= <-] [= <-]. pose proof (pow10_pos n) as P.
  apply Rmult_le_compat_r; [left; apply Rinv_0_lt_compat; auto|]. apply IZR_le, Zrnd_mono. nra.
Qed.

(** ** C02 on the machine: the decimal Z is never below the decimal safe height *)
Definition scale_of (c : config ROps) (k : param) : R :=
  match pget k (axis_scale c) with Some s => s | None => 1 end.
Definition offset_of (c : config ROps) (k : param) : R :=
  match pget k (axis_offset c) with Some o => o | None => 0 end.
(** The exact (unrounded) machine coordinate of a world coordinate. *)
Definition exact_coord (c : config ROps) (k : param) (v : R) : R :=
  (v * scale_of c k + offset_of c k) * (match k with PA => 180 / Rtrigo1.PI | _ => unit_scale c end).

Lemma program_value_R c k v : is_axis k ->
  program_value c k v = (ndigits_out c, Rfmt (ndigits_out c) (exact_coord c k v)).
Proof.
  intros H. unfold program_value, exact_coord, scale_of, offset_of, degrees.
  destruct k; destruct H as [E|[E|[E|E]]]; try discriminate E; reflexivity.
Qed.

Definition machine_z_safe (c : config ROps) (m : machine) : Prop :=
  exists z z0, option_map dec_val (mpos m (out_name c PZ)) = Some (Some z) /\
    dec_val (ndigits_out c, Rfmt (ndigits_out c) (exact_coord c PZ (zsafe c))) = Some z0 /\ z0 <= z.

Theorem rapids_safe_machine (c : config ROps) ops :
  plain_config c -> Forall tracked_op ops -> 0 <= scale_of c PZ -> 0 <= unit_scale c ->
  forall pre i post, out (run c ops init) = (pre ++ i :: post)%list -> lateral_rapid c i ->
  exists m m', replay (axis_letters c) pre machine0 = Some m /\
    step_item (axis_letters c) m i = Some m' /\ machine_z_safe c m /\ machine_z_safe c m'.
Proof.
  intros P F S U pre i post E L.
  destruct (rapids_safe c ops R_order P F pre i post E L) as (m & m' & z & z' & A & B & Z1 & L1 & Z2 & L2).
  assert (K : forall z (m : machine), mpos m (out_name c PZ) = Some (program_value c PZ z) ->
     @ltb ROps z (zsafe c) = false -> machine_z_safe c m).
  { intros y M E1 E2. rnum. rbool. rewrite program_value_R in E1 by (unfold is_axis; auto).
    destruct (Rfmt_half (ndigits_out c) (exact_coord c PZ y)) as [d [D _]].
    destruct (Rfmt_half (ndigits_out c) (exact_coord c PZ (zsafe c))) as [d0 [D0 _]].
    exists d, d0. rewrite E1. cbn [option_map]. rewrite D. split; [auto|split; [auto|]].
    eapply Rfmt_mono; [|exact D0|exact D]. unfold exact_coord.
    apply Rmult_le_compat_r; auto. apply Rplus_le_compat_r. apply Rmult_le_compat_r; auto. }
  exists m, m'. repeat split; eauto.
Qed.

(** ** C05 on the machine *)
Theorem request_error (c : config ROps) ops k v :
  plain_config c -> Forall tracked_op ops -> 0 <= tolerance c -> 0 <= angle_tolerance c ->
  (k = PX \/ k = PY \/ k = PZ) ->
  last_request c ops init k None = Some v ->
  exists m d, replay (axis_letters c) (out (run c ops init)) machine0 = Some m /\
    option_map dec_val (mpos m (out_name c k)) = Some (Some d) /\
    Rabs (d - (v * scale_of c k + offset_of c k) * unit_scale c)
      <= tolerance c * Rabs (scale_of c k * unit_scale c) + / 2 * / 10 ^ (ndigits_out c).
Proof.
  intros P F T1 T2 Hk LR.
  destruct (tracking c ops P F) as [m [Rm Pm]].
  assert (Ak : is_axis k) by (unfold is_axis; tauto).
  destruct (requests_close c ops init k None (no_self_change_R c T1 T2)) with (v := v) as [l [E1 E2]]; auto.
  - apply P.
  - apply P.
  - clear - F. induction F as [|o l H _ IH]; constructor; auto. intros ax E; subst; exact H.
  - discriminate.
  - specialize (Pm k Ak). rewrite E1 in Pm. cbn [option_map] in Pm.
    rewrite program_value_R in Pm by auto.
    destruct (Rfmt_half (ndigits_out c) (exact_coord c k l)) as [d [D B]].
    exists m, d. split; auto. split; [rewrite Pm; cbn [option_map]; now rewrite D|].
    rnum. rbool.
    assert (W : wrapped c k v = v) by (destruct k; destruct Hk as [E|[E|E]]; try discriminate E; reflexivity).
    assert (TT : axis_tol c k = tolerance c) by (destruct k; destruct Hk as [E|[E|E]]; try discriminate E; reflexivity).
    rewrite W, TT in E2.
    assert (EX : exact_coord c k l = (l * scale_of c k + offset_of c k) * unit_scale c)
      by (destruct k; destruct Hk as [E|[E|E]]; try discriminate E; reflexivity).
    rewrite EX in B.
    replace (d - (v * scale_of c k + offset_of c k) * unit_scale c)
      with ((d - (l * scale_of c k + offset_of c k) * unit_scale c) + (l - v) * (scale_of c k * unit_scale c)) by ring.
    eapply Rle_trans; [apply Rabs_triang|]. rewrite Rplus_comm. apply Rplus_le_compat; [|exact B].
    rewrite Rabs_mult. apply Rmult_le_compat_r; [apply Rabs_pos|]. rewrite Rabs_minus_sym. exact E2.
Qed.

(** ** C14 *)
Lemma vA_pset (v : Num.T ROps) (m : pmap ROps) : vA (pset PA v m) = Some v.
Proof. destruct m; reflexivity. Qed.

Lemma PI_gt_3 : 3 < Rtrigo1.PI.
Proof. pose proof PI2_3_2. lra. Qed.

Theorem normalize_congruent (c : config ROps) s a :
  vA (last_val s) = Some a -> snd (normalize_axis_angle c "A" s) = Ok tt /\
  exists b, vA (last_val (fst (normalize_axis_angle c "A" s))) = Some b /\ exists n : Z, b = a - 2 * Rtrigo1.PI * IZR n.
Proof.
  intros H. unfold normalize_axis_angle. cbn [upper]. change (upper_ascii "A") with "A"%char.
  cbn [mem_str existsb String.eqb Ascii.eqb Bool.eqb negb orb]. rewrite H. rnum.
  destruct (Rltb _ _); cbn [fst snd].
  - unfold write_line, bind. cbn [fst snd last_val]. split; [reflexivity|].
    rewrite vA_pset. eexists. split; [reflexivity|]. eexists. reflexivity.
  - split; [reflexivity|]. exists a. split; [exact H|]. exists 0%Z. lra.
Qed.

Theorem normalize_not_unwound (c : config ROps) s :
  vA (last_val s) = Some 9 ->
  exists b, vA (last_val (fst (normalize_axis_angle c "A" s))) = Some b /\ b < - 50.
Proof.
  intros H. unfold normalize_axis_angle. cbn [upper]. change (upper_ascii "A") with "A"%char.
  cbn [mem_str existsb String.eqb Ascii.eqb Bool.eqb negb orb]. rewrite H. unfold two_pi. rnum.
  pose proof PI_gt_3.
  destruct (Rltb (2 * Rtrigo1.PI) (Rabs 9)) eqn:E; rbool.
  - unfold write_line, bind. cbn [fst snd last_val]. rewrite vA_pset. eexists. split; [reflexivity|].
    assert (13 <= IZR (Zfloor (9 / 2 * Rtrigo1.PI))).
    { pose proof (Zfloor_spec (9 / 2 * Rtrigo1.PI)).
      assert (IZR 12 < IZR (Zfloor (9 / 2 * Rtrigo1.PI))) by lra. apply lt_IZR in H2. apply (IZR_le 13). lia. }
    nra.
  - rewrite Rabs_pos_eq in E by lra. pose proof PI_4. lra.
Qed.
