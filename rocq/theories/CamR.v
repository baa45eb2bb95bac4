(** * CamR: depth stepping, tool angle and arc fidelity over the real numbers. *)
From Verif Require Import Num NumR Str Gcode GcodeSpec GcodeProofs GcodeProofs2 GcodeProofs3 GcodeProofs4 GcodeR
  Geom GeomR Cam CamSpec CamProofs1 CamProofs2 CamProofs3.
From Coq Require Import String ZArith NArith Reals Lra Lia List Bool.
Import ListNotations.
Local Open Scope R_scope.

Lemma div_mul_self (a b : R) : b <> 0 -> a = a / b * b.
Proof. intros H. field. exact H. Qed.
Lemma mul_div_self (a b : R) : b <> 0 -> a * b / b = a.
Proof. intros H. field. exact H. Qed.

Lemma div_ge_1 (a b : R) : b < 0 -> a <= b -> 1 <= a / b.
Proof. intros H L. pose proof (div_mul_self a b ltac:(lra)). nra. Qed.

Section R.
  Context {E : Epsilon ROps}.
  Notation path := (list (cseg ROps)).

  (** ** Depths *)
  Lemma next_neg (c : config ROps) (step zd d : R) : step < 0 -> next_depth c step zd d = d + step.
  Proof.
    intros H. unfold next_depth. rnum.
    assert (Rltb (Rabs (zd - d)) step = false) as ->.
    { apply Rltb_false. pose proof (Rabs_pos (zd - d)). lra. }
    rewrite andb_false_r. reflexivity.
  Qed.
  Lemma depths_neg (c : config ROps) (step zd : R) : step < 0 -> forall n fuel d,
    d + INR n * step < zd -> (n <> 0%nat -> zd <= d + (INR n - 1) * step) -> (n <= fuel)%nat ->
    depths fuel c step zd d = Some (map (fun i => d + INR i * step) (seq 0 n)).
  Proof.
    intros Hs. induction n as [|n IH]; intros fuel d H1 H2 Hf.
    - cbn [INR] in H1. assert (L : Rleb zd d = false) by (apply Rleb_false; lra).
      destruct fuel; cbn [depths]; rnum; rewrite L; reflexivity.
    - destruct fuel as [|fuel]; [lia|]. cbn [depths]. rnum.
      rewrite S_INR in H1, H2. specialize (H2 ltac:(lia)).
      assert (P : 0 <= INR n) by apply pos_INR.
      assert (L : Rleb zd d = true) by (apply Rleb_true; nra). rewrite L.
      rewrite next_neg by auto. rewrite (IH fuel (d + step)).
      + cbn [option_map seq map]. do 2 f_equal; [cbn [INR]; rnum; lra|].
        rewrite <- seq_shift, map_map. apply map_ext. intros i. rewrite S_INR. rnum. ring.
      + lra.
      + intros Hn. lra.
      + lia.
  Qed.
  Lemma depths_nonneg (c : config ROps) (step zd : R) : 0 <= step -> forall fuel d, zd <= d ->
    depths fuel c step zd d = None.
  Proof.
    intros Hs. induction fuel as [|f IH]; intros d Hd; cbn [depths]; rnum;
      (assert (L : Rleb zd d = true) by now apply Rleb_true); rewrite L; [reflexivity|].
    rewrite IH; [reflexivity|]. unfold next_depth. destruct (_ && _); rnum; lra.
  Qed.

  (** The effective step of a job and the passes it makes, as a user would state it:
      a job steps by z_step, or by z_depth if z_step is within the tolerance EPS of
      zero; if the work surface is never reached or one step is enough there is a
      single pass at z_depth, otherwise the passes are at 1, 2, ... steps as long as
      they stay at or above z_depth. *)
  Definition step_of (k : cam ROps) : R :=
    if Rlt_dec (Rabs (z_step k)) EPS then z_depth k else z_step k.
  Definition passes (zd step : R) : list R :=
    if Rlt_dec 0 zd then [zd] else if Rlt_dec step zd then [zd]
    else map (fun i => INR (S i) * step) (seq 0 (Z.to_nat (Zfloor (zd / step)))).

  Lemma eff_step_R (k : cam ROps) : eff_step k = step_of k.
  Proof.
    unfold eff_step, step_of, is_zero. rnum. destruct (Rlt_dec _ _) as [L|L].
    - apply Rabs_def2 in L as [A B]. rewrite (proj2 (Rltb_true _ _)), (proj2 (Rltb_true (z_step k) EPS)); auto.
    - destruct (Rltb (- EPS) (z_step k) && Rltb (z_step k) EPS) eqn:B; [|reflexivity]. exfalso.
      apply andb_true_iff in B as [B1 B2]. rbool. apply L, Rabs_def1; auto.
  Qed.
  Lemma first_depth_ge (k : cam ROps) : z_depth k <= first_depth k.
  Proof.
    unfold first_depth. rnum. destruct (Rltb 0 (z_depth k) || Rltb (eff_step k) (z_depth k)) eqn:B; rnum; [lra|].
    apply orb_false_iff in B as [_ B]. rbool. lra.
  Qed.
  Theorem job_depths (c : config ROps) k : step_of k < 0 ->
    exists n, forall fuel, (n <= fuel)%nat ->
      depths fuel c (eff_step k) (z_depth k) (first_depth k) = Some (passes (z_depth k) (step_of k)).
  Proof.
    intros Hs. rewrite eff_step_R.
    assert (One : forall d, d = z_depth k -> exists n, forall fuel, (n <= fuel)%nat ->
       depths fuel c (step_of k) (z_depth k) d = Some [z_depth k]).
    { intros d ->. exists 1%nat. intros fuel Hf. rewrite (depths_neg c (step_of k) (z_depth k) Hs 1 fuel); auto.
      - cbn. f_equal. f_equal. lra.
      - cbn. lra.
      - intros _. cbn. lra. }
    unfold first_depth, passes. rewrite eff_step_R. rnum. unfold Rltb.
    destruct (Rlt_dec 0 (z_depth k)) as [P|P]; [cbn [orb]; apply One; reflexivity|].
    destruct (Rlt_dec (step_of k) (z_depth k)) as [Q|Q]; [cbn [orb]; apply One; reflexivity|].
    cbn [orb]. set (n := Zfloor (z_depth k / step_of k)).
    pose proof (Zfloor_spec (z_depth k / step_of k)) as [F1 F2]. fold n in F1, F2.
    assert (Q1 : z_depth k = z_depth k / step_of k * step_of k) by (apply div_mul_self; lra).
    assert (Hn : (1 <= n)%Z).
    { apply Z.lt_succ_r. unfold Z.succ. apply lt_IZR. rewrite plus_IZR.
      assert (1 <= z_depth k / step_of k).
      { apply div_ge_1; lra. }
      lra. }
    assert (HI : INR (Z.to_nat n) = IZR n) by (rewrite INR_IZR_INZ, Z2Nat.id; [reflexivity|lia]).
    exists (Z.to_nat n). intros fuel Hf.
    rewrite (depths_neg c (step_of k) (z_depth k) Hs (Z.to_nat n) fuel).
    - f_equal. apply map_ext. intros i. rewrite S_INR. ring.
    - rewrite HI. nra.
    - intros _. rewrite HI. nra.
    - exact Hf.
  Qed.

  Lemma passes_nth zd step i d : step < 0 -> nth_error (passes zd step) i = Some d ->
    zd <= d /\ (d = zd \/ d = INR (S i) * step).
  Proof.
    intros Hs. unfold passes. destruct (Rlt_dec 0 zd); [destruct i as [|[|i]]; cbn; intros [= <-]; (split; [apply Rle_refl|left; reflexivity])|].
    destruct (Rlt_dec step zd); [destruct i as [|[|i]]; cbn; intros [= <-]; (split; [apply Rle_refl|left; reflexivity])|].
    intros H. pose proof H as H'. rewrite nth_error_map in H.
    destruct (nth_error (seq 0 _) i) as [j|] eqn:Ej; [|discriminate]. injection H as <-.
    assert (Hi : (i < length (seq 0 (Z.to_nat (Zfloor (zd / step)))))%nat) by (apply nth_error_Some; congruence).
    rewrite seq_length in Hi.
    apply (nth_error_nth _ _ 0%nat) in Ej. rewrite seq_nth in Ej by exact Hi. cbn in Ej. subst j.
    split; [|right; reflexivity].
    pose proof (Zfloor_spec (zd / step)) as [F1 F2].
    assert (H0 : INR (S i) <= zd / step).
    { apply Rle_trans with (IZR (Zfloor (zd / step))); [|exact F1].
      rewrite INR_IZR_INZ. apply IZR_le. lia. }
    assert (Q1 : zd = zd / step * step) by (apply div_mul_self; lra).
    rewrite Q1 at 1. apply Rmult_le_compat_neg_l with (r := step) in H0; [|lra].
    rewrite (Rmult_comm (zd / step)), (Rmult_comm (INR (S i))). exact H0.
  Qed.
  Lemma passes_nonempty zd step : step < 0 -> passes zd step <> [].
  Proof.
    intros Hs. unfold passes. destruct (Rlt_dec 0 zd); [discriminate|]. destruct (Rlt_dec step zd); [discriminate|].
    assert (H : (0 < Z.to_nat (Zfloor (zd / step)))%nat).
    { assert (1 <= zd / step).
      { apply div_ge_1; lra. }
      pose proof (Zfloor_spec (zd / step)) as [_ F]. assert (0 < Zfloor (zd / step))%Z by (apply lt_IZR; lra). lia. }
    destruct (Z.to_nat _); [lia|discriminate].
  Qed.
  (** Where the last pass ends. *)
  Lemma passes_last zd step : step < 0 ->
    let z := last (passes zd step) 0 in
    zd <= z /\ (z = zd \/ z + step < zd) /\ (z = zd <-> 0 < zd \/ step < zd \/ exists n : Z, zd = IZR n * step).
  Proof.
    intros Hs. unfold passes.
    destruct (Rlt_dec 0 zd) as [P|P]; [cbn; repeat split; auto; lra|].
    destruct (Rlt_dec step zd) as [Q|Q]; [cbn; repeat split; auto; lra|].
    set (n := Zfloor (zd / step)).
    pose proof (Zfloor_spec (zd / step)) as [F1 F2]. fold n in F1, F2.
    assert (Q1 : zd = zd / step * step) by (apply div_mul_self; lra).
    assert (1 <= zd / step).
    { apply div_ge_1; lra. }
    assert (Hn : (0 < n)%Z) by (apply lt_IZR; lra).
    assert (HI : INR (Z.to_nat n) = IZR n) by (rewrite INR_IZR_INZ, Z2Nat.id; [reflexivity|lia]).
    assert (L : last (map (fun i => INR (S i) * step) (seq 0 (Z.to_nat n))) 0 = IZR n * step).
    { rewrite <- HI. destruct (Z.to_nat n) as [|m] eqn:Em; [lia|]. rewrite seq_S, map_app. cbn [map]. rewrite last_last. reflexivity. }
    cbn zeta. rewrite L. repeat split.
    - nra.
    - right. nra.
    - intros Ez. right. right. exists n. auto.
    - intros [H1|[H1|[m Hm]]]; [lra|lra|]. rewrite Hm.
      assert (IZR n <= IZR m).
      { assert (zd / step = IZR m) by (rewrite Hm; apply mul_div_self; lra). lra. }
      assert (IZR m < IZR (n + 1)).
      { rewrite plus_IZR. assert (zd / step = IZR m) by (rewrite Hm; apply mul_div_self; lra). lra. }
      apply lt_IZR in H1. apply le_IZR in H0. assert (m = n) as -> by lia. reflexivity.
  Qed.

  (** ** The tool angle *)
  Lemma calc_rotation_congr (a b : R) :
    exists r, r = calc_rotation a b /\ Rabs r <= PI /\
      (exists k : Z, Rabs (a + r - (b + 2 * PI * IZR k)) < EPS \/ a + r = b + 2 * PI * IZR k).
  Proof.
    eexists. split; [reflexivity|]. destruct (Rlt_le_dec (Rabs (a - b)) EPS) as [L|L].
    - rewrite calc_rotation_near by auto. split; [rewrite Rabs_R0; pose proof PI_RGT_0; lra|].
      exists 0%Z. left. replace (a + 0 - (b + 2 * PI * 0)) with (a - b) by ring. exact L.
    - destruct (calc_rotation_far a b L) as [[k Hk] B]. split; [apply Rabs_le; exact B|].
      exists k. right. rewrite Hk. rnum. ring.
  Qed.
End R.

(** ** Fuel *)
Section Fuel.
  Context {N : NumOps} {E : Epsilon N}.
  Notation path := (list (cseg N)).
  Lemma loop_fuel (c : config N) k rapid text (l : list path) step zd : forall f f' ds, (f <= f')%nat ->
    forall pass d, depths f c step zd d = Some ds ->
    forall st, depth_loop f' c k rapid text l step zd pass d st = depth_loop f c k rapid text l step zd pass d st.
  Proof.
    induction f as [|f IH]; intros f' ds Hf pass d; cbn [depths].
    - destruct (Num.leb zd d) eqn:Ez; [discriminate|]. intros _ st. destruct f'; cbn [depth_loop]; rewrite Ez; reflexivity.
    - destruct f' as [|f']; [lia|]. cbn [depth_loop]. destruct (Num.leb zd d) eqn:Ez; [|reflexivity].
      destruct (depths f c step zd (next_depth c step zd d)) as [ds'|] eqn:D; [|discriminate]. intros _ st.
      unfold cseq, cbind. destruct (one_pass _ _ _ _ _ _ _ _ st) as [s1 [[]|e]]; [|reflexivity].
      apply (IH f' ds'); [lia|exact D].
  Qed.
  Lemma job_fuel c k pre rapid today text ct (l : list path) ds f f' : (f <= f')%nat ->
    depths f c (eff_step k) (z_depth k) (first_depth k) = Some ds ->
    forall st, generate_gcode f' c k pre rapid today text ct l st = generate_gcode f c k pre rapid today text ct l st.
  Proof.
    intros Hf D st. unfold generate_gcode, cbind, lift.
    destruct (match path_sort_method k with Some _ => _ | None => _ end) as [l1|e]; [|reflexivity].
    destruct (pre l1) as [l2|e]; [|reflexivity].
    assert (X : forall m m1 m2 : @CM N unit, (forall s, m1 s = m2 s) -> forall s, cseq m m1 s = cseq m m2 s)
      by (intros m m1 m2 H s; unfold cseq, cbind; destruct (m s) as [? [[]|]]; auto).
    apply X. clear st. intros st. apply X. clear st. intros st. unfold cseq at 1 4, cbind.
    rewrite (loop_fuel _ k (rapid (job_config c (Datatypes.length l2) ct)) text l2 _ _ f f' ds Hf 1 (first_depth k)); [reflexivity|].
    now rewrite job_config_depths.
  Qed.
  Lemma job_never c k pre rapid today text ct (l : list path) fuel :
    (forall n, depths fuel (job_config c n ct) (eff_step k) (z_depth k) (first_depth k) = None) ->
    forall st, snd (generate_gcode fuel c k pre rapid today text ct l st) <> Ok tt.
  Proof.
    intros D st. unfold generate_gcode, cbind, lift.
    destruct (match path_sort_method k with Some _ => _ | None => _ end) as [l1|e]; [|discriminate].
    destruct (pre l1) as [l2|e]; [|discriminate].
    unfold cseq at 1, cbind. destruct (call _ _ st) as [s1 [[]|e]]; [|discriminate].
    unfold cseq at 1, cbind. destruct (call _ _ s1) as [s2 [[]|e]]; [|discriminate].
    unfold cseq at 1, cbind.
    pose proof (depths_none_loop (job_config c (Datatypes.length l2) ct) k (rapid (job_config c (Datatypes.length l2) ct)) text l2
      (eff_step k) (z_depth k) fuel 1 (first_depth k) s2 (D _)) as H.
    destruct (depth_loop _ _ _ _ _ _ _ _ _ _ s2) as [s3 [[]|e]]; cbn in *; [contradiction|discriminate].
  Qed.
End Fuel.
