(** * PropsLines2: where the grid lines are (C143), that their generation ends (C146), and the connected grid (C145), over R. *)
From Verif Require Import Num NumR Geom GeomR GeomSpec GeomProofs GeomProofs2 GeomProofs3 GeomProofs5 Lines PropsLines PropsGeom.
From Coq Require Import ZArith Reals Lra Lia List Bool.
Import ListNotations.
Local Open Scope R_scope.

(** ** C145: with connectors the lines form one path *)
Section Connect.
  Context {E : Epsilon ROps}.
  Lemma peq_self (p : Pt) : 0 < EPS -> peq p p = true.
  Proof. intros He. apply (peq_true He). rewrite (proj2 (euclid_zero p p) eq_refl). exact He. Qed.
  Theorem C145_one_path (lines : list (line ROps)) : 0 < EPS -> lines <> [] ->
    chain (insert_connectors lines) /\ connected_paths (insert_connectors lines) = [insert_connectors lines].
  Proof.
    intros He Ne.
    assert (H : forall ls out, connected ls out -> chain out /\ (forall l r, ls = l :: r -> exists o, out = l :: o)).
    { induction 1; [split; [exact Logic.I|discriminate]|split; [exact Logic.I|intros ? ? Q; injection Q as <- <-; eauto]| |].
      - destruct IHconnected as [C F]. destruct (F _ _ eq_refl) as (o & ->). split; [split; auto|intros ? ? Q; injection Q as <- <-; eauto].
      - destruct IHconnected as [C F]. destruct (F _ _ eq_refl) as (o & ->). split; [|intros ? ? Q; injection Q as <- <-; eauto].
        split; [apply peq_self; auto|split; [apply peq_self; auto|exact C]]. }
    destruct (H _ _ (C145_connectors lines)) as [C F]. split; [exact C|].
    destruct lines as [|l r]; [congruence|]. destruct (F l r eq_refl) as (o & Q). rewrite Q in *.
    unfold connected_paths.
    assert (G : forall o l pre, chain (l :: o) -> paths_loop (pre ++ [l]) l o = [pre ++ l :: o]).
    { clear. induction o as [|m o IH]; intros l pre C; cbn [paths_loop]; [reflexivity|].
      destruct C as [J C]. rewrite J. rewrite (IH m (pre ++ [l]) C), <- app_assoc. reflexivity. }
    exact (G o l [] C).
  Qed.
End Connect.

(** ** C143, C146 *)
Lemma normalize_id (a : R) : - PI <= a < PI -> @normalize_angle ROps a 0 = a.
Proof.
  intros H. unfold normalize_angle, TAU. rnum. pose proof PI_RGT_0.
  rewrite (Zfloor_unique _ 0); [toR; ring|]. split.
  - apply Rmult_le_reg_r with (PI * 2); [lra|]. unfold Rdiv. rewrite Rmult_assoc, Rinv_l by lra. cbn. lra.
  - apply Rmult_lt_reg_r with (PI * 2); [lra|]. unfold Rdiv. rewrite Rmult_assoc, Rinv_l by lra. cbn. lra.
Qed.
Lemma line_angle_id (a : R) : - (PI / 2) <= a <= PI / 2 -> @line_angle ROps a = a.
Proof.
  intros H. pose proof PI_RGT_0. unfold line_angle. rewrite normalize_id by lra. rnum.
  replace (Rltb (PI / 2) a) with false by (symmetry; apply Rltb_false; lra).
  replace (Rltb a (- (PI / 2))) with false by (symmetry; apply Rltb_false; lra). reflexivity.
Qed.
Lemma is_vertical_true (a : R) : PI / 4 < a <= PI / 2 -> @is_vertical ROps a = true.
Proof.
  intros H. pose proof PI_RGT_0. unfold is_vertical. rnum. apply andb_true_iff. split; apply Rltb_true; cbn; lra.
Qed.
Lemma is_vertical_false (a : R) : - (PI / 2) <= a <= PI / 4 -> @is_vertical ROps a = false.
Proof.
  intros H. pose proof PI_RGT_0. unfold is_vertical. rnum. apply andb_false_iff. left. apply Rltb_false; cbn; lra.
Qed.
Lemma is_zero_true {E : Epsilon ROps} (x : R) : Rabs x < EPS -> @is_zero ROps E x = true.
Proof. intros H. unfold is_zero. rnum. apply Rabs_def2 in H. apply andb_true_iff. split; apply Rltb_true; lra. Qed.
Lemma is_zero_false {E : Epsilon ROps} (x : R) : EPS <= Rabs x -> @is_zero ROps E x = false.
Proof.
  intros H. unfold is_zero. rnum. apply not_true_is_false. intros Q. apply andb_true_iff in Q as [A B]. apply Rltb_true in A, B.
  assert (Rabs x < EPS) by (apply Rabs_def1; lra). lra.
Qed.

Section Grid.
  Context {E : Epsilon ROps}.
  Hypothesis He : 0 < EPS.

  (** The step between two lines *)
  Lemma scaled_spacing_ok (l : lineset ROps) (axis offset extent : R) : varspace_cycles l <> 0 -> extent <> 0 ->
    exists k, scaled_spacing l axis offset extent = Ok (Rmin (Rmax (axis * k) (spacing_min (varspace_min l))) (spacing_max (varspace_max l) axis)) /\
      (spacing_formula l = FNone -> k = if varspace_invert l then 0 else 1) /\
      (spacing_formula l = FLinear \/ spacing_formula l = FSine -> 0 <= k <= 1).
  Proof.
    intros C X. unfold scaled_spacing, pydiv. rnum.
    destruct (Reqb _ 0) eqn:Z; [apply Reqb_true in Z; congruence|]. cbn [rbind].
    destruct (Reqb (extent / varspace_cycles l) 0) eqn:Z2.
    { apply Reqb_true in Z2. exfalso. apply X. apply Rmult_eq_reg_r with (/ varspace_cycles l); [|now apply Rinv_neq_0_compat]. rewrite Rmult_0_l. exact Z2. }
    apply Reqb_false in Z2. cbn [rbind]. rewrite pymin_R, pymax_R. eexists. split; [reflexivity|]. split.
    - intros ->. destruct (varspace_invert l); cbn; ring.
    - set (I := extent / varspace_cycles l) in *.
      assert (B : 0 <= @pymod ROps offset I / I <= 1).
      { unfold pymod. rnum. pose proof (Zfloor_spec (offset / I)) as [A B]. replace ((offset - I * IZR (Zfloor (offset / I))) / I) with (offset / I - IZR (Zfloor (offset / I))) by (toR; field; auto). clear - A B. cbn in A, B. cbn. lra. }
      set (t := @pymod ROps offset I / I) in *. clearbody t.
      intros [-> | ->]; rnum; [destruct (varspace_invert l); rnum; lra|].
      match goal with |- context[Rabs ?s] => pose proof (Rabs_pos s) as A1; assert (A2 : Rabs s <= 1) by (apply Rabs_le; apply SIN_bound) end.
      destruct (varspace_invert l); rnum; lra.
  Qed.

  (** The offsets of the lines: from 0 in steps given by [step], below [extent]. *)
  Inductive offsets (extent : R) (step : R -> R) : R -> list R -> Prop :=
  | off_end o : extent <= o -> offsets extent step o []
  | off_step o r : o < extent -> offsets extent step (o + step o) r -> offsets extent step o (o :: r).
  Lemma offsets_exist (extent m : R) (step : R -> R) : 0 < m -> (forall o, 0 <= o < extent -> m <= step o) ->
    forall (n : nat) o, 0 <= o -> extent - o <= INR n * m -> exists l, offsets extent step o l /\ (length l <= n)%nat.
  Proof.
    intros Hm Hs. induction n as [|n IH]; intros o Ho Hn.
    - exists []. split; [constructor; cbn in Hn; lra|auto].
    - destruct (Rlt_le_dec o extent) as [L|L]; [|exists []; split; [now constructor|cbn; lia]].
      assert (Q := Hs o (conj Ho L)). destruct (IH (o + step o)) as (l & A & B); [lra| |exists (o :: l); split; [now constructor|cbn; lia]].
      rewrite S_INR in Hn. lra.
  Qed.
  (** Between the first offset and the extent every value is at or above an offset, and within one step of it. *)
  Lemma offsets_cover (extent M : R) (step : R -> R) o l : offsets extent step o l -> (forall o, 0 <= o < extent -> 0 <= step o <= M) -> 0 <= o ->
    forall u, o <= u < extent -> exists x, In x l /\ x <= u < x + M \/ (In x l /\ x = u).
  Proof.
    induction 1 as [o X|o r X H IH]; intros Hs Ho u Hu; [lra|]. destruct (Hs o (conj Ho X)) as [S1 S2].
    destruct (Rlt_le_dec u (o + step o)) as [L|L].
    - destruct (Req_dec u o) as [-> |D]; [exists o; right; split; [now left|reflexivity]|]. exists o. left. split; [now left|lra].
    - destruct (IH Hs ltac:(lra) u ltac:(lra)) as (x & [[I J]|[I J]]); exists x; [left|right]; split; auto; now right.
  Qed.

  (** What the loop draws: for every offset the start line, shifted, clipped, and only if something is left. *)
  Definition shifted (a : R) (start : Line_) (o : R) : Line_ := ladd start (if @is_vertical ROps a then P o 0 else P 0 o).
  Definition kept (b : Box_) (s : Line_) : list Line_ :=
    match clip_line b s with Some m => if is_zero (llen m) then [] else [m] | None => [] end.
  Lemma lines_loop_spec (l : lineset ROps) (a axis extent : R) (start : Line_) (step : R -> R) :
    spacing_jitter l = 0 -> angle_jitter l = 0 ->
    (forall o, 0 <= o < extent -> scaled_spacing l axis o extent = Ok (step o) /\ 0 <= step o) ->
    forall o os, offsets extent step o os -> 0 <= o -> forall fuel k, (length os <= fuel)%nat ->
    lines_loop fuel k l a axis extent start o 0 = Ok (flat_map (fun o => kept (cliprect l) (shifted a start o)) os).
  Proof.
    intros J1 J2 Hs. induction 1 as [o X|o r X H IH]; intros Ho fuel k F.
    - destruct fuel; cbn [lines_loop]; rnum; rewrite (proj2 (Rltb_false o extent)) by lra; reflexivity.
    - destruct fuel as [|fuel]; [cbn in F; lia|]. cbn [lines_loop]. rnum. rewrite (proj2 (Rltb_true o extent)) by lra. cbn [negb].
      destruct (Hs o (conj Ho X)) as [Q S0]. rewrite Q. cbn [rbind].
      rewrite J1. rewrite (proj2 (Rltb_false 0 0)) by lra. rewrite IH by (cbn in F; try lra; lia). cbn [rbind].
      f_equal. cbn [flat_map]. unfold kept, angle_jittered. rewrite J2, is_zero_true by (rewrite Rabs_R0; exact He).
      replace (if @is_vertical ROps a then P (o + 0) 0 else P 0 (o + 0)) with (if @is_vertical ROps a then P o 0 else P 0 o : Pt)
        by (destruct (@is_vertical ROps a); f_equal; ring).
      change (ladd start _) with (shifted a start o).
      destruct (clip_line _ _) as [m|]; [destruct (is_zero _)|]; reflexivity.
  Qed.

  (** *** Termination *)
  Lemma step_bounds (x vm vM : R) : Rmin vm vM <= Rmin (Rmax x vm) vM <= vM.
  Proof. unfold Rmin, Rmax. repeat destruct (Rle_dec _ _); lra. Qed.
  Lemma lines_loop_total (l : lineset ROps) (a axis extent : R) (start : Line_) (m : R) :
    varspace_cycles l <> 0 -> 0 < m -> m <= spacing_min (varspace_min l) -> m <= spacing_max (varspace_max l) axis ->
    forall n o j k fuel, 0 <= o -> extent - o <= INR n * m -> (n <= fuel)%nat -> exists r, lines_loop fuel k l a axis extent start o j = Ok r.
  Proof.
    intros C Hm M1 M2. induction n as [|n IH]; intros o j k fuel Ho Hn F.
    - exists []. cbn in Hn. destruct fuel; cbn [lines_loop]; rnum; rewrite (proj2 (Rltb_false o extent)) by lra; reflexivity.
    - destruct fuel as [|fuel]; [lia|]. cbn [lines_loop]. rnum. destruct (Rltb o extent) eqn:X; cbn [negb]; [|eauto].
      apply Rltb_true in X. destruct (scaled_spacing_ok l axis o extent C ltac:(lra)) as (q & Q & _). rewrite Q. cbn [rbind].
      destruct (step_bounds (axis * q) (spacing_min (varspace_min l)) (spacing_max (varspace_max l) axis)) as [B _].
      assert (B' : m <= Rmin (spacing_min (varspace_min l)) (spacing_max (varspace_max l) axis)) by (apply Rmin_glb; auto).
      match goal with |- context[lines_loop fuel (S k) l a axis extent start ?o' ?j'] =>
        destruct (IH o' j' (S k) fuel) as (r & ->); [rnum; lra|rewrite S_INR in Hn; rnum; lra|lia|] end.
      cbn [rbind]. eauto.
  Qed.
  Lemma enough (x m : R) : 0 < m -> exists n, x <= INR n * m.
  Proof.
    intros Hm. exists (Z.to_nat (up (x / m))). destruct (archimed (x / m)) as [A _].
    destruct (Rle_lt_dec x 0) as [L|L]; [pose proof (pos_INR (Z.to_nat (up (x / m)))); nra|].
    assert (0 < x / m) by (apply Rdiv_lt_0_compat; auto).
    assert (P : (0 <= up (x / m))%Z) by (apply le_IZR; lra). rewrite INR_IZR_INZ, Z2Nat.id by auto.
    replace x with (x / m * m) at 1 by (field; lra). apply Rmult_le_compat_r; lra.
  Qed.

  (** *** Axis-parallel lines *)
  Lemma clip_h (x0 y0 x1 y1 y : R) : EPS <= x1 - x0 -> y0 <= y <= y1 ->
    clip_line (Bx (P x0 y0) (P x1 y1)) (Ln (P x0 y) (P x1 y)) = Some (Ln (P x0 y) (P x1 y)).
  Proof.
    intros W Y. unfold clip_line, line_inside, point_inside, xmin, xmax, ymin, ymax. cbn [p1 p2 b1 b2 px py]. rnum.
    rewrite (proj2 (Rltb_false x0 x0)) by lra. cbn [andb]. unfold clipT. rnum. cbn [fst snd].
    rewrite is_zero_false by (rewrite Rabs_right; lra).
    replace ((x0 - x0) / (x1 - x0)) with 0 by (field; lra).
    rewrite (proj2 (Rltb_true 0 (x1 - x0))) by lra. rewrite (proj2 (Rltb_false 1 0)), (proj2 (Rltb_false 0 0)) by lra. cbn [obind fst snd].
    rewrite is_zero_false by (rewrite Rabs_Ropp, Rabs_right; lra).
    replace ((x0 - x1) / - (x1 - x0)) with 1 by (field; lra).
    rewrite (proj2 (Rltb_false 0 (- (x1 - x0)))) by lra. rewrite (proj2 (Rltb_false 1 0)), (proj2 (Rltb_false 1 1)) by lra. cbn [obind fst snd].
    rewrite is_zero_true by (rewrite Rminus_diag_eq, Rabs_R0 by auto; exact He).
    rewrite (proj2 (Rleb_true (y0 - y) 0)) by lra. cbn [obind].
    rewrite is_zero_true by (rewrite Rminus_diag_eq, Ropp_0, Rabs_R0 by auto; exact He).
    rewrite (proj2 (Rleb_true (y - y1) 0)) by lra. cbn [obind fst snd].
    rewrite (proj2 (Rltb_false 1 1)), (proj2 (Rltb_false 0 0)) by lra. reflexivity.
  Qed.
  Lemma clip_v (x0 y0 x1 y1 x : R) : EPS <= y1 - y0 -> x0 <= x <= x1 ->
    clip_line (Bx (P x0 y0) (P x1 y1)) (Ln (P x y0) (P x y1)) = Some (Ln (P x y0) (P x y1)).
  Proof.
    intros W Y. unfold clip_line, line_inside, point_inside, xmin, xmax, ymin, ymax. cbn [p1 p2 b1 b2 px py]. rnum.
    rewrite (proj2 (Rltb_false y0 y0)) by lra. rewrite !andb_false_r. cbn [andb]. unfold clipT. rnum. cbn [fst snd].
    rewrite is_zero_true by (rewrite Rminus_diag_eq, Rabs_R0 by auto; exact He).
    rewrite (proj2 (Rleb_true (x0 - x) 0)) by lra. cbn [obind].
    rewrite is_zero_true by (rewrite Rminus_diag_eq, Ropp_0, Rabs_R0 by auto; exact He).
    rewrite (proj2 (Rleb_true (x - x1) 0)) by lra. cbn [obind fst snd].
    rewrite is_zero_false by (rewrite Rabs_right; lra).
    replace ((y0 - y0) / (y1 - y0)) with 0 by (field; lra).
    rewrite (proj2 (Rltb_true 0 (y1 - y0))) by lra. rewrite (proj2 (Rltb_false 1 0)), (proj2 (Rltb_false 0 0)) by lra. cbn [obind fst snd].
    rewrite is_zero_false by (rewrite Rabs_Ropp, Rabs_right; lra).
    replace ((y0 - y1) / - (y1 - y0)) with 1 by (field; lra).
    rewrite (proj2 (Rltb_false 0 (- (y1 - y0)))) by lra. rewrite (proj2 (Rltb_false 1 0)), (proj2 (Rltb_false 1 1)) by lra. cbn [obind fst snd].
    rewrite (proj2 (Rltb_false 1 1)), (proj2 (Rltb_false 0 0)) by lra. reflexivity.
  Qed.
  Lemma const_offsets (extent s : R) : 0 < s -> exists n, (forall k, (k < n)%nat <-> INR k * s < extent) /\
    offsets extent (fun _ => s) 0 (map (fun k => INR k * s) (seq 0 n)).
  Proof.
    intros Hs. destruct (enough extent s Hs) as [N HN].
    assert (G : forall d k, extent <= INR (k + d) * s -> exists n, (forall i, (k <= i)%nat -> (i < k + n)%nat <-> INR i * s < extent) /\
       offsets extent (fun _ => s) (INR k * s) (map (fun k => INR k * s) (seq k n))).
    { induction d as [|d IH]; intros k Hk.
      - exists 0%nat. split; [|constructor; now rewrite Nat.add_0_r in Hk]. intros i Hi. split; [lia|]. intros L. exfalso.
        rewrite Nat.add_0_r in Hk. apply le_INR in Hi. nra.
      - destruct (Rlt_le_dec (INR k * s) extent) as [L|L].
        + destruct (IH (S k)) as (n & A & B); [replace (S k + d)%nat with (k + S d)%nat by lia; exact Hk|]. exists (S n). split.
          * intros i Hi. destruct (Nat.eq_dec i k) as [-> |D]; [split; [auto|lia]|]. rewrite <- A by lia. lia.
          * cbn [seq map]. constructor; auto. rewrite S_INR in B. replace (INR k * s + s) with ((INR k + 1) * s) by ring. exact B.
        + exists 0%nat. split; [|now constructor]. intros i Hi. split; [lia|]. intros Q. exfalso. apply le_INR in Hi. nra. }
    destruct (G N 0%nat HN) as (n & A & B). exists n. split; [intros k; apply (A k); lia|].
    replace (INR 0 * s) with 0 in B by (cbn; ring). exact B.
  Qed.
End Grid.

Section Theorems.
  Context {E : Epsilon ROps}.
  Hypothesis He : 0 < EPS.
  Variables (ad sd : nat -> R).

  (** A line set without jitter, with even spacing: [invert] is the option varspacing_invert, which has no meaning without a
      formula. *)
  Definition plain (b : Box_) (s a cycles : R) (invert : bool) : lineset ROps := LS b s a 0 0 FNone 0 0 cycles invert ad sd.

  Lemma plain_step (b : Box_) (s a cycles : R) (inv : bool) (axis o extent : R) : cycles <> 0 -> extent <> 0 ->
    scaled_spacing (plain b s a cycles inv) axis o extent = Ok (if inv then Rmin (1/10) axis else axis).
  Proof.
    intros C X. destruct (scaled_spacing_ok (plain b s a cycles inv) axis o extent C X) as (k & -> & K & _). rewrite (K eq_refl). cbn [varspace_min varspace_max varspace_invert plain].
    unfold spacing_min, spacing_max. rewrite !is_zero_true by (rewrite Rabs_R0; exact He).
    assert (L : @lit ROps 1 (-1) = 1 / 10) by (cbn; lra). f_equal. rewrite L. unfold Rmin, Rmax. destruct inv; repeat destruct (Rle_dec _ _); lra.
  Qed.

  Lemma plain_h_gen (x0 y0 x1 y1 s cycles : R) (inv : bool) : EPS <= x1 - x0 -> 0 < s -> cycles <> 0 ->
    let st := if inv then Rmin (1/10) s else s in
    exists n, (forall k, (k < n)%nat <-> INR k * st < y1 - y0) /\
      forall fuel, (n <= fuel)%nat ->
        make_lines fuel (plain (Bx (P x0 y0) (P x1 y1)) s 0 cycles inv) =
        Ok (map (fun k => Ln (P x0 (y0 + INR k * st)) (P x1 (y0 + INR k * st))) (seq 0 n)).
  Proof.
    intros W S0 C st. assert (St : 0 < st) by (unfold st; destruct inv; [apply Rmin_pos; lra|auto]).
    destruct (const_offsets (y1 - y0) st St) as (n & A & B). exists n. split; [exact A|]. intros fuel F.
    pose proof PI_RGT_0. unfold make_lines. cbn [ls_angle plain ls_spacing cliprect spacing_jitter].
    rewrite line_angle_id by lra. unfold axis_spacing. rewrite is_zero_true by (rewrite Rabs_R0; exact He). cbn [rbind].
    unfold start_line. rewrite is_vertical_false by lra. unfold bwidth, bheight, xmin, xmax, ymin, ymax. cbn [b1 b2 px py]. rnum.
    rewrite (proj2 (Rltb_false 0 0)) by lra. rewrite sin_0, Rmult_0_l, Rabs_R0, Rplus_0_r, Rminus_0_r.
    rewrite (lines_loop_spec He _ 0 s (y1 - y0) _ (fun _ => st)) with (os := map (fun k => INR k * st) (seq 0 n)); auto; try lra.
    - f_equal. cbn [plain cliprect].
      assert (G : forall k, In k (seq 0 n) -> kept (Bx (P x0 y0) (P x1 y1)) (shifted 0 (Ln (P x0 y0) (P x1 y0)) (INR k * st)) = [Ln (P x0 (y0 + INR k * st)) (P x1 (y0 + INR k * st))]).
      { intros k Hk. apply in_seq in Hk. assert (K : INR k * st < y1 - y0) by (apply A; lia). pose proof (pos_INR k).
        assert (0 <= INR k * st) by (apply Rmult_le_pos; lra).
        unfold kept, shifted, ladd, padd. rewrite is_vertical_false by lra. cbn [p1 p2 px py]. rnum. rewrite !Rplus_0_r.
        rewrite (clip_h He) by lra. rewrite is_zero_false; [reflexivity|]. unfold llen, vec, plen, psub. cbn [p1 p2 px py]. rnum. unfold Rhypot.
        match goal with |- EPS <= Rabs (R_sqrt.sqrt ?e) => replace e with (Rsqr (x1 - x0)) by (unfold Rsqr; ring) end.
        rewrite sqrt_Rsqr by lra. rewrite Rabs_right; lra. }
      clear - G. revert G. generalize (seq 0 n) as l. induction l as [|k l IH]; intros G; cbn [map flat_map]; auto. rewrite G by now left.
      cbn [app]. f_equal. apply IH. intros; apply G; now right.
    - intros o Ho. split; [|lra]. exact (plain_step (Bx (P x0 y0) (P x1 y1)) s 0 cycles inv s o (y1 - y0) C ltac:(lra)).
    - now rewrite map_length, seq_length.
  Qed.
  (** Horizontal lines: from the lower edge of the rectangle on, one every [s], across the whole rectangle. *)
  Theorem C143_horizontal (x0 y0 x1 y1 s cycles : R) : EPS <= x1 - x0 -> 0 < s -> cycles <> 0 ->
    exists n, (forall k, (k < n)%nat <-> INR k * s < y1 - y0) /\
      forall fuel, (n <= fuel)%nat ->
        make_lines fuel (plain (Bx (P x0 y0) (P x1 y1)) s 0 cycles false) =
        Ok (map (fun k => Ln (P x0 (y0 + INR k * s)) (P x1 (y0 + INR k * s))) (seq 0 n)).
  Proof. exact (plain_h_gen x0 y0 x1 y1 s cycles false). Qed.
  Lemma plain_v_gen (x0 y0 x1 y1 s cycles : R) (inv : bool) : EPS <= 1 -> EPS <= y1 - y0 -> 0 < s -> cycles <> 0 ->
    let st := if inv then Rmin (1/10) s else s in
    exists n, (forall k, (k < n)%nat <-> INR k * st < x1 - x0) /\
      forall fuel, (n <= fuel)%nat ->
        make_lines fuel (quarter (plain (Bx (P x0 y0) (P x1 y1)) s 0 cycles inv)) =
        Ok (map (fun k => Ln (P (x0 + INR k * st) y0) (P (x0 + INR k * st) y1)) (seq 0 n)).
  Proof.
    intros E1 W S0 C st. assert (St : 0 < st) by (unfold st; destruct inv; [apply Rmin_pos; lra|auto]).
    destruct (const_offsets (x1 - x0) st St) as (n & A & B). exists n. split; [exact A|]. intros fuel F.
    pose proof PI_RGT_0. pose proof PI2_1. unfold make_lines. cbn [quarter ls_angle plain ls_spacing cliprect spacing_jitter].
    rnum. rewrite Rplus_0_l. change (IZR 2) with 2.
    rewrite line_angle_id by lra. unfold axis_spacing.
    { rewrite is_zero_false by (rewrite Rabs_right; lra). rewrite is_vertical_true by lra. unfold pydiv. rnum. rewrite sin_PI2.
      rewrite (proj2 (Reqb_false 1 0)) by lra. cbn [rbind]. replace (s / 1) with s by field.
      unfold start_line. rewrite is_vertical_true by lra. unfold bwidth, bheight, xmin, xmax, ymin, ymax. cbn [b1 b2 px py]. rnum.
      rewrite (proj2 (Rltb_false 0 0)), (proj2 (Rltb_false (PI / 2) 0)) by lra. rewrite cos_PI2, Rmult_0_l, Rabs_R0, Rplus_0_r, Rminus_0_r.
      rewrite (lines_loop_spec He _ (PI / 2) s (x1 - x0) _ (fun _ => st)) with (os := map (fun k => INR k * st) (seq 0 n)); auto; try lra.
      + f_equal. cbn [plain cliprect].
        assert (G : forall k, In k (seq 0 n) -> kept (Bx (P x0 y0) (P x1 y1)) (shifted (PI / 2) (Ln (P x0 y0) (P x0 y1)) (INR k * st)) = [Ln (P (x0 + INR k * st) y0) (P (x0 + INR k * st) y1)]).
        { intros k Hk. apply in_seq in Hk. assert (K : INR k * st < x1 - x0) by (apply A; lia). pose proof (pos_INR k).
          assert (0 <= INR k * st) by (apply Rmult_le_pos; lra).
          unfold kept, shifted, ladd, padd. rewrite is_vertical_true by lra. cbn [p1 p2 px py]. rnum. rewrite !Rplus_0_r.
          rewrite (clip_v He) by lra. rewrite is_zero_false; [reflexivity|]. unfold llen, vec, plen, psub. cbn [p1 p2 px py]. rnum. unfold Rhypot.
          match goal with |- EPS <= Rabs (R_sqrt.sqrt ?e) => replace e with (Rsqr (y1 - y0)) by (unfold Rsqr; ring) end.
          rewrite sqrt_Rsqr by lra. rewrite Rabs_right; lra. }
        clear - G. revert G. generalize (seq 0 n) as l. induction l as [|k l IH]; intros G; cbn [map flat_map]; auto. rewrite G by now left.
        cbn [app]. f_equal. apply IH. intros; apply G; now right.
      + intros o Ho. split; [|lra]. exact (plain_step (Bx (P x0 y0) (P x1 y1)) s (PI / 2) cycles inv s o (x1 - x0) C ltac:(lra)).
      + now rewrite map_length, seq_length. }
  Qed.

  (** Vertical lines: from the left edge on, one every [s], over the whole height. *)
  Theorem C143_vertical (x0 y0 x1 y1 s cycles : R) : EPS <= 1 -> EPS <= y1 - y0 -> 0 < s -> cycles <> 0 ->
    exists n, (forall k, (k < n)%nat <-> INR k * s < x1 - x0) /\
      forall fuel, (n <= fuel)%nat ->
        make_lines fuel (quarter (plain (Bx (P x0 y0) (P x1 y1)) s 0 cycles false)) =
        Ok (map (fun k => Ln (P (x0 + INR k * s) y0) (P (x0 + INR k * s) y1)) (seq 0 n)).
  Proof. exact (plain_v_gen x0 y0 x1 y1 s cycles false). Qed.
  (** False: with the option varspacing_invert, which is on by default for vertical lines, all lines are 1/10 apart whatever
      larger spacing is asked for. *)
  Theorem C143_inverted_refuted (x0 y0 x1 y1 s cycles : R) : EPS <= 1 -> EPS <= y1 - y0 -> 1 / 10 < s -> cycles <> 0 ->
    exists n, (forall k, (k < n)%nat <-> INR k * (1 / 10) < x1 - x0) /\
      forall fuel, (n <= fuel)%nat ->
        make_lines fuel (quarter (plain (Bx (P x0 y0) (P x1 y1)) s 0 cycles true)) =
        Ok (map (fun k => Ln (P (x0 + INR k * (1 / 10)) y0) (P (x0 + INR k * (1 / 10)) y1)) (seq 0 n)).
  Proof.
    intros E1 W S0 C. pose proof (plain_v_gen x0 y0 x1 y1 s cycles true E1 W ltac:(lra) C) as H. cbn zeta in H.
    rewrite Rmin_left in H by lra. exact H.
  Qed.

  (** Whatever the options, all that is drawn lies in the clipping rectangle (within the tolerance). *)
  Theorem C143_inside (l : lineset ROps) fuel out m : make_lines fuel l = Ok out -> In m out ->
    forall u, 0 <= u <= 1 -> px (b1 (cliprect l)) - EPS <= px (at_param m u) <= px (b2 (cliprect l)) + EPS /\
                             py (b1 (cliprect l)) - EPS <= py (at_param m u) <= py (b2 (cliprect l)) + EPS.
  Proof.
    intros H I. assert (G : exists s, clip_line (cliprect l) s = Some m).
    { revert H. unfold make_lines. destruct (axis_spacing _ _) as [axis|]; [|discriminate]. cbn [rbind].
      destruct (start_line _ _) as [st ex]. set (x := if @Num.ltb ROps _ _ then _ else _). clearbody x. generalize (line_angle (ls_angle l)) as a.
      generalize 0%nat as k. generalize (of_Z (n:=ROps) 0) at 1 as o. generalize (of_Z (n:=ROps) 0) as j. clear ex. revert out I.
      induction fuel as [|fuel IH]; intros out I j o k a H; cbn [lines_loop] in H; destruct (negb _); try discriminate; try (injection H as <-; destruct I).
      destruct (scaled_spacing _ _ _ _) as [sp|]; [|discriminate]. cbn [rbind] in H.
      destruct (lines_loop fuel _ _ _ _ _ _ _ _) as [r|] eqn:L; [|discriminate]. cbn [rbind] in H. injection H as <-.
      destruct (clip_line _ _) as [q|] eqn:Q; [|eapply IH; eauto]. destruct (is_zero _); [eapply IH; eauto|].
      destruct I as [<- |I]; [eauto|eapply IH; eauto]. }
    destruct G as (s & G). destruct (C41_clip _ _ _ He G) as (u0 & u1 & U0 & U1 & U2 & P1 & P2 & K & _).
    intros u Hu. assert (Q : at_param m u = at_param s (u0 + u * (u1 - u0))).
    { unfold at_param in *. rewrite P1, P2. cbn [px py]. apply pt_ext; cbn [px py]; rnum; ring. }
    rewrite Q. apply K. split; nra.
  Qed.

  (** The lines of a set turned by [a] (without jitter) and not closer to the vertical than to the horizontal rise by sin a per unit. *)
  Lemma slope (b : Box_) (s a cycles : R) fuel out m : - (PI / 2) <= a <= PI / 4 -> px (b1 b) <= px (b2 b) ->
    make_lines fuel (plain b s a cycles false) = Ok out -> In m out ->
    py (vec m) = sin a * px (vec m) /\ 0 < px (vec m).
  Proof.
    intros A W H I. pose proof PI_RGT_0.
    assert (G : exists o, In m (kept b (shifted a (fst (start_line b a)) o))).
    { revert H. unfold make_lines. cbn [ls_angle plain]. rewrite line_angle_id by lra. destruct (axis_spacing _ _) as [axis|]; [|discriminate]. cbn [rbind].
      cbn [cliprect]. destruct (start_line _ _) as [st ex]. set (x := if @Num.ltb ROps _ _ then _ else _). clearbody x. cbn [fst].
      generalize 0%nat as k. generalize (of_Z (n:=ROps) 0) at 1 as o. generalize (of_Z (n:=ROps) 0) as j. clear ex. revert out I.
      induction fuel as [|fuel IH]; intros out I j o k H; cbn [lines_loop] in H; destruct (negb _); try discriminate; try (injection H as <-; destruct I).
      destruct (scaled_spacing _ _ _ _) as [sp|]; [|discriminate]. cbn [rbind] in H.
      destruct (lines_loop fuel _ _ _ _ _ _ _ _) as [r|] eqn:L; [|discriminate]. cbn [rbind] in H. match type of H with Ok ?v = Ok _ => assert (H' : v = out) by congruence end. subst out.
      destruct (clip_line _ _) as [q|] eqn:Q; [|eapply IH; eauto]. destruct (is_zero (llen q)) eqn:Z; [eapply IH; eauto|].
      destruct I as [<- |I]; [|eapply IH; eauto]. exists (o + j). unfold angle_jittered in Q. cbn [plain angle_jitter cliprect] in Q.
      rewrite is_zero_true in Q by (rewrite Rabs_R0; exact He). unfold kept.
      assert (Q' : clip_line b (shifted a st (o + j)) = Some q) by exact Q. rewrite Q', Z. now left. }
    destruct G as (o & G). unfold kept in G. destruct (clip_line _ _) as [q|] eqn:Q; [|destruct G]. destruct (is_zero (llen q)) eqn:Z; [destruct G|]. destruct G as [<- |[]].
    destruct (C41_clip _ _ _ He Q) as (u0 & u1 & U0 & U1 & U2 & P1 & P2 & _).
    set (w := px (b2 b) - px (b1 b)).
    assert (V : vec (shifted a (fst (start_line b a)) o) = P w (sin a * w)).
    { unfold shifted, start_line. rewrite is_vertical_false by lra. unfold bwidth, bheight, xmin, xmax, ymin, ymax. cbn [fst]. rnum. fold w.
      assert (Hw : 0 <= w) by (unfold w; lra).
      destruct (Rltb a 0) eqn:Sg; [apply Rltb_true in Sg|apply Rltb_false in Sg]; unfold ladd, vec, padd, psub; cbn [p1 p2 px py]; rnum.
      - assert (sin a <= 0) by (assert (0 <= sin (- a)) by (apply sin_ge_0; lra); rewrite sin_neg in *; lra).
        rewrite Rabs_left1 by nra. apply pt_ext; cbn [px py]; unfold w; rnum; ring.
      - assert (0 <= sin a) by (apply sin_ge_0; lra). rewrite Rabs_right by nra. apply pt_ext; cbn [px py]; unfold w; rnum; ring. }
    assert (VM : vec q = P ((u1 - u0) * w) ((u1 - u0) * (sin a * w))).
    { set (sh := shifted a (fst (start_line b a)) o) in *. clearbody sh. unfold vec, psub in *. rewrite P1, P2. unfold at_param. injection V as V1 V2. apply pt_ext; cbn [px py]; rnum; [rewrite <- V1|rewrite <- V2]; rnum; ring. }
    rewrite VM. cbn [px py]. split; [toR; ring|].
    assert (Zl : llen q <> 0).
    { intros Z0. rewrite Z0 in Z. rewrite is_zero_true in Z by (rewrite Rabs_R0; exact He). discriminate. }
    assert (Hw : 0 <= w) by (unfold w; lra).
    destruct (Req_dec ((u1 - u0) * w) 0) as [D|D]; [|assert (0 <= (u1 - u0) * w) by (apply Rmult_le_pos; lra); lra].
    exfalso. apply Zl. unfold llen. rewrite VM. unfold plen. cbn [px py]. rnum. unfold Rhypot. rewrite D.
    replace ((u1 - u0) * (sin a * w)) with (sin a * ((u1 - u0) * w)) by ring. rewrite D. replace (_ + _) with 0 by ring. apply sqrt_0.
  Qed.
  Theorem C143_slope (b : Box_) (s a cycles : R) fuel out m : - (PI / 2) <= a <= PI / 4 -> px (b1 b) <= px (b2 b) ->
    make_lines fuel (plain b s a cycles false) = Ok out -> In m out ->
    py (vec m) = sin a * px (vec m) /\ 0 < px (vec m).
  Proof. exact (slope b s a cycles fuel out m). Qed.
  (** False: for no other angle than 0 do they have the direction asked for, whose rise is tan a. *)
  Theorem C143_rotated_refuted (b : Box_) (s a cycles : R) fuel out m : - (PI / 2) < a <= PI / 4 -> a <> 0 -> px (b1 b) <= px (b2 b) ->
    make_lines fuel (plain b s a cycles false) = Ok out -> In m out -> cross (vec m) (P (cos a) (sin a)) <> 0.
  Proof.
    intros A Z W H I. destruct (slope b s a cycles fuel out m) as [S1 S2]; auto; [lra|]. unfold cross. rnum. cbn [px py]. rewrite S1.
    pose proof PI_RGT_0.
    assert (Sn : sin a <> 0). { intros Q. destruct (Rlt_le_dec a 0); [assert (0 < sin (- a)) by (apply sin_gt_0; lra); rewrite sin_neg in *; lra|assert (0 < sin a) by (apply sin_gt_0; lra); lra]. }
    assert (Cs : cos a <> 1). { intros Q. apply Sn. pose proof (sin2_cos2 a) as P1. rewrite Q in P1. unfold Rsqr in P1. nra. }
    match goal with |- ?x <> 0 => replace x with (px (vec m) * (sin a * (1 - cos a))) by (toR; ring) end.
    apply Rmult_integral_contrapositive_currified; [lra|]. apply Rmult_integral_contrapositive_currified; lra.
  Qed.

  (** ** C146: the generation of the lines ends *)
  Theorem C146_ends (l : lineset ROps) : varspace_cycles l <> 0 -> 0 < ls_spacing l -> 0 <= varspace_min l -> 0 <= varspace_max l ->
    line_angle (ls_angle l) <> - (PI / 2) ->
    exists n, forall fuel, (n <= fuel)%nat -> exists out, make_lines fuel l = Ok out.
  Proof.
    intros C S0 M1 M2 A. pose proof PI_RGT_0. set (a := line_angle (ls_angle l)) in *.
    assert (Ra : - (PI / 2) <= a <= PI / 2).
    { unfold a, line_angle. pose proof (normalize_range (ls_angle l) 0) as Q. change (@of_Z ROps 0) with 0. set (z := normalize_angle (ls_angle l) 0) in *. clearbody z. rnum.
      destruct (Rltb (PI / 2) z) eqn:Z1; [apply Rltb_true in Z1; lra|]. apply Rltb_false in Z1.
      destruct (Rltb z (- (PI / 2))) eqn:Z2; [apply Rltb_true in Z2; lra|]. apply Rltb_false in Z2. lra. }
    assert (X : exists axis, axis_spacing (ls_spacing l) a = Ok axis /\ 0 < axis).
    { unfold axis_spacing. destruct (is_zero a); [eauto|]. unfold pydiv.
      assert (D : 0 < if @is_vertical ROps a then sin a else cos a).
      { destruct (@is_vertical ROps a) eqn:V; [|apply cos_gt_0; try lra].
        - unfold is_vertical in V. rnum. apply andb_true_iff in V as [V _]. apply Rltb_true in V. cbn in V. apply sin_gt_0; lra.
        - destruct (Rlt_le_dec a (PI / 2)) as [|Q]; auto. exfalso. rewrite is_vertical_true in V by lra. discriminate. }
      rnum. set (d := if @is_vertical ROps a then sin a else cos a) in *. rewrite (proj2 (Reqb_false d 0)) by lra. eexists. split; [reflexivity|]. now apply Rdiv_lt_0_compat. }
    destruct X as (axis & X & Ax). unfold make_lines. fold a. rewrite X. cbn [rbind]. destruct (start_line (cliprect l) a) as [st ex].
    set (ext := if @Num.ltb ROps _ _ then _ else _). clearbody ext.
    assert (Sm : 0 < spacing_min (varspace_min l)).
    { unfold spacing_min. destruct (is_zero (varspace_min l)) eqn:Z; [cbn; lra|]. destruct (Req_dec (varspace_min l) 0) as [Q|Q]; [|lra].
      rewrite Q, is_zero_true in Z by (rewrite Rabs_R0; exact He). discriminate. }
    assert (SM : 0 < spacing_max (varspace_max l) axis).
    { unfold spacing_max. destruct (is_zero (varspace_max l)) eqn:Z; [exact Ax|]. destruct (Req_dec (varspace_max l) 0) as [Q|Q]; [|lra].
      rewrite Q, is_zero_true in Z by (rewrite Rabs_R0; exact He). discriminate. }
    set (m := Rmin (spacing_min (varspace_min l)) (spacing_max (varspace_max l) axis)).
    assert (Hm : 0 < m) by (apply Rmin_pos; auto). destruct (enough ext m Hm) as [n Hn]. exists n. intros fuel F.
    apply (lines_loop_total l a axis ext st m C Hm (Rmin_l _ _) (Rmin_r _ _) n); auto; try (cbn; lra).
  Qed.
  Lemma lines_loop_never (l : lineset ROps) (a axis ext : R) (start : Line_) : 0 < ext -> scaled_spacing l axis 0 ext = Ok 0 ->
    forall fuel k j, lines_loop fuel k l a axis ext start 0 j = Raise OutOfFuel.
  Proof.
    intros X Q. induction fuel as [|fuel IH]; intros k j; cbn [lines_loop]; rnum; rewrite (proj2 (Rltb_true 0 ext)) by lra; cbn [negb]; [reflexivity|].
    rewrite Q. cbn [rbind]. rewrite Rplus_0_r, IH. reflexivity.
  Qed.
  (** False for a spacing of 0, which is not refused: the loop never ends. *)
  Theorem C146_zero_refuted (x0 y0 x1 y1 cycles : R) fuel : y0 < y1 -> cycles <> 0 ->
    make_lines fuel (plain (Bx (P x0 y0) (P x1 y1)) 0 0 cycles false) = Raise OutOfFuel.
  Proof.
    intros Y C. pose proof PI_RGT_0. unfold make_lines. cbn [ls_angle plain ls_spacing cliprect spacing_jitter].
    rewrite line_angle_id by lra. unfold axis_spacing. rewrite is_zero_true by (rewrite Rabs_R0; exact He). cbn [rbind].
    unfold start_line. rewrite is_vertical_false by lra. unfold bwidth, bheight, xmin, xmax, ymin, ymax. cbn [b1 b2 px py]. rnum.
    rewrite (proj2 (Rltb_false 0 0)) by lra. rewrite sin_0, Rmult_0_l, Rabs_R0, Rplus_0_r, Rminus_0_r.
    apply lines_loop_never; [lra|]. exact (plain_step (Bx (P x0 y0) (P x1 y1)) 0 0 cycles false 0 0 (y1 - y0) C ltac:(lra)).
  Qed.
End Theorems.

(** ** Examples *)
(** Lines 8 apart at the angle with sine 3/5 and cosine 4/5 in a square of side 10: one line, which rises by 3/5 per unit instead of 3/4. *)
Definition a35 : R := atan (3 / 4).
Lemma a35_cs : cos a35 = 4 / 5 /\ sin a35 = 3 / 5.
Proof.
  unfold a35. assert (Q : R_sqrt.sqrt (1 + (3 / 4)²) = 5 / 4) by (replace (1 + (3/4)²) with (Rsqr (5 / 4)) by (unfold Rsqr; lra); apply sqrt_Rsqr; lra).
  rewrite cos_atan, sin_atan, Q. split; lra.
Qed.
Lemma a35_range : 0 < a35 < PI / 4.
Proof.
  unfold a35. rewrite <- atan_1. split; [rewrite <- atan_0|]; apply atan_increasing; lra.
Qed.
Example C143_example {E : Epsilon ROps} ad sd : 0 < EPS <= 1 / 10 ->
  make_lines 2 (plain ad sd (Bx (P 0 0) (P 10 10)) 8 a35 1 false) = Ok [Ln (P 0 4) (P 10 10)].
Proof.
  intros [He H1]. pose proof PI_RGT_0. pose proof PI2_1. destruct a35_cs as [C S]. destruct a35_range as [R1 R2].
  assert (R3 : 3 / 5 < a35) by (rewrite <- S; apply sin_lt_x; lra).
  unfold make_lines. cbn [ls_angle plain ls_spacing cliprect spacing_jitter]. rewrite line_angle_id by lra.
  unfold axis_spacing. rewrite is_zero_false by (rewrite Rabs_right; lra). rewrite is_vertical_false by lra. unfold pydiv. rnum. rewrite C.
  rewrite (proj2 (Reqb_false (4 / 5) 0)) by lra. cbn [rbind]. replace (8 / (4 / 5)) with 10 by lra.
  unfold start_line. rewrite is_vertical_false by lra. unfold bwidth, bheight, xmin, xmax, ymin, ymax. cbn [b1 b2 px py]. rnum. rewrite S.
  rewrite (proj2 (Rltb_false 0 0)), (proj2 (Rltb_false a35 0)) by lra. rewrite Rabs_right by lra.
  replace (10 - 0 + 3 / 5 * (10 - 0)) with 16 by lra. replace (0 - 3 / 5 * (10 - 0)) with (-6) by lra.
  rewrite (lines_loop_spec He _ a35 10 16 _ (fun _ => 10)) with (os := [0; 10]); auto; try lra.
  - f_equal. unfold kept, shifted, ladd, padd. rewrite is_vertical_false by lra. cbn [flat_map p1 p2 px py app cliprect plain]. rnum.
    replace (0 + 0) with 0 by lra. replace (10 + 0) with 10 by lra. replace (-6 + 0) with (-6) by lra. replace (-6 + 10) with 4 by lra. replace (0 + 10) with 10 by lra.
    assert (Q1 : clip_line (Bx (P 0 0) (P 10 10)) (Ln (P 0 (-6)) (P 10 0)) = Some (Ln (P 10 0) (P 10 0))).
    { unfold clip_line, line_inside, point_inside, xmin, xmax, ymin, ymax. cbn [p1 p2 b1 b2 px py]. rnum.
      rewrite (proj2 (Rltb_false 0 0)) by lra. cbn [andb]. unfold clipT. rnum. cbn [fst snd].
      replace (10 - 0) with 10 by lra. rewrite is_zero_false by (rewrite Rabs_right; lra). rewrite (proj2 (Rltb_true 0 10)) by lra.
      replace ((0 - 0) / 10) with 0 by lra. rewrite (proj2 (Rltb_false 1 0)), (proj2 (Rltb_false 0 0)) by lra. cbn [obind fst snd].
      rewrite is_zero_false by (rewrite Rabs_Ropp, Rabs_right; lra). rewrite (proj2 (Rltb_false 0 (- (10)))) by lra.
      replace ((0 - 10) / - (10)) with 1 by field. rewrite (proj2 (Rltb_false 1 0)), (proj2 (Rltb_false 1 1)) by lra. cbn [obind fst snd].
      replace (0 - -6) with 6 by lra. rewrite is_zero_false by (rewrite Rabs_right; lra). rewrite (proj2 (Rltb_true 0 6)) by lra.
      replace (6 / 6) with 1 by lra. rewrite (proj2 (Rltb_false 1 1)), (proj2 (Rltb_true 0 1)) by lra. cbn [obind fst snd].
      rewrite is_zero_false by (rewrite Rabs_Ropp, Rabs_right; lra). rewrite (proj2 (Rltb_false 0 (- (6)))) by lra.
      replace ((-6 - 10) / - (6)) with (16 / 6) by field. rewrite (proj2 (Rltb_false (16 / 6) 1)) by lra. cbn [obind fst snd].
      rewrite (proj2 (Rltb_false 1 1)), (proj2 (Rltb_true 0 1)) by lra. do 2 f_equal. apply pt_ext; cbn [px py]; lra. }
    rewrite Q1. replace (llen (Ln (P 10 0) (P 10 0) : Line_)) with 0 by (unfold llen, vec, plen, psub; cbn [p1 p2 px py]; rnum; unfold Rhypot; replace ((10 - 10) * (10 - 10) + (0 - 0) * (0 - 0)) with 0 by ring; now rewrite sqrt_0).
    rewrite is_zero_true by (rewrite Rabs_R0; exact He). cbn [app].
    assert (Q2 : clip_line (Bx (P 0 0) (P 10 10)) (Ln (P 0 4) (P 10 10)) = Some (Ln (P 0 4) (P 10 10))).
    { unfold clip_line, line_inside, point_inside, xmin, xmax, ymin, ymax. cbn [p1 p2 b1 b2 px py]. rnum.
      rewrite (proj2 (Rltb_false 0 0)) by lra. cbn [andb]. unfold clipT. rnum. cbn [fst snd].
      replace (10 - 0) with 10 by lra. rewrite is_zero_false by (rewrite Rabs_right; lra). rewrite (proj2 (Rltb_true 0 10)) by lra.
      replace ((0 - 0) / 10) with 0 by lra. rewrite (proj2 (Rltb_false 1 0)), (proj2 (Rltb_false 0 0)) by lra. cbn [obind fst snd].
      rewrite is_zero_false by (rewrite Rabs_Ropp, Rabs_right; lra). rewrite (proj2 (Rltb_false 0 (- (10)))) by lra.
      replace ((0 - 10) / - (10)) with 1 by field. rewrite (proj2 (Rltb_false 1 0)), (proj2 (Rltb_false 1 1)) by lra. cbn [obind fst snd].
      replace (10 - 4) with 6 by lra. replace (0 - 4) with (-4) by lra. replace (4 - 10) with (-6) by lra. rewrite is_zero_false by (rewrite Rabs_right; lra). rewrite (proj2 (Rltb_true 0 6)) by lra.
      rewrite (proj2 (Rltb_false 1 (-4 / 6))), (proj2 (Rltb_false 0 (-4 / 6))) by lra. cbn [obind fst snd].
      rewrite is_zero_false by (rewrite Rabs_Ropp, Rabs_right; lra). rewrite (proj2 (Rltb_false 0 (- (6)))) by lra.
      replace (-6 / - (6)) with 1 by field. rewrite (proj2 (Rltb_false 1 0)), (proj2 (Rltb_false 1 1)) by lra. cbn [obind fst snd].
      rewrite (proj2 (Rltb_false 1 1)), (proj2 (Rltb_false 0 0)) by lra. reflexivity. }
    rewrite Q2. unfold llen, vec, plen, psub. cbn [p1 p2 px py]. rnum. unfold Rhypot. rewrite is_zero_false; [reflexivity|].
    replace ((10 - 0) * (10 - 0) + (10 - 4) * (10 - 4)) with 136 by ring. rewrite Rabs_right by (apply Rle_ge, sqrt_pos).
    assert (R_sqrt.sqrt 1 <= R_sqrt.sqrt 136) by (apply sqrt_le_1; lra). rewrite sqrt_1 in *. lra.
  - intros o Ho. split; [|lra]. exact (plain_step He ad sd (Bx (P 0 0) (P 10 10)) 8 a35 1 false 10 o 16 ltac:(lra) ltac:(lra)).
  - apply off_step; [lra|]. cbn beta. replace (0 + 10) with 10 by lra. apply off_step; [lra|]. apply off_end. cbn beta. lra.
Qed.
(** Two lines one above the other, doubled and connected: one path of four lines and three connections. *)
Example C145_example {E : Epsilon ROps} : 0 < EPS <= 1 / 10 ->
  let a := Ln (P 0 0) (P 4 0) : Line_ in let b := Ln (P 0 1) (P 4 1) : Line_ in
  insert_connectors (insert_reversed_lines [a; b] false false true) = [a; Ln (P 4 0) (P 4 1); Ln (P 4 1) (P 0 1)].
Proof.
  intros [He H1]. cbn zeta. rewrite C144_direction. cbv [indexed strokes_of turned_round xorb andb Nat.odd Nat.even negb backwards p1 p2 app].
  unfold insert_connectors. cbn [connectors_loop app p1 p2]. rewrite (proj2 (peq_false He _ _)); [reflexivity|].
  unfold euclid. cbn [px py]. match goal with |- context[R_sqrt.sqrt ?e] => replace e with 1 by (unfold Rsqr; toR; ring) end. rewrite sqrt_1. lra.
Qed.
