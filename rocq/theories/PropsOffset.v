(** * PropsOffset: C90-C92, the tool trail offset (tcnc/cam/offset.py). *)
From Verif Require Import Num NumR Geom GeomR GeomSpec GeomProofs GeomProofs2 GeomProofs3 GeomProofs4 GeomProofs5 Bezier BezierSpec BezierProofs3 Gcode Cam Offset OffsetSpec OffsetProofs.
From Coq Require Import ZArith Reals Lra Lia Bool List Psatz.
Import ListNotations.
Local Open Scope R_scope.
Local Notation ends := OffsetSpec.ends.

Section O.
  Context {E : Epsilon ROps}.
  Hypothesis He : 0 < EPS.

  (** ** C90: the tip of a trailing tool runs along the original path.
      Every connected path of proper segments (none shorter than the tolerance from end to end) is
      offset; the axis of the tool, carried along the result, keeps its tip on the original path:
      see [woven] in OffsetSpec.v. *)
  Theorem C90_tip_follows_partial (s : CSeg) (r : Path) (o m : R) (tol : option R) : EPS <= o -> 0 <= dflt EPS tol ->
    (forall x, In x (s :: r) -> proper (geo x) /\ EPS <= euclid (starts x) (ends x)) -> meets (s :: r) ->
    exists out, offset_path (s :: r) o m tol = Ok out /\ woven EPS o m (dflt EPS tol) (s :: r) out.
  Proof.
    intros Ho Ht Hp Hm. unfold offset_path, feq. rnum.
    destruct (Rltb (Rabs (o - 0)) EPS) eqn:Z; [apply Rltb_true in Z; rewrite Rminus_0_r, Rabs_right in Z; lra|].
    destruct (Hp s) as [Sp Sl]; [now left|]. cbn [offset_loop].
    unfold starts, ends in Sl. rewrite reached_0, reached_1 in Sl by exact Sp. unfold c_p1 at 1, c_p2 at 1.
    destruct (peq (s_p1 (geo s)) (s_p2 (geo s))) eqn:Z2; [apply peq_true in Z2; [lra|exact He]|].
    destruct (offset_seg_carries s o Sp) as (os & Q & C). rewrite Q. cbn [rbind].
    destruct (loop_woven He o m (dflt EPS tol) r ltac:(lra) Ht s os [] Hp Hm C) as (os' & out & L & W & G & I1 & I2).
    match goal with |- context [offset_loop o m ?t _ _ _] => change t with (dflt EPS tol) end. rewrite L. cbn [app rbind]. eexists. split; [reflexivity|].
    apply (woven_first o m (dflt EPS tol) (s :: r) os' _ out); auto.
    destruct C as (Cp & Cr & Cs & Ce). transitivity (heading (geo s) 0).
    - unfold tool_start, set_sa. cbn [inline_sa]. unfold c_p1. rewrite G, <- !reached_0, Cr. apply first_hint; [lra|].
      apply heading_unit. exact Sp.
    - rewrite <- Cs. unfold tool_start. now rewrite I1, G.
  Qed.
  (** An offset below the tolerance leaves the path as it is. *)
  Theorem C90_no_offset (p : Path) (o m : R) tol : Rabs o < EPS -> offset_path p o m tol = Ok p.
  Proof.
    intros Ho. unfold offset_path, feq. rnum. destruct (Rltb (Rabs (o - 0)) EPS) eqn:Z; [reflexivity|].
    apply Rltb_false in Z. rewrite Rminus_0_r in Z. lra.
  Qed.
  (** A segment that ends where it starts is dropped: in particular a full circle is not cut. *)
  Theorem C90_full_circle_dropped_refuted (s : CSeg) (r1 r2 : Path) (a : Arc_) c (o m : R) tol : EPS <= Rabs o ->
    geo c = SArc a -> wf_arc a -> sweep a = 2 * PI ->
    offset_path (s :: r1 ++ c :: r2) o m tol = offset_path (s :: r1 ++ r2) o m tol.
  Proof.
    intros Ho G (W0 & W1 & W2) S. assert (K : peq (c_p1 c) (c_p2 c) = true).
    { unfold c_p1, c_p2. rewrite G. cbn. rewrite W2, S. unfold turned. rewrite cos_2PI, sin_2PI.
      replace (P _ _) with (ap1 a); [apply peq_true; [exact He|]; now apply self_close|].
      symmetry; apply pt_ext; cbn [px py]; toR; ring. }
    assert (L : forall t r prev acc, offset_loop o m t prev acc (r ++ c :: r2) = offset_loop o m t prev acc (r ++ r2)).
    { intros t r. induction r as [|x r IH]; intros prev acc; cbn [app offset_loop]; [now rewrite K|].
      destruct (peq (c_p1 x) (c_p2 x)); [apply IH|]. destruct (offset_seg x o); cbn [rbind]; [|reflexivity].
      destruct prev as [[ps po]|]; apply IH. }
    unfold offset_path, feq. rnum. destruct (Rltb (Rabs (o - 0)) EPS) eqn:Z; [apply Rltb_true in Z; rewrite Rminus_0_r in Z; lra|].
    change (s :: r1 ++ c :: r2) with ((s :: r1) ++ c :: r2). rewrite L. reflexivity.
  Qed.
  (** The hypotheses of [C90_tip_follows_partial] are met by a right-angle corner of two lines followed by a half circle. *)
  Example C90_example : EPS <= 1/2 ->
    let s1 := plain (SLine (Ln (P 0 0) (P 2 0))) in
    let s2 := plain (SLine (Ln (P 2 0) (P 2 2))) in
    let s3 := plain (SArc (mkarc (P 2 2) (P 0 2) 1 PI (P 1 2))) in
    (forall x, In x [s1; s2; s3] -> proper (geo x) /\ EPS <= euclid (starts x) (ends x)) /\ meets [s1; s2; s3].
  Proof.
    intros Hs. cbv zeta. pose proof PI_RGT_0 as HPI.
    assert (D1 : euclid (P 0 0) (P 2 0) = 2) by (apply euclid_unique; cbn; lra).
    assert (D2 : euclid (P 2 0) (P 2 2) = 2) by (apply euclid_unique; cbn; lra).
    assert (D3 : euclid (P 2 2) (P 1 2) = 1) by (apply euclid_unique; cbn; lra).
    assert (D4 : euclid (P 2 2) (P 0 2) = 2) by (apply euclid_unique; cbn; lra).
    assert (P3 : proper (SArc (mkarc (P 2 2) (P 0 2) 1 PI (P 1 2)))).
    { split; [|cbn; lra]. unfold wf_arc. cbn [radius ap1 ap2 center sweep]. repeat split; [lra|exact D3|].
      unfold turned. rewrite cos_PI, sin_PI. symmetry; apply pt_ext; cbn [px py]; toR; ring. }
    assert (A : forall l, proper (SLine l) -> starts (plain (SLine l)) = p1 l /\ ends (plain (SLine l)) = p2 l).
    { intros l Hl. unfold starts, ends. cbn [geo plain]. now rewrite reached_0, reached_1. }
    destruct (A (Ln (P 0 0) (P 2 0))) as [A1 A2]; [cbn; unfold seg_len; cbn [p1 p2]; lra|].
    destruct (A (Ln (P 2 0) (P 2 2))) as [B1 B2]; [cbn; unfold seg_len; cbn [p1 p2]; lra|].
    assert (C1 : starts (plain (SArc (mkarc (P 2 2) (P 0 2) 1 PI (P 1 2)))) = P 2 2) by (unfold starts; cbn [geo plain]; now rewrite reached_0).
    assert (C2 : ends (plain (SArc (mkarc (P 2 2) (P 0 2) 1 PI (P 1 2)))) = P 0 2) by (unfold ends; cbn [geo plain]; now rewrite reached_1).
    split.
    - intros x [<-|[<-|[<-|[]]]].
      + rewrite A1, A2. cbn [p1 p2]. rewrite D1. split; [cbn; unfold seg_len; cbn [p1 p2]|]; lra.
      + rewrite B1, B2. cbn [p1 p2]. rewrite D2. split; [cbn; unfold seg_len; cbn [p1 p2]|]; lra.
      + rewrite C1, C2, D4. split; [exact P3|lra].
    - cbn [meets]. rewrite A2, B1, B2, C1. auto.
  Qed.

  (** ** C91: for every path whatsoever the offset path has no gap of a tolerance or more, and the only
      failure is that of a path without any segment of that length. *)
  Theorem C91_no_gaps (p : Path) (o m : R) tol out : EPS <= Rabs o -> offset_path p o m tol = Ok out -> near_joints out.
  Proof.
    intros Ho. unfold offset_path, feq. rnum.
    destruct (Rltb (Rabs (o - 0)) EPS) eqn:Z; [apply Rltb_true in Z; rewrite Rminus_0_r in Z; lra|].
    match goal with |- context [offset_loop ?a ?b ?t ?c ?d ?e] => destruct (offset_loop a b t c d e) as [op|] eqn:L end; cbn [rbind]; [|discriminate].
    apply (loop_joints He) in L; [|cbn; auto]. intros H. destruct op as [|f r]; [discriminate H|]. destruct p as [|f0 p]; [discriminate H|].
    injection H as <-. destruct r as [|g r]; cbn in *; auto.
  Qed.
  Theorem C91_total (p : Path) (o m : R) tol : EPS <= Rabs o ->
    (exists out, offset_path p o m tol = Ok out /\ out <> []) /\ (exists s, In s p /\ EPS <= euclid (s_p1 (geo s)) (s_p2 (geo s))) \/
    offset_path p o m tol = Raise IndexError /\ (forall s, In s p -> euclid (s_p1 (geo s)) (s_p2 (geo s)) < EPS).
  Proof.
    intros Ho. unfold offset_path, feq. rnum.
    destruct (Rltb (Rabs (o - 0)) EPS) eqn:Z; [apply Rltb_true in Z; rewrite Rminus_0_r in Z; lra|].
    destruct (loop_total He o m (dflt EPS tol) p None []) as (out & L & N).
    match goal with |- context [offset_loop o m ?t _ _ _] => change t with (dflt EPS tol) end. rewrite L. cbn [rbind].
    assert (D : (exists s, In s p /\ EPS <= euclid (s_p1 (geo s)) (s_p2 (geo s))) \/ (forall s, In s p -> euclid (s_p1 (geo s)) (s_p2 (geo s)) < EPS)).
    { clear. induction p as [|x p [(s & A & B)|H]]; [right; intros ? []|left; exists s; cbn; auto|].
      destruct (Rlt_le_dec (euclid (s_p1 (geo x)) (s_p2 (geo x))) EPS); [right; intros s [<-|Hs]; auto|left; exists x; cbn; auto]. }
    destruct D as [(s & A & B)|D].
    - left. split; [|eauto]. destruct out as [|f r].
      + exfalso. destruct N as [N _]. destruct (N eq_refl) as (_ & _ & N'). specialize (N' s A). apply peq_true in N'; [|exact He]. unfold c_p1, c_p2 in N'. lra.
      + destruct p as [|f0 p]; [destruct A|]. eexists. split; [reflexivity|discriminate].
    - right. split; [|exact D]. destruct N as [_ N]. rewrite N; [reflexivity|]. repeat split; auto.
      intros s Hs. apply peq_true; [exact He|]. exact (D s Hs).
  Qed.

  (** ** C92: the rotation of the smoothed path. *)
  (** [turning k a l b]: along [l] the tool turns from angle [a] to angle [b], by [k] per unit of length,
      with no jump between the segments. *)
  Fixpoint turning (k a : R) (l : Path) (b : R) : Prop :=
    match l with
    | [] => a = b
    | s :: r => inline_sa s = Some a /\ exists c, inline_ea s = Some c /\ c = a + k * s_length (geo s) /\ turning k c r b
    end.
  (** What may stand for segment [s]: itself or, if it carries the g1 mark, the biarc approximation of a curve
      with the same end points, along which the tool turns evenly and the short way from the start angle
      of [s] to its end angle (up to full turns). *)
  Definition replaced (tol flat : R) (s : CSeg) (l : Path) : Prop :=
    l = [s] \/
    g1 s = true /\ l <> [] /\
    (exists c, z1 c = c_p1 s /\ z2 c = c_p2 s /\ biarc_approximation c tol 1 flat = Ok (map geo l)) /\
    exists k w, turning k (seg_start_angle s) l (seg_start_angle s + w) /\ - PI <= w < PI /\
      congruent w (seg_end_angle s - seg_start_angle s).

  Lemma spread_turning k l : forall a, turning k a (spread_hints a k l) (a + k * fold_left (fun x s => x + s_length s)%R l 0).
  Proof.
    assert (F : forall l x, fold_left (fun x s => x + s_length s)%R l x = x + fold_left (fun x s => x + @s_length ROps s)%R l 0).
    { clear. induction l as [|s l IH]; intros x; cbn [fold_left]; [ring|]. rewrite IH, (IH (0 + _)). ring. }
    induction l as [|s l IH]; intros a; cbn [spread_hints turning fold_left]; [ring|].
    split; [reflexivity|]. eexists. split; [reflexivity|]. cbn [set_ea set_sa plain geo]. rnum. split; [ring|].
    rewrite F. replace (a + k * (0 + s_length s + fold_left (fun x s0 => x + s_length s0)%R l 0)) with
      ((a + s_length s * k) + k * fold_left (fun x s0 => x + @s_length ROps s0)%R l 0) by ring. apply IH.
  Qed.
  Lemma spread_geo k l : forall a : R, map geo (spread_hints a k l) = l.
  Proof. induction l as [|s l IH]; intros a; cbn [spread_hints map]; [reflexivity|]. f_equal. apply IH. Qed.
  Lemma smoothing_arcs_replaced (s : CSeg) s2 cp tol flat l cp' : g1 s = true -> smoothing_arcs s s2 cp tol flat = Ok (l, cp') -> replaced tol flat s l.
  Proof.
    intros G. unfold smoothing_arcs. destruct (smoothing_curve (geo s) _ _ _ _) as [[c nx]|] eqn:SC; cbn [rbind]; [|discriminate].
    apply smoothing_ends in SC. injection SC as S1 S2.
    destruct (biarc_approximation c tol 1 flat) as [segs|] eqn:B; cbn [rbind]; [|discriminate].
    destruct segs as [|x segs]; [intros H; injection H as <- _; now left|].
    unfold pydiv. rnum. set (len := fold_left _ _ _). destruct (Reqb len 0) eqn:Z; [discriminate|]. cbn [rmap rbind].
    intros H. injection H as <- _. right. split; [exact G|]. split; [discriminate|]. 
    set (w := normalize_angle (seg_end_angle s - seg_start_angle s) 0).
    split.
    - exists c. split; [exact S1|]. split; [exact S2|]. 
      change (biarc_approximation c tol 1 flat = Ok (map geo (spread_hints (seg_start_angle s) (w / len)%R (x :: segs)))). now rewrite spread_geo.
    - exists (w / len)%R, w. split; [|split].
      + pose proof (spread_turning (w / len)%R (x :: segs) (seg_start_angle s)) as T.
        assert (K : w / len * len = w) by (field; now apply Reqb_false).
        unfold len in K at 2. rewrite K in T. exact T.
      + pose proof (normalize_range (seg_end_angle s - seg_start_angle s) 0) as NR. unfold w. lra.
      + apply normalize_congr.
  Qed.
  Theorem C92_fix_G1_partial (p : Path) (tol flat : R) out : fix_G1_path p tol flat = Ok out ->
    exists blocks, out = concat blocks /\ Forall2 (replaced tol flat) p blocks.
  Proof.
    assert (L : forall r s cp acc out, fix_loop tol flat s cp acc r = Ok out ->
      exists blocks, out = acc ++ concat blocks /\ Forall2 (replaced tol flat) (s :: r) blocks).
    { clear out. induction r as [|t r IH]; intros s cp acc out; cbn [fix_loop]; destruct (g1 s) eqn:G.
      - destruct (smoothing_arcs s None cp tol flat) as [[l cp']|] eqn:SA; cbn [rmap]; [|discriminate].
        intros H. injection H as <-. exists [l]. cbn [concat]. rewrite app_nil_r. split; [reflexivity|]. constructor; [|constructor].
        eapply smoothing_arcs_replaced; eauto.
      - intros H. injection H as <-. exists [[s]]. split; [reflexivity|]. constructor; [now left|constructor].
      - destruct (smoothing_arcs s (Some t) cp tol flat) as [[l cp']|] eqn:SA; cbn [rbind]; [|discriminate].
        intros H. apply IH in H as (bl & -> & F). exists (l :: bl). cbn [concat]. rewrite app_assoc. split; [reflexivity|].
        constructor; [|exact F]. eapply smoothing_arcs_replaced; eauto.
      - intros H. apply IH in H as (bl & -> & F). exists ([s] :: bl). cbn [concat]. rewrite <- app_assoc. split; [reflexivity|].
        constructor; [now left|exact F]. }
    unfold fix_G1_path. destruct p as [|s [|t r]].
    - intros H. injection H as <-. exists []. split; [reflexivity|constructor].
    - intros H. injection H as <-. exists [[s]]. split; [reflexivity|]. constructor; [now left|constructor].
    - intros H. apply L in H as (bl & -> & F). exists bl. auto.
  Qed.
  (** A path without marks is returned unchanged. *)
  Theorem C92_unmarked (p : Path) (tol flat : R) : (forall s, In s p -> g1 s = false) -> fix_G1_path p tol flat = Ok p.
  Proof.
    assert (L : forall r s cp acc, (forall x, In x (s :: r) -> g1 x = false) -> fix_loop tol flat s cp acc r = Ok (acc ++ s :: r)).
    { induction r as [|t r IH]; intros s cp acc H; cbn [fix_loop]; rewrite (H s) by (now left); [reflexivity|].
      rewrite IH; [rewrite <- app_assoc; reflexivity|]. intros x Hx. apply H. now right. }
    intros H. unfold fix_G1_path. destruct p as [|s [|t r]]; [reflexivity..|]. now rewrite L.
  Qed.
  (** Smoothing starts afresh after an unmarked segment: what follows it is smoothed as a path of its own. *)
  Theorem C92_afresh (p q : Path) (s : CSeg) (tol flat : R) : p <> [] -> (2 <= length q)%nat -> g1 s = false ->
    fix_G1_path (p ++ s :: q) tol flat =
      rbind (fix_G1_path (p ++ [s]) tol flat) (fun a => rbind (fix_G1_path q tol flat) (fun b => Ok (a ++ b))).
  Proof.
    assert (A : forall r x cp acc, fix_loop tol flat x cp acc r = rmap (fun o => acc ++ o) (fix_loop tol flat x cp [] r)).
    { induction r as [|t r IH]; intros x cp acc; cbn [fix_loop]; destruct (g1 x).
      - destruct (smoothing_arcs _ _ _ _ _) as [[l cp']|]; reflexivity.
      - reflexivity.
      - destruct (smoothing_arcs _ _ _ _ _) as [[l cp']|]; cbn [rbind rmap]; [|reflexivity].
        rewrite (IH t cp' (acc ++ l)), (IH t cp' ([] ++ l)). destruct (fix_loop _ _ _ _ _ _); cbn [rmap app]; [now rewrite app_assoc|reflexivity].
      - rewrite (IH t _ (acc ++ [x])), (IH t _ ([] ++ [x])). destruct (fix_loop _ _ _ _ _ _); cbn [rmap app]; [now rewrite <- app_assoc|reflexivity]. }
    intros Hp Hq G.
    assert (B : forall r x cp acc, fix_loop tol flat x cp acc (r ++ s :: q) =
      rbind (fix_loop tol flat x cp acc (r ++ [s])) (fun a => rbind (fix_G1_path q tol flat) (fun b => Ok (a ++ b)))).
    { destruct q as [|u [|v q]]; [cbn in Hq; lia..|]. unfold fix_G1_path.
      assert (D : forall cp acc, fix_loop tol flat s cp acc (u :: v :: q) =
        rbind (fix_loop tol flat s cp acc []) (fun a => rbind (fix_loop tol flat u (c_p1 u) [] (v :: q)) (fun b => Ok (a ++ b)))).
      { intros cp acc. cbn [fix_loop]. rewrite G. cbn [rbind]. change (fix_loop tol flat u (c_p1 u) (acc ++ [s]) (v :: q) = rbind (fix_loop tol flat u (c_p1 u) [] (v :: q)) (fun b => Ok ((acc ++ [s]) ++ b))).
        rewrite A. destruct (fix_loop tol flat u (c_p1 u) [] (v :: q)); reflexivity. }
      induction r as [|t r IH]; intros x cp acc; cbn [app].
      - cbn [fix_loop]. destruct (g1 x).
        + destruct (smoothing_arcs _ _ _ _ _) as [[l cp']|]; cbn [rbind]; [|reflexivity]. exact (D cp' (acc ++ l)).
        + exact (D (c_p1 s) (acc ++ [x])).
      - cbn [fix_loop]. destruct (g1 x).
        + destruct (smoothing_arcs _ _ _ _ _) as [[l cp']|]; cbn [rbind]; [|reflexivity]. apply IH.
        + apply IH. }
    destruct p as [|x p]; [congruence|]. cbn [app]. destruct p as [|y p]; unfold fix_G1_path at 1 2; cbn [app].
    - exact (B [] x (c_p1 x) []).
    - exact (B (y :: p) x (c_p1 x) []).
  Qed.
End O.
