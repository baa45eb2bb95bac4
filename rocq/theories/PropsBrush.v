(** * PropsBrush: brush strokes (C118), paintcam.py. *)
From Verif Require Import Num NumR Geom GeomR GeomSpec GeomProofs GeomProofs2 GeomProofs3 GeomProofs4 GeomProofs5 GeomProofs7 Gcode Cam CamR Offset OffsetSpec OffsetProofs PropsGeom.
From Coq Require Import ZArith Reals Lra Lia Bool List Psatz String.
Import ListNotations.
Local Open Scope R_scope.
Local Open Scope list_scope.

(** ** Specification *)
(** [straight u p l q segs]: segs are lines one after the other in the direction u, from p to q, with the tool pointing in
    that direction all along; their lengths and heights are given by l. *)
Inductive straight (u : Pt) : Pt -> list (R * option R) -> Pt -> Path -> Prop :=
| straight_nil p : straight u p [] p []
| straight_cons p d z l q s segs : geo s = SLine (Ln p (ahead p u d)) -> inline_z s = z -> tool_start s = u -> tool_end s = u ->
    straight u (ahead p u d) l q segs -> straight u p ((d, z) :: l) q (s :: segs).
(** what the brush settings ask for; distances below the tolerance are left out *)
Definition asked (tol d : R) (z : option R) : list (R * option R) := if Rlt_dec tol d then [(d, z)] else [].
Definition approach (tol : R) (b : brush ROps) (z : R) : list (R * option R) :=
  (if soft_landing b then asked tol (tool_trail_offset b) (Some z) else []) ++ asked tol (landing_strip b) None.
Definition overshoot_length (b : brush ROps) : R := if overshoot_auto b then tool_width b / 2 else overshoot_distance b.
Definition departure (tol : R) (b : brush ROps) : list (R * option R) :=
  if overshoot_enable b then asked tol (overshoot_length b) None ++ (if soft_landing b then asked tol (tool_trail_offset b) (Some 0) else []) else [].
(** a brush that lifts off softly after no overshoot *)
Definition lifts_off_at_once (tol : R) (b : brush ROps) : Prop :=
  overshoot_enable b = true /\ soft_landing b = true /\ tol < tool_trail_offset b /\ ~ tol < overshoot_length b.

Section Brush.
  Context {E : Epsilon ROps}.

  Lemma unit_heading (p u : Pt) (d : R) v : px u * px u + py u * py u = 1 -> 0 < d -> heading (SLine (Ln p (ahead p u d))) v = u.
  Proof.
    intros U D. assert (S : seg_len (Ln p (ahead p u d)) = d).
    { unfold seg_len. cbn [p1 p2]. apply euclid_unique; [lra|]. unfold ahead. cbn [px py]. nra. }
    cbn [heading]. rewrite S. unfold ahead. cbn [p1 p2 px py]. apply pt_ext; cbn [px py].
    - transitivity (d * px u / d); [f_equal; ring|field; lra].
    - transitivity (d * py u / d); [f_equal; ring|field; lra].
  Qed.
  Lemma polar_ahead (p : Pt) (d a : R) : padd (N := ROps) p (from_polar d a) = ahead p (unit_at a) d.
  Proof. unfold padd, from_polar, ahead, unit_at. cbn [px py]. rnum. apply pt_ext; cbn [px py]; ring. Qed.
  Lemma unit_unit a : px (unit_at a) * px (unit_at a) + py (unit_at a) * py (unit_at a) = 1.
  Proof. unfold unit_at. cbn [px py]. pose proof (sin2_cos2 a) as H. unfold Rsqr in H. lra. Qed.
  Lemma start_dir (s : CSeg) : proper (geo s) -> unit_at (seg_start_angle s) = tool_start s.
  Proof. intros H. unfold seg_start_angle, tool_start, dflt. destruct (inline_sa s); auto. apply start_heading; auto. Qed.
  Lemma end_dir (s : CSeg) : proper (geo s) -> unit_at (seg_end_angle s) = tool_end s.
  Proof. intros H. unfold seg_end_angle, tool_end, dflt. destruct (inline_ea s); auto. apply end_heading; auto. Qed.
  (** a lead-in ends where the given segment starts *)
  Lemma lead_in_run (d : R) (s : CSeg) u z l q segs : 0 < d -> px u * px u + py u * py u = 1 -> (forall a, inline_sa s = Some a -> unit_at a = u) ->
    forall a, unit_at a = u -> straight u (c_p1 s) l q segs ->
    straight u (ahead (c_p1 s) u (- d)) ((d, z) :: l) q
      (match z with Some z => set_z (lead_in d a s) z | None => lead_in d a s end :: segs).
  Proof.
    intros D U IS a UA ST.
    assert (B : ahead (ahead (c_p1 s) u (- d)) u d = c_p1 s) by (unfold ahead; apply pt_ext; cbn [px py]; ring).
    assert (G0 : padd (N := ROps) (c_p1 s) (from_polar (N := ROps) d (a + PI)) = ahead (c_p1 s) u (- d)).
    { rewrite polar_ahead, <- UA. unfold unit_at, ahead. rewrite neg_cos, neg_sin. apply pt_ext; cbn [px py]; ring. }
    assert (GE : geo (match z with Some z => set_z (lead_in d a s) z | None => lead_in d a s end) = SLine (Ln (ahead (c_p1 s) u (- d)) (ahead (ahead (c_p1 s) u (- d)) u d))).
    { rewrite B. transitivity (SLine (N := ROps) (Ln (padd (N := ROps) (c_p1 s) (from_polar (N := ROps) d (a + PI))) (c_p1 s))); [destruct z; reflexivity|rewrite G0; reflexivity]. }
    apply straight_cons; [exact GE|destruct z; reflexivity| | |rewrite B; exact ST].
    - unfold tool_start. rewrite GE. replace (inline_sa _) with (@None R) by (destruct z; reflexivity). apply unit_heading; auto.
    - unfold tool_end. rewrite GE. replace (inline_ea _) with (inline_sa s) by (destruct z; reflexivity). destruct (inline_sa s) as [a'|] eqn:Q; [auto|apply unit_heading; auto].
  Qed.

  Lemma line_run (d : R) (s : CSeg) z p u a : 0 < d -> unit_at a = u -> geo s = SLine (Ln p (padd (N := ROps) p (from_polar (N := ROps) d a))) ->
    inline_z s = z -> inline_sa s = None -> inline_ea s = None ->
    forall l q segs, straight u (ahead p u d) l q segs -> straight u p ((d, z) :: l) q (s :: segs).
  Proof.
    intros D UA GE IZ SA EA l q segs ST. rewrite polar_ahead, UA in GE.
    assert (U : px u * px u + py u * py u = 1) by (rewrite <- UA; apply unit_unit).
    apply straight_cons; auto.
    - unfold tool_start. rewrite SA, GE. apply unit_heading; auto.
    - unfold tool_end. rewrite EA, GE. apply unit_heading; auto.
  Qed.
  Lemma ltb_dec (x y : R) : Num.ltb (n := ROps) x y = if Rlt_dec x y then true else false.
  Proof. destruct (Rlt_dec x y); [apply Rltb_true; auto|apply Rltb_false; lra]. Qed.

  (** The path itself is drawn unchanged, between a straight approach and a straight departure. *)
  Theorem C118_stroke (c : config ROps) k (b : brush ROps) first final (p p' : Path) : 0 <= tolerance c ->
    hd_error p = Some first -> last p first = final -> proper (geo first) -> proper (geo final) ->
    process_brush_path c k b p = Ok p' ->
    exists lead tail v w, p' = lead ++ p ++ tail /\
      straight (tool_start first) v (approach (tolerance c) b (eff_step k)) (starts first) lead /\
      straight (tool_end final) (ends final) (departure (tolerance c) b) w tail.
  Proof.
    intros T0 HP FI PF PL. destruct p as [|s0 mid]; [discriminate|]. cbn in HP. injection HP; intros ->. clear HP.
    pose proof (start_dir first PF) as U0. pose proof (end_dir final PL) as U1.
    assert (UU : px (tool_start first) * px (tool_start first) + py (tool_start first) * py (tool_start first) = 1) by (rewrite <- U0; apply unit_unit).
    assert (S0 : starts first = c_p1 first) by apply reached_0. assert (E0 : ends final = c_p2 final) by (apply reached_1; auto).
    assert (SA : forall a, inline_sa first = Some a -> unit_at a = tool_start first) by (intros a Q; unfold tool_start; rewrite Q; auto).
    set (u := tool_start first) in *. set (w := tool_end final) in *. rewrite S0, E0.
    set (p := first :: mid) in *. set (tol := tolerance c) in *.
    unfold process_brush_path. change (first :: mid) with p. unfold p at 1. cbv beta iota zeta. fold tol.
    (* the landing strip *)
    set (p1 := if Num.ltb (n := ROps) tol (landing_strip b) then lead_in (landing_strip b) (seg_start_angle first) first :: p else p).
    assert (P1 : exists l1 s1 r1, p1 = l1 ++ p /\ p1 = s1 :: r1 /\ (forall a, inline_sa s1 = Some a -> unit_at a = u) /\
      straight u (c_p1 s1) (asked tol (landing_strip b) None) (c_p1 first) l1).
    { unfold p1, asked. rewrite ltb_dec. destruct (Rlt_dec tol (landing_strip b)) as [L|L].
      - exists [lead_in (landing_strip b) (seg_start_angle first) first], (lead_in (landing_strip b) (seg_start_angle first) first), p.
        split; [reflexivity|]. split; [reflexivity|]. split; [discriminate|].
        pose proof (lead_in_run (landing_strip b) first u None [] (c_p1 first) [] ltac:(lra) UU SA (seg_start_angle first) U0 (straight_nil _ _)) as H.
        inversion H as [|? ? ? ? ? ? ? GE]; subst. cbv beta iota in GE.
        assert (Q : c_p1 (lead_in (landing_strip b) (seg_start_angle first) first) = ahead (c_p1 first) u (- landing_strip b)) by (unfold c_p1 at 1; rewrite GE; reflexivity).
        rewrite Q. exact H.
      - exists [], first, mid. split; [reflexivity|]. split; [reflexivity|]. split; [exact SA|]. constructor. }
    clearbody p1. destruct P1 as (l1 & s1 & r1 & Q1 & Q2 & SA1 & ST1). rewrite Q2. rewrite <- Q2.
    set (p2 := if soft_landing b && Num.ltb (n := ROps) tol (tool_trail_offset b)
               then set_z (lead_in (tool_trail_offset b) (seg_start_angle first) s1) (eff_step k) :: p1 else p1).
    assert (P2 : exists l2 v, p2 = l2 ++ p /\ straight u v (approach tol b (eff_step k)) (c_p1 first) l2).
    { unfold p2, approach. rewrite ltb_dec. unfold asked at 1. destruct (soft_landing b); cbn [andb]; [destruct (Rlt_dec tol (tool_trail_offset b)) as [L|L]|].
      - eexists (_ :: l1), _. rewrite Q1. split; [reflexivity|].
        apply (lead_in_run (tool_trail_offset b) s1 u (Some (eff_step k)) _ _ _ ltac:(lra) UU SA1 (seg_start_angle first) U0 ST1).
      - exists l1, (c_p1 s1). auto.
      - exists l1, (c_p1 s1). auto. }
    clearbody p2. clear p1 Q1 Q2 ST1. destruct P2 as (l2 & v & -> & ST2).
    assert (LA : last (l2 ++ p) first = final).
    { rewrite <- FI. unfold p. clear. induction l2 as [|x [|y l] IH]; [reflexivity| |]; cbn in *; auto. }
    rewrite LA. unfold departure, overshoot_length. destruct (overshoot_enable b).
    2:{ intros H. injection H; intros <-. exists l2, [], v, (c_p2 final). rewrite app_nil_r. split; [auto|]. split; [auto|constructor]. }
    set (od := if overshoot_auto b then tool_width b / 2 else overshoot_distance b).
    match goal with |- context [Num.ltb tol ?x] => change x with od end. rewrite !ltb_dec. unfold asked.
    destruct (Rlt_dec tol od) as [L|L]; (destruct (soft_landing b); cbn [andb]; [destruct (Rlt_dec tol (tool_trail_offset b)) as [L2|L2]|]);
      intros H; try discriminate; injection H; intros <-; clear H; try (exists l2, [], v, (c_p2 final); rewrite app_nil_r; split; [reflexivity|]; split; [exact ST2|constructor]; fail); exists l2; rewrite <- ?app_assoc; eexists _, v, _; (split; [reflexivity|]); (split; [exact ST2|]); cbn [app];
      try (constructor; fail).
    - eapply line_run with (a := seg_end_angle final); [lra|exact U1|reflexivity|reflexivity|reflexivity|reflexivity|].
      rewrite <- U1, <- polar_ahead, U1.
      eapply line_run with (a := seg_end_angle final); [lra|exact U1|reflexivity|reflexivity|reflexivity|reflexivity|]. constructor.
    - eapply line_run with (a := seg_end_angle final); [lra|exact U1|reflexivity|reflexivity|reflexivity|reflexivity|]. constructor.
    - eapply line_run with (a := seg_end_angle final); [lra|exact U1|reflexivity|reflexivity|reflexivity|reflexivity|]. constructor.
  Qed.
  Definition stroke (tol z : R) (b : brush ROps) (p p' : Path) : Prop := exists first final lead tail v w,
    hd_error p = Some first /\ last p first = final /\ p' = lead ++ p ++ tail /\
    straight (tool_start first) v (approach tol b z) (starts first) lead /\ straight (tool_end final) (ends final) (departure tol b) w tail.
  (** All paths of a job: strokes if overshoot or soft landing is switched on, otherwise unchanged (also if there is a landing strip). *)
  Theorem C118_paths (c : config ROps) k (b : brush ROps) (l l' : list Path) : 0 <= tolerance c -> Forall (Forall (fun s => proper (geo s))) l ->
    paint_paths c k b l = Ok l' ->
    (overshoot_enable b = true \/ soft_landing b = true -> Forall2 (stroke (tolerance c) (eff_step k) b) l l') /\
    (overshoot_enable b = false -> soft_landing b = false -> l' = l).
  Proof.
    intros T0 F. revert l'. induction F as [|p l Fp F IH]; intros l'; cbn [paint_paths]; [intros H; injection H; intros <-; split; auto|].
    destruct (overshoot_enable b || soft_landing b) eqn:OS.
    - destruct (process_brush_path c k b p) as [p'|e] eqn:Q; [|discriminate]. cbn [rbind]. destruct (paint_paths c k b l) as [r|e]; [|discriminate]. cbn [rbind].
      intros H. injection H; intros <-. split; [|intros O1 O2; rewrite O1, O2 in OS; discriminate]. intros EN. constructor; [|apply IH; auto].
      destruct p as [|s mid]; [discriminate|].
      assert (PS : proper (geo s)) by (inversion Fp; auto).
      assert (PL : proper (geo (last (s :: mid) s))).
      { rewrite Forall_forall in Fp. apply Fp. destruct (exists_last (l := s :: mid)) as (m & x & E1); [discriminate|]. rewrite E1, last_last. apply in_or_app. right; left; auto. }
      destruct (C118_stroke c k b s (last (s :: mid) s) (s :: mid) p' T0 eq_refl eq_refl PS PL Q) as (le & ta & v & w & A & B & C).
      exists s, (last (s :: mid) s), le, ta, v, w. auto.
    - cbn [rbind]. destruct (paint_paths c k b l) as [r|e]; [|discriminate]. cbn [rbind]. intros H. injection H; intros <-. apply orb_false_iff in OS. destruct OS as [O1 O2].
      split; [intros [X|X]; congruence|]. intros _ _. f_equal. apply IH; auto.
  Qed.
  (** It is given up exactly for an empty path, or if the brush should lift off softly after no overshoot. *)
  Theorem C118_completes (c : config ROps) k (b : brush ROps) (p : Path) :
    (exists p', process_brush_path c k b p = Ok p') <-> p <> [] /\ ~ lifts_off_at_once (tolerance c) b.
  Proof.
    destruct p as [|s mid]; [split; [intros (p' & H); discriminate|tauto]|].
    unfold process_brush_path, lifts_off_at_once, overshoot_length. cbv beta iota zeta.
    match goal with |- context [last ?q s] => set (p2 := q); clearbody p2 end. rewrite !ltb_dec.
    change (Num.div (n := ROps) (tool_width b) (Num.of_Z (n := ROps) 2)) with (tool_width b / 2).
    set (tol := tolerance c).
    assert (K : forall od : R, (exists p', (if overshoot_enable b then
        match (if if Rlt_dec tol od then true else false then Some (padd (N := ROps) (c_p2 (last p2 s)) (from_polar (N := ROps) od (seg_end_angle (last p2 s)))) else None) with
        | Some e => if soft_landing b && (if Rlt_dec tol (tool_trail_offset b) then true else false)
            then Ok ((p2 ++ [plain (SLine (Ln (c_p2 (last p2 s)) e))]) ++ [set_z (plain (SLine (Ln e (padd (N := ROps) e (from_polar (N := ROps) (tool_trail_offset b) (seg_end_angle (last p2 s))))))) 0])
            else Ok (p2 ++ [plain (SLine (Ln (c_p2 (last p2 s)) e))])
        | None => if soft_landing b && (if Rlt_dec tol (tool_trail_offset b) then true else false) then Raise UnboundLocalError else Ok p2
        end else Ok p2) = Ok p') <->
      s :: mid <> [] /\ ~ (overshoot_enable b = true /\ soft_landing b = true /\ tol < tool_trail_offset b /\ ~ tol < od)).
    { intros od. destruct (overshoot_enable b); [|split; [intros _; split; [discriminate|intros (H & _); discriminate]|intros _; eexists; reflexivity]].
      destruct (Rlt_dec tol od) as [L|L]; [|destruct (soft_landing b); [destruct (Rlt_dec tol (tool_trail_offset b)) as [L2|L2]|]]; cbn [andb].
      - split; [intros _; split; [discriminate|tauto]|]. intros _. match goal with |- context [if ?x then _ else Ok _] => destruct x end; eexists; reflexivity.
      - split; [intros (p' & H); discriminate|]. intros (_ & H). exfalso. apply H. auto.
      - split; [intros _; split; [discriminate|tauto]|]. intros _. eexists; reflexivity.
      - split; [intros _; split; [discriminate|intros (_ & H & _); discriminate]|]. intros _. eexists; reflexivity. }
    specialize (K (if overshoot_auto b then tool_width b / 2 else overshoot_distance b)). rewrite <- K. clear K.
    match goal with |- (exists p', ?x = _) <-> (exists p'', ?y = _) => replace y with x; [tauto|] end.
    destruct (overshoot_enable b); [|reflexivity]. set (od := if overshoot_auto b then _ else _). destruct (Rlt_dec tol od); reflexivity.
  Qed.
  Theorem C118_no_overshoot_refuted (c : config ROps) k (b : brush ROps) (p : Path) : p <> [] -> lifts_off_at_once (tolerance c) b ->
    process_brush_path c k b p = Raise UnboundLocalError.
  Proof.
    intros NE (A & B & L & L2). destruct p as [|s mid]; [congruence|]. unfold process_brush_path, overshoot_length in *. cbv beta iota zeta.
    match goal with |- context [last ?q s] => set (p2 := q); clearbody p2 end. rewrite !ltb_dec, A, B.
    change (Num.div (n := ROps) (tool_width b) (Num.of_Z (n := ROps) 2)) with (tool_width b / 2).
    destruct (Rlt_dec (tolerance c) (tool_trail_offset b)) as [_|N]; [|contradiction].
    match goal with |- context [Rlt_dec ?t ?x] => destruct (Rlt_dec t x) as [L3|_] end; [contradiction|]. reflexivity.
  Qed.

  (** With brush reloading switched on no job that has anything to draw is completed. *)
  Lemma one_pass_never c k b text depth : reload_enable b = true -> forall (l : list Path) i pass st, (path_count_start k <= i)%Z ->
    (exists p, In p l /\ p <> []) -> snd (one_pass c k (paint_rapid_to_path c k b) text i pass depth l st) <> Ok tt.
  Proof.
    intros RE. induction l as [|p l IH]; intros i pass st LE (q & I & NE); [destruct I|]. cbn [one_pass]. unfold cseq, cbind.
    destruct p as [|s p].
    - cbn [negb andb cret]. apply IH; [lia|]. destruct I as [<-|I]; [congruence|eauto].
    - cbn [negb andb]. replace (Z.leb (path_count_start k) i) with true by (symmetry; apply Z.leb_le; auto).
      unfold cut_path, cseq, cbind at 1. destruct (call c (OComment CNone false) st) as [s1 [[]|e]]; [|discriminate].
      unfold cbind at 1. destruct (call c _ s1) as [s2 [[]|e]]; [|discriminate]. unfold cbind at 1, paint_rapid_to_path. rewrite RE. discriminate.
  Qed.
  Theorem C118_reload_refuted fuel (c : config ROps) k (b : brush ROps) today text ct (l : list Path) : reload_enable b = true ->
    path_sort_method k = None -> path_split_cusps k = false -> overshoot_enable b = false -> soft_landing b = false ->
    (path_count_start k <= 1)%Z -> (exists p, In p l /\ p <> []) ->
    snd (paint_job fuel c k b today text ct l) <> Ok tt.
  Proof.
    intros RE SM SC OE SL LE EX. unfold paint_job, generate_gcode, lift, cbind at 1. rewrite SM. unfold cbind at 1.
    assert (PP : preprocess k l = Ok l) by (clear EX; induction l as [|p l IH]; [reflexivity|]; cbn [preprocess]; rewrite SC, IH; reflexivity). rewrite PP. cbn [rbind].
    assert (PA : paint_paths c k b l = Ok l).
    { clear EX PP. induction l as [|p l IH]; [reflexivity|]. cbn [paint_paths]. rewrite OE, SL, IH. reflexivity. }
    rewrite PA. set (c' := job_config c (List.length l) ct). unfold cseq, cbind at 1. destruct (call c' (OHeader today None) cam_start) as [s1 [[]|e]]; [|discriminate].
    unfold cbind at 1. destruct (call c' _ s1) as [s2 [[]|e]]; [|discriminate]. unfold cbind at 1.
    assert (H : snd (depth_loop fuel c' k (paint_rapid_to_path c' k b) text l (eff_step k) (z_depth k) 1 (first_depth k) s2) <> Ok tt).
    { pose proof (first_depth_ge k) as G. destruct fuel as [|f]; cbn [depth_loop].
      - match goal with |- context [if ?x then _ else _] => replace x with true; [discriminate|symmetry] end. apply Rleb_true. exact G.
      - match goal with |- context [if ?x then _ else _] => replace x with true; [|symmetry; apply Rleb_true; exact G] end.
        unfold cseq, cbind. pose proof (one_pass_never c' k b text (first_depth k) RE l 1%Z 1%Z s2 LE EX) as X.
        destruct (one_pass c' k (paint_rapid_to_path c' k b) text 1 1 (first_depth k) l s2) as [s3 [[]|e]]; [contradiction X; reflexivity|discriminate]. }
    destruct (depth_loop _ _ _ _ _ _ _ _ _ _ _) as [s3 [[]|e]]; [contradiction H; reflexivity|discriminate].
  Qed.
End Brush.

(** ** Concrete cases *)
Definition full_brush : brush ROps := mkbrush (N := ROps) true true 0 true 3 false 2 (1/2).
Definition stroke1 : Path := [plain (SLine (Ln (P 0 0) (P 4 0))); plain (SLine (Ln (P 4 0) (P 4 4)))].
Theorem C118_example : proper (geo (hd (plain (SLine (Ln (P 0 0) (P 1 1)))) stroke1)) /\ ~ lifts_off_at_once (1/10) full_brush /\
  approach (1/10) full_brush (-5) = [(1/2, Some (-5)); (3, None)] /\ departure (1/10) full_brush = [(1, None); (1/2, Some 0)] /\
  lifts_off_at_once (1/10) (mkbrush (N := ROps) true false 0 true 3 false 2 (1/2)).
Proof.
  assert (A : forall d, 1/10 < d -> forall z, asked (1/10) d z = [(d, z)]) by (intros d D z; unfold asked; destruct (Rlt_dec (1/10) d); [reflexivity|contradiction]).
  split.
  { cbn [stroke1 hd geo plain proper]. unfold seg_len. cbn [p1 p2].
    rewrite (euclid_unique (P 0 0) (P 4 0) 4); cbn; lra. }
  split. { unfold lifts_off_at_once, overshoot_length. cbn. intros (_ & _ & _ & H). apply H. lra. }
  split. { unfold approach. cbn [full_brush soft_landing tool_trail_offset landing_strip]. rewrite !A by lra. reflexivity. }
  split. { unfold departure, overshoot_length. cbn [full_brush soft_landing tool_trail_offset overshoot_enable overshoot_auto tool_width]. rewrite !A by lra. cbn [app]. do 3 f_equal. lra. }
  unfold lifts_off_at_once, overshoot_length. cbn. repeat split; lra.
Qed.
