(** * PropsCam4: the tangential tool (C64).  See [PropsCam] for the conventions. *)
From Verif Require Import Num NumR NumF64 Str Gcode GcodeSpec GcodeProofs GcodeProofs2 GcodeProofs3 GcodeProofs4 GcodeR
  Geom GeomSpec GeomR GeomProofs Cam CamSpec CamProofs1 CamProofs2 CamProofs3 CamProofs4 CamR PropsGcode PropsGeom PropsCam PropsCam2 PropsCam3.
From Coq Require Import String ZArith NArith Reals Lra Lia List Bool.
Import ListNotations.
Local Open Scope string_scope.
Local Open Scope R_scope.

Section Spec.
  Context {E : Epsilon ROps}.
  Notation path := (list (cseg ROps)).
  (** The tool angle [a] points along direction [t], up to full turns and EPS. *)
  Definition points_along (a t : R) : Prop := exists n : Z, Rabs (a - (t + 2 * PI * IZR n)) < EPS.
  (** The heading of a segment at its ends: its hint or else its tangent. *)
  Definition start_heading (s : cseg ROps) : R := match inline_sa s with Some a => a | None => s_start_tangent (geo s) end.
  Definition end_heading (s : cseg ROps) : R := match inline_ea s with Some a => a | None => s_end_tangent (geo s) end.
  (** The A word of the call that cuts segment [s]. *)
  Definition cut_with (a : R) (depth : R) (s : cseg ROps) (o : @op ROps) : Prop :=
    o = @OFeed ROps (Some (px (s_p2 (geo s)))) (Some (py (s_p2 (geo s)))) (Some (cut_height (N := ROps) depth s)) (Some a) None None \/
    exists ar, geo s = SArc ar /\
      o = @OArc ROps (Num.ltb (sweep ar) (of_Z 0)) (px (ap2 ar)) (py (ap2 ar))
             (Num.sub (px (center ar)) (px (ap1 ar))) (Num.sub (py (center ar)) (py (ap1 ar)))
             (Some a) (Some (cut_height (N := ROps) depth s)) None None.
  (** [turning depth a p ops]: starting with the tool at angle [a], the calls [ops]
      cut [p]; each cut starts with the tool along the segment (if it is not, it is
      turned in place by at most half a turn) and, while cutting, the tool turns by
      at most half a turn to the heading at the end of the segment. *)
  Inductive turning (depth : R) : R -> path -> list (@op ROps) -> Prop :=
  | tn_nil a : turning depth a [] []
  | tn_seg a b a' s p rot o ops :
      (b = a /\ rot = [] \/
       Rabs (b - a) <= PI /\ rot = [@OFeed ROps None None None (Some b) None None]) ->
      points_along b (start_heading s) ->
      points_along a' (end_heading s) -> Rabs (a' - b) <= PI ->
      cut_with a' depth s o ->
      turning depth a' p ops ->
      turning depth a (s :: p) (rot ++ o :: ops)%list.
  (** A path: the rapid already turns the tool to the first heading. *)
  Definition path_turns (depth : R) (p : path) (ops : list (@op ROps)) : Prop :=
    exists s r text a body,
      p = s :: r /\ points_along a (start_heading s) /\
      ops = (OComment CNone false :: OComment (CStr text) false ::
             @ORapid ROps (Some (px (s_p1 (geo s)))) (Some (py (s_p1 (geo s)))) None (Some a) None ::
             @OToolDown ROps (match inline_z s with Some _ => of_Z 0 | None => depth end) None None None ::
             OComment (CStr "Start tool path") false :: body)%list /\
      turning depth a p body.
  Definition follows_angle (p : path) : Prop := Forall (fun s => inline_ignore_a s = false) p.

  (** ** Proofs *)
  Hypothesis EPOS : 0 < EPS.
  Lemma turn_along (a t : R) : points_along (a + calc_rotation a t) t /\ Rabs (calc_rotation a t) <= PI.
  Proof.
    destruct (calc_rotation_congr a t) as (r & -> & B & n & [L|L]); (split; [|exact B]); exists n; [exact L|].
    rewrite L. rewrite Rminus_diag_eq by reflexivity. rewrite Rabs_R0. exact EPOS.
  Qed.
  Lemma small_turn (a t : R) : is_zero (calc_rotation (E := E) a t) = true -> points_along a t.
  Proof.
    intros H. destruct (Rlt_le_dec (Rabs (a - t)) EPS) as [L|L].
    - exists 0%Z. replace (a - (t + 2 * PI * 0)) with (a - t) by ring. exact L.
    - destruct (calc_rotation_far a t L) as [[k Hk] B]. exists k.
      unfold is_zero in H. revert H. rnum. intros H. apply andb_true_iff in H as [H1 H2]. rbool.
      replace (a - (t + 2 * PI * IZR k)) with (- calc_rotation a t) by (rewrite Hk; ring).
      rewrite Rabs_Ropp. apply Rabs_def1; assumption.
  Qed.
  Lemma heading_start s : seg_start_angle s = start_heading s.
  Proof. unfold seg_start_angle, start_heading, dflt. destruct (inline_sa s); reflexivity. Qed.
  Lemma heading_end s : seg_end_angle s = end_heading s.
  Proof. unfold seg_end_angle, end_heading, dflt. destruct (inline_ea s); reflexivity. Qed.

  Lemma segment_turn (c : config ROps) k s depth st st' : enable_tangent k = true -> inline_ignore_a s = false ->
    segment_gcode c k s depth st = (st', Ok tt) ->
    exists rot o b, trace st' = (trace st ++ rot ++ [o])%list /\
      (b = current_angle st /\ rot = [] \/
       Rabs (b - current_angle st) <= PI /\ rot = [@OFeed ROps None None None (Some b) None None]) /\
      points_along b (start_heading s) /\ points_along (current_angle st') (end_heading s) /\
      Rabs (current_angle st' - b) <= PI /\ cut_with (current_angle st') depth s o.
  Proof.
    intros En Ig H. unfold segment_gcode in H. apply cseq_ok in H as (s0 & H0 & H). injection H0 as <-.
    apply cbind_ok in H as (s1 & ea & H1 & H). rewrite En, Ig in H1. cbn [orb negb] in H1.
    apply cbind_ok in H1 as (s2 & a & H2 & H1). injection H2 as <- <-. cbn [current_angle] in H1.
    set (rot0 := calc_rotation (current_angle st) (seg_start_angle s)) in *.
    apply cbind_ok in H1 as (s3 & u & H3 & H1). apply cbind_ok in H1 as (s4 & a & H4 & H1).
    injection H4 as <- <-. injection H1 as <- <-.
    assert (M : exists rot, trace s3 = (trace st ++ rot)%list /\
      (current_angle s3 = current_angle st /\ rot = [] \/
       Rabs (current_angle s3 - current_angle st) <= PI /\ rot = [@OFeed ROps None None None (Some (current_angle s3)) None None]) /\
      points_along (current_angle s3) (start_heading s)).
    { rewrite <- heading_start. destruct (is_zero rot0) eqn:Z.
      - injection H3 as <- _. cbn [trace current_angle]. exists []. rewrite app_nil_r. split; [reflexivity|].
        split; [left; auto|]. exact (small_turn _ _ Z).
      - apply cbind_ok in H3 as (s5 & [] & H5 & H3). injection H5 as <-. destruct u.
        unfold call in H3. cbn [gs trace current_angle feed_distance] in H3.
        destruct (exec c _ (gs st)) as [g r]. injection H3 as <- ->. cbn [trace current_angle].
        destruct (turn_along (current_angle st) (seg_start_angle s)) as [T1 T2]. fold rot0 in T1, T2.
        eexists. split; [reflexivity|]. split; [right; split; [|reflexivity]|exact T1].
        rnum. match goal with |- Rabs ?e <= _ => replace e with rot0 by ring end. exact T2. }
    destruct M as (rot & T & R & A). clear H3.
    set (b := current_angle s3) in *. set (ea := Num.add b (calc_rotation b (seg_end_angle s))) in *.
    apply cseq_ok in H as (s5 & H & H5). injection H5 as <-. cbn [trace current_angle].
    destruct (turn_along b (seg_end_angle s)) as [T1 T2]. rewrite heading_end in *. fold ea in T1.
    assert (Hb : Rabs (ea - b) <= PI).
    { unfold ea. rewrite ?heading_end. set (w := calc_rotation b (end_heading s)) in *. clearbody w b. rnum.
      match goal with |- Rabs ?e <= _ => replace e with w by ring end. exact T2. }
    assert (G : exists o, trace s5 = (trace s3 ++ [o])%list /\ cut_with ea depth s o).
    { destruct (geo s) as [l|ar] eqn:G0.
      - apply call_ok in H as [T0 _]. eexists. split; [exact T0|]. left. rewrite G0. reflexivity.
      - apply cbind_ok in H as (s6 & xy & H6 & H).
        assert (s6 = s3) as -> by (unfold get_xy in H6; destruct (vX _); [destruct (vY _)|]; congruence).
        destruct (negb (feq _ _)).
        + apply call_ok in H as [T0 _]. eexists. split; [exact T0|]. left. rewrite G0. reflexivity.
        + apply call_ok in H as [T0 _]. eexists. split; [exact T0|]. right. exists ar. split; [exact G0|reflexivity]. }
    destruct G as (o & T3 & G). exists rot, o, b. rewrite T3, T, <- app_assoc.
    split; [reflexivity|]. split; [exact R|]. split; [exact A|]. split; [exact T1|]. split; [exact Hb|exact G].
  Qed.
  Lemma segments_turn (c : config ROps) k depth p : enable_tangent k = true -> follows_angle p -> forall st st',
    segments_gcode c k p depth st = (st', Ok tt) ->
    exists ops, trace st' = (trace st ++ ops)%list /\ turning depth (current_angle st) p ops.
  Proof.
    intros En. induction 1 as [|s p Hs Hp IH]; intros st st' H.
    - injection H as <-. exists []. rewrite app_nil_r. split; [reflexivity|constructor].
    - cbn [segments_gcode] in H. apply cseq_ok in H as (s1 & H1 & H2).
      apply (segment_turn c k s depth st s1 En Hs) in H1 as (rot & o & b & T1 & R & A & B & C & D).
      apply IH in H2 as (ops & T2 & P2). exists (rot ++ o :: ops)%list.
      rewrite T2, T1, <- !app_assoc. split; [reflexivity|]. econstructor; eauto.
  Qed.
  Lemma path_turn (c : config ROps) k rapid : enable_tangent k = true ->
    (forall s r st st', rapid (s :: r) st = (st', Ok tt) -> points_along (current_angle st') (start_heading s) /\
      trace st' = (trace st ++ [@ORapid ROps (Some (px (s_p1 (geo s)))) (Some (py (s_p1 (geo s)))) None (Some (current_angle st')) None])%list) ->
    (forall st, snd (rapid [] st) <> Ok tt) ->
    path_ok c k rapid (fun d p ops => follows_angle p -> path_turns d p ops).
  Proof.
    intros En HR HE text p depth st st' H. unfold cut_path in H.
    apply cseq_ok in H as (s1 & H1 & H). apply call_ok in H1 as [T1 _].
    apply cseq_ok in H as (s2 & H2 & H). apply call_ok in H2 as [T2 _].
    apply cseq_ok in H as (s3 & H3 & H).
    apply cseq_ok in H as (s4 & H4 & H). pose proof H4 as X4. destruct p as [|s r]; [exfalso; apply (HE s2); now rewrite H3|].
    apply HR in H3 as (A & T3).
    apply call_ok in H4 as [T4 _].
    assert (C4 : current_angle s4 = current_angle s3).
    { cbn [plunge] in X4. unfold call in X4. destruct (exec _ _ _) as [g r0]. injection X4 as <- ->. reflexivity. }
    apply cseq_ok in H as (s5 & H5 & H). pose proof H5 as X5. apply call_ok in H5 as [T5 _].
    assert (C5 : current_angle s5 = current_angle s4).
    { unfold call in X5. destruct (exec _ _ _) as [g r0]. injection X5 as <- ->. reflexivity. }
    assert (Tt : exists ops, trace st' = (trace s5 ++ ops)%list /\ (follows_angle (s :: r) -> turning depth (current_angle s5) (s :: r) ops)).
    { destruct (segments_shape c k (s :: r) depth s5 st' H) as (ops & T & _). exists ops. split; [exact T|].
      intros F. destruct (segments_turn c k depth (s :: r) En F s5 st' H) as (ops' & T' & P').
      rewrite T in T'. apply app_inv_head in T'. now subst ops'. }
    destruct Tt as (body & T6 & B). eexists. split.
    2:{ intros F. exists s, r, text, (current_angle s3), body. split; [reflexivity|]. split; [exact A|]. split; [reflexivity|].
        rewrite <- C4, <- C5. exact (B F). }
    rewrite T6, T5, T4, T3, T2, T1, <- !app_assoc. reflexivity.
  Qed.
  Lemma rapid_turn (c : config ROps) k s r st st' : enable_tangent k = true ->
    rapid_to_path c k (s :: r) st = (st', Ok tt) -> points_along (current_angle st') (start_heading s) /\
      trace st' = (trace st ++ [@ORapid ROps (Some (px (s_p1 (geo s)))) (Some (py (s_p1 (geo s)))) None (Some (current_angle st')) None])%list.
  Proof.
    intros En H. cbn [rapid_to_path] in H. rewrite En in H. apply cseq_ok in H as (s1 & H1 & H).
    apply cbind_ok in H1 as (s2 & a & H2 & H1). injection H2 as <- <-. injection H1 as <-.
    apply cbind_ok in H as (s2 & a & H2 & H). injection H2 as <- <-. cbn [current_angle] in H.
    unfold call in H. cbn [gs trace current_angle feed_distance] in H. destruct (exec c _ _) as [g r0]. injection H as <- ->.
    cbn [current_angle trace]. split; [|reflexivity]. exact (proj1 (turn_along _ (seg_start_angle s))).
  Qed.

  (** ** C64 *)
  Theorem C64_tool_follows fuel (c : config ROps) k today text ct (l : list path) st' :
    enable_tangent k = true -> simple_job fuel c k today text ct l = (st', Ok tt) ->
    exists l' ds, job_program_of (fun d p ops => follows_angle p -> path_turns d p ops)
                    (home_when_done k) (path_count_start k) l' ds (trace st') /\
      (Forall follows_angle l -> Forall follows_angle l').
  Proof.
    intros En H. apply (job_shape_of fuel c k (preprocess k) _ (fun d p ops => follows_angle p -> path_turns d p ops)) in H
      as (l1 & l2 & ds & H1 & H2 & _ & JP).
    - exists l2, ds. split; [exact JP|]. intros F.
      apply (preprocess_forall _ k l1 l2 H2). unfold sorted_input in H1.
      destruct (path_sort_method k) as [m|]; [|injection H1 as <-; exact F].
      refine (sort_paths_forall _ _ _ m _ H1 F). reflexivity.
    - intros c'. apply path_turn; auto.
      + intros s r s0 s1. now apply rapid_turn.
      + intros s0. discriminate.
  Qed.
End Spec.

(** How much the tool turns while it cuts an arc. *)
Section Arcs.
  Context {E : Epsilon ROps}.
  Lemma congruent_of_trig a b : cos a = cos b -> sin a = sin b -> congruent a b.
  Proof.
    intros C S. destruct (normalize_congr a 0) as [i Hi]. destruct (normalize_congr b 0) as [j Hj].
    pose proof (normalize_range a 0) as Ra. pose proof (normalize_range b 0) as Rb. pose proof PI_RGT_0.
    set (a' := @normalize_angle ROps a 0) in *. set (b' := @normalize_angle ROps b 0) in *. clearbody a' b'.
    change (T ROps) with R in *.
    assert (Ca : cos a' = cos b' /\ sin a' = sin b').
    { rewrite (congruent_cos a' a), (congruent_cos b' b), (congruent_sin a' a), (congruent_sin b' b); auto; eexists; eassumption. }
    assert (a' = b').
    { destruct (Req_dec a' (- PI)) as [Ea|Na], (Req_dec b' (- PI)) as [Eb|Nb]; try lra.
      - exfalso. assert (b' = PI); [|lra]. apply angle_unique; try lra; destruct Ca as [X Y]; rewrite <- ?X, <- ?Y, Ea;
          [rewrite cos_neg; reflexivity|rewrite sin_neg, sin_PI; ring].
      - exfalso. assert (a' = PI); [|lra]. apply angle_unique; try lra; destruct Ca as [X Y]; rewrite ?X, ?Y, Eb;
          [rewrite cos_neg; reflexivity|rewrite sin_neg, sin_PI; ring].
      - apply angle_unique; try lra; apply Ca. }
    exists (j - i)%Z. rewrite minus_IZR. lra.
  Qed.
  Lemma arc_tangents (ar : arc ROps) : wf_arc ar -> sweep ar <> 0 ->
    congruent (aend_tangent ar) (astart_tangent ar + sweep ar).
  Proof.
    intros W NZ. destruct (C42_tangents ar W NZ) as ([C1 S1] & [C2 S2] & _).
    destruct W as (R0 & R1 & R2). set (k := if Rlt_dec _ _ then _ else _) in *.
    set (t1 := astart_tangent ar) in *. set (t2 := aend_tangent ar) in *. clearbody t1 t2 k.
    destruct ar as [[x1 y1] q r w [cx cy]]. cbn [ap1 ap2 radius sweep center px py] in *. subst q. unfold turned in *. cbn [px py] in *.
    change (T ROps) with R in *.
    apply congruent_of_trig; apply Rmult_eq_reg_l with r; try lra.
    - rewrite C2, cos_plus. replace (r * (cos t1 * cos w - sin t1 * sin w)) with (r * cos t1 * cos w - r * sin t1 * sin w) by ring.
      rewrite C1, S1. ring.
    - rewrite S2, sin_plus. replace (r * (sin t1 * cos w + cos t1 * sin w)) with (r * sin t1 * cos w + r * cos t1 * sin w) by ring.
      rewrite C1, S1. ring.
  Qed.
  Lemma turn_mod (ar : arc ROps) a b : wf_arc ar -> sweep ar <> 0 ->
    points_along b (astart_tangent ar) -> points_along a (aend_tangent ar) ->
    exists n : Z, Rabs (a - b - sweep ar - 2 * PI * IZR n) < 2 * EPS.
  Proof.
    intros W NZ [i Hi] [j Hj]. destruct (arc_tangents ar W NZ) as [m Hm]. rewrite Hm in Hj.
    exists (m + j - i)%Z. rewrite minus_IZR, plus_IZR.
    set (t := astart_tangent ar) in *. set (w := sweep ar) in *. clearbody t w. change (T ROps) with R in *.
    match goal with |- Rabs ?e < _ => replace e with
      ((a - (t + w + 2 * PI * IZR m + 2 * PI * IZR j)) - (b - (t + 2 * PI * IZR i))) by ring end.
    apply Rabs_def2 in Hi as [A B]. apply Rabs_def2 in Hj as [A' B']. apply Rabs_def1; lra.
  Qed.
  (** For an arc of less than half a turn the tool turns with the arc: by the sweep. *)
  Theorem C64_small_arc_partial (ar : arc ROps) a b : wf_arc ar -> sweep ar <> 0 -> 0 < EPS -> Rabs (sweep ar) + 2 * EPS < PI ->
    points_along b (astart_tangent ar) -> points_along a (aend_tangent ar) -> Rabs (a - b) <= PI ->
    Rabs (a - b - sweep ar) < 2 * EPS.
  Proof.
    intros W NZ EP Hs Hb Ha Hab. destruct (turn_mod ar a b W NZ Hb Ha) as [n Hn].
    set (w := sweep ar) in *. clearbody w. change (T ROps) with R in *.
    pose proof PI_RGT_0. assert (n = 0)%Z; [|subst n; rewrite Rmult_0_r, Rminus_0_r in Hn; exact Hn].
    apply Rabs_def2 in Hn as [A B].
    assert (B1 : - PI <= a - b <= PI) by (split; [pose proof (Rle_abs (- (a - b))) as X; rewrite Rabs_Ropp in X|pose proof (Rle_abs (a - b))]; lra).
    assert (B2 : - (PI - 2 * EPS) < w < PI - 2 * EPS).
    { split; [pose proof (Rle_abs (- w)) as X; rewrite Rabs_Ropp in X|pose proof (Rle_abs w)]; lra. }
    assert (L1 : -1 < IZR n) by nra. assert (L2 : IZR n < 1) by nra. apply lt_IZR in L1, L2. lia.
  Qed.
  (** For an arc of more than half a turn it turns the wrong way: by the sweep minus a
      full turn, so the tool does not follow the cut. *)
  Theorem C64_large_arc_refuted (ar : arc ROps) a b : wf_arc ar -> 0 < EPS < 1 -> PI + 2 * EPS <= sweep ar < 2 * PI ->
    points_along b (astart_tangent ar) -> points_along a (aend_tangent ar) -> Rabs (a - b) <= PI ->
    Rabs (a - b - (sweep ar - 2 * PI)) < 2 * EPS.
  Proof.
    intros W EP Hs Hb Ha Hab. pose proof PI_RGT_0. pose proof PI2_1.
    assert (NZ : sweep ar <> 0) by (intros Z; change (T ROps) with R in *; rewrite Z in Hs; lra).
    destruct (turn_mod ar a b W NZ Hb Ha) as [n Hn].
    set (w := sweep ar) in *. clearbody w. change (T ROps) with R in *.
    assert (n = -1)%Z; [|subst n; replace (a - b - (w - 2 * PI)) with (a - b - w - 2 * PI * -1) by ring; exact Hn].
    apply Rabs_def2 in Hn as [A B].
    assert (B1 : - PI <= a - b <= PI) by (split; [pose proof (Rle_abs (- (a - b))) as X; rewrite Rabs_Ropp in X|pose proof (Rle_abs (a - b))]; lra).
    assert (L1 : -2 < IZR n) by nra. assert (L2 : IZR n < 0) by nra. apply lt_IZR in L1, L2. lia.
  Qed.
End Arcs.
(** A completing job that meets the hypotheses: a line, then a quarter circle. *)
Example C64_example {E : Epsilon ROps} (c : config ROps) today text ct : 0 < tolerance c -> 0 < EPS <= 1 ->
  let k := @mkcam ROps true None (-1) (-3) true false 1 in
  let p := [plain (SLine (Ln (P 0 0) (P 1 0))); plain (SArc (mkarc (P 1 0) (P 2 1) 1 (PI / 2) (P 1 1)))] in
  exists fuel st', simple_job fuel c k today text ct [p] = (st', Ok tt) /\ enable_tangent k = true /\ follows_angle p.
Proof.
  intros Ht He k p. destruct (C65_completes c k today text ct [p] Ht) as (fuel & st' & H).
  - unfold step_of, k. cbn. destruct (Rlt_dec _ _); lra.
  - intros [H|[]]; discriminate.
  - split; discriminate.
  - exists fuel, st'. split; [exact H|]. split; [reflexivity|]. repeat constructor.
Qed.
Example C64_arc_example {E : Epsilon ROps} : 0 < EPS <= 1 / 100 ->
  let ar := mkarc (P 1 0) (P 2 1) 1 (PI / 2) (P 1 1) : arc ROps in
  wf_arc ar /\ sweep ar <> 0 /\ Rabs (sweep ar) + 2 * EPS < PI.
Proof.
  intros He ar. pose proof PI_RGT_0. pose proof PI2_1. split; [|split].
  - split; [cbn; lra|]. split; [apply euclid_unique; cbn; lra|].
    unfold turned. cbn. rewrite cos_PI2, sin_PI2. f_equal; ring.
  - cbn. lra.
  - cbn. rewrite Rabs_pos_eq by lra. lra.
Qed.
