(** * GeomProofs3: clipping and arcs over R. *)
From Verif Require Import Num NumR Geom GeomR GeomSpec GeomProofs GeomProofs2.
From Coq Require Import ZArith Reals Lra Lia Bool List Psatz.
Import ListNotations.
Local Open Scope R_scope.

Section C.
  Context {E : Epsilon ROps}.
  Hypothesis He : 0 < EPS.
  Definition not_tiny (d : R) : Prop := d = 0 \/ EPS <= Rabs d.

  Lemma clipT_exact q p u0 u1 v0 v1 : not_tiny p -> u0 <= u1 -> clipT q p (u0, u1) = Some (v0, v1) ->
    u0 <= v0 /\ v0 <= v1 /\ v1 <= u1 /\ forall u, u0 <= u <= u1 -> (v0 <= u <= v1 <-> q <= u * p).
  Proof.
    intros T Hu H. destruct (clipT_some He q p u0 u1 v0 v1 Hu H) as (A & B & C & D & F).
    repeat split; auto.
    - intros. destruct T as [->|T]; [rewrite Rabs_R0 in F; lra|]. apply D; auto.
    - destruct T as [->|T]; [rewrite Rabs_R0 in F; lra|]. apply (D T u); auto.
    - destruct T as [->|T]; [rewrite Rabs_R0 in F; lra|]. apply (D T u); auto.
  Qed.
  Lemma clipT_exact_none q p u0 u1 : not_tiny p -> clipT q p (u0, u1) = None ->
    forall u, u0 <= u <= u1 -> u * p < q.
  Proof.
    intros T H u Hu. destruct (clipT_none He q p u0 u1 H) as (A & B).
    destruct T as [->|T]; [rewrite Rabs_R0 in B; lra|]. apply A; auto.
  Qed.
  (** With a tiny direction a step tests the start point only. *)
  Lemma clipT_near q p u0 u1 v0 v1 : clipT q p (u0, u1) = Some (v0, v1) -> 0 <= u0 -> u0 <= u1 <= 1 ->
    forall u, v0 <= u <= v1 -> q <= u * p + EPS.
  Proof.
    intros H Hu0 Hu u Hv. destruct (clipT_some He q p u0 u1 v0 v1 ltac:(lra) H) as (A & B & C & D & F).
    destruct (Rlt_le_dec (Rabs p) EPS) as [L|G].
    - destruct (F L) as (F1 & F2 & F3). apply Rabs_def2 in L. nra.
    - assert (q <= u * p) by (apply (D G u); lra). lra.
  Qed.

  Lemma line_inside_true (b : Box_) (l : Line_) : line_inside b l = true -> in_box b (p1 l) /\ in_box b (p2 l).
  Proof.
    unfold line_inside, point_inside, xmin, xmax, ymin, ymax, in_box. rnum. rewrite !andb_true_iff, !Rltb_true. lra.
  Qed.

  Theorem clip_shape (b : Box_) (l m : Line_) : clip_line b l = Some m ->
    exists u0 u1, 0 <= u0 /\ u0 <= u1 /\ u1 <= 1 /\ p1 m = at_param l u0 /\ p2 m = at_param l u1 /\
      (forall u, u0 <= u <= u1 ->
         px (b1 b) - EPS <= px (at_param l u) <= px (b2 b) + EPS /\
         py (b1 b) - EPS <= py (at_param l u) <= py (b2 b) + EPS) /\
      (not_tiny (px (p2 l) - px (p1 l)) -> not_tiny (py (p2 l) - py (p1 l)) ->
       forall u, 0 <= u <= 1 -> (u0 <= u <= u1 <-> in_box b (at_param l u))).
  Proof.
    unfold clip_line. destruct (line_inside b l) eqn:I.
    - intros [= <-]. apply line_inside_true in I as [[I1 I2] [I3 I4]].
      exists 0, 1. split; [lra|]. split; [lra|]. split; [lra|].
      assert (K : forall u, 0 <= u <= 1 -> in_box b (at_param l u)).
      { intros u Hu. destruct l as [[x1 y1] [x2 y2]], b as [[a c] [d e]]; unfold in_box, at_param in *; cbn [px py p1 p2 b1 b2] in *; rnum. nra. }
      split; [destruct l as [[? ?] [? ?]]; ptx; ring|]. split; [destruct l as [[? ?] [? ?]]; ptx; ring|]. split.
      + intros u Hu. destruct (K u Hu). lra.
      + intros _ _ u Hu. split; auto.
    - destruct l as [[x1 y1] [x2 y2]], b as [[xa ya] [xb yb]]. unfold xmin, xmax, ymin, ymax, in_box, at_param.
      cbn [px py p1 p2 b1 b2]. rnum.
      match goal with |- context [@clipT ROps E ?q ?p ?u] => destruct (@clipT ROps E q p u) as [[a0 a1]|] eqn:C1; [|cbn [obind]; discriminate] end. cbn [obind].
      match goal with |- context [@clipT ROps E ?q ?p ?u] => destruct (@clipT ROps E q p u) as [[c0 c1]|] eqn:C2; [|cbn [obind]; discriminate] end. cbn [obind].
      match goal with |- context [@clipT ROps E ?q ?p ?u] => destruct (@clipT ROps E q p u) as [[d0 d1]|] eqn:C3; [|cbn [obind]; discriminate] end. cbn [obind].
      match goal with |- context [@clipT ROps E ?q ?p ?u] => destruct (@clipT ROps E q p u) as [[e0 e1]|] eqn:C4; [|cbn [obind]; discriminate] end. cbn [obind fst snd].
      intros H.
      destruct (clipT_some He _ _ _ _ _ _ Rle_0_1 C1) as (A1 & B1 & D1 & _).
      destruct (clipT_some He _ _ _ _ _ _ B1 C2) as (A2 & B2 & D2 & _).
      destruct (clipT_some He _ _ _ _ _ _ B2 C3) as (A3 & B3 & D3 & _).
      destruct (clipT_some He _ _ _ _ _ _ B3 C4) as (A4 & B4 & D4 & _).
      exists e0, e1. split; [lra|]. split; [lra|]. split; [lra|].
      assert (M : p1 m = P (x1 + e0 * (x2 - x1))%R (y1 + e0 * (y2 - y1))%R /\ p2 m = P (x1 + e1 * (x2 - x1))%R (y1 + e1 * (y2 - y1))%R).
      { injection H as <-. cbn [p1 p2]. split.
        - destruct (Rltb 0 e0) eqn:L; [reflexivity|]. rbool. assert (e0 = 0) by lra. subst e0. ptx; ring.
        - destruct (Rltb e1 1) eqn:L; [reflexivity|]. rbool. assert (e1 = 1) by lra. subst e1. ptx; ring. }
      destruct M as [M1 M2]. split; [exact M1|]. split; [exact M2|]. split.
      + intros u Hu.
        pose proof (clipT_near _ _ _ _ _ _ C1 ltac:(lra) ltac:(lra) u ltac:(lra)).
        pose proof (clipT_near _ _ _ _ _ _ C2 ltac:(lra) ltac:(lra) u ltac:(lra)).
        pose proof (clipT_near _ _ _ _ _ _ C3 ltac:(lra) ltac:(lra) u ltac:(lra)).
        pose proof (clipT_near _ _ _ _ _ _ C4 ltac:(lra) ltac:(lra) u ltac:(lra)). nra.
      + intros T1 T2 u Hu.
        assert (T1' : not_tiny (- (x2 - x1))) by (destruct T1 as [Z|Z]; [left; lra|right; now rewrite Rabs_Ropp]).
        assert (T2' : not_tiny (- (y2 - y1))) by (destruct T2 as [Z|Z]; [left; lra|right; now rewrite Rabs_Ropp]).
        destruct (clipT_exact _ _ _ _ _ _ T1 Rle_0_1 C1) as (_ & _ & _ & X1).
        destruct (clipT_exact _ _ _ _ _ _ T1' B1 C2) as (_ & _ & _ & X2).
        destruct (clipT_exact _ _ _ _ _ _ T2 B2 C3) as (_ & _ & _ & X3).
        destruct (clipT_exact _ _ _ _ _ _ T2' B3 C4) as (_ & _ & _ & X4).
        split.
        * intros Hv. pose proof (proj1 (X1 u Hu) ltac:(lra)). pose proof (proj1 (X2 u ltac:(lra)) ltac:(lra)).
          pose proof (proj1 (X3 u ltac:(lra)) ltac:(lra)). pose proof (proj1 (X4 u ltac:(lra)) ltac:(lra)). nra.
        * intros [[G1 G2] [G3 G4]].
          assert (S1 : a0 <= u <= a1) by (apply X1; [lra|nra]).
          assert (S2 : c0 <= u <= c1) by (apply X2; [lra|nra]).
          assert (S3 : d0 <= u <= d1) by (apply X3; [lra|nra]).
          apply X4; [lra|nra].
  Qed.

  Theorem clip_none (b : Box_) (l : Line_) : clip_line b l = None ->
    not_tiny (px (p2 l) - px (p1 l)) -> not_tiny (py (p2 l) - py (p1 l)) ->
    forall u, 0 <= u <= 1 -> ~ in_box b (at_param l u).
  Proof.
    unfold clip_line. destruct (line_inside b l) eqn:I; [discriminate|].
    destruct l as [[x1 y1] [x2 y2]], b as [[xa ya] [xb yb]]. unfold xmin, xmax, ymin, ymax, in_box, at_param.
    cbn [px py p1 p2 b1 b2]. rnum. intros H T1 T2 u Hu [[G1 G2] [G3 G4]].
    assert (T1' : not_tiny (- (x2 - x1))) by (destruct T1 as [Z|Z]; [left; lra|right; now rewrite Rabs_Ropp]).
    assert (T2' : not_tiny (- (y2 - y1))) by (destruct T2 as [Z|Z]; [left; lra|right; now rewrite Rabs_Ropp]).
    match type of H with context [@clipT ROps E ?q ?p ?u] => destruct (@clipT ROps E q p u) as [[a0 a1]|] eqn:C1 end; cbn [obind] in H;
      [|pose proof (clipT_exact_none _ _ _ _ T1 C1 u Hu); nra].
    destruct (clipT_exact _ _ _ _ _ _ T1 Rle_0_1 C1) as (_ & B1 & _ & X1).
    assert (S1 : a0 <= u <= a1) by (apply X1; [lra|nra]).
    match type of H with context [@clipT ROps E ?q ?p ?u] => destruct (@clipT ROps E q p u) as [[c0 c1]|] eqn:C2 end; cbn [obind] in H;
      [|pose proof (clipT_exact_none _ _ _ _ T1' C2 u S1); nra].
    destruct (clipT_exact _ _ _ _ _ _ T1' B1 C2) as (_ & B2 & _ & X2).
    assert (S2 : c0 <= u <= c1) by (apply X2; [lra|nra]).
    match type of H with context [@clipT ROps E ?q ?p ?u] => destruct (@clipT ROps E q p u) as [[d0 d1]|] eqn:C3 end; cbn [obind] in H;
      [|pose proof (clipT_exact_none _ _ _ _ T2 C3 u S2); nra].
    destruct (clipT_exact _ _ _ _ _ _ T2 B2 C3) as (_ & B3 & _ & X3).
    assert (S3 : d0 <= u <= d1) by (apply X3; [lra|nra]).
    match type of H with context [@clipT ROps E ?q ?p ?u] => destruct (@clipT ROps E q p u) as [[e0 e1]|] eqn:C4 end; cbn [obind] in H; [discriminate|].
    pose proof (clipT_exact_none _ _ _ _ T2' C4 u S3). nra.
  Qed.

  (** ** Arcs *)
  Lemma turned_0 (o p : Pt) : turned o 0 p = p.
  Proof. destruct o, p. unfold turned. rewrite cos_0, sin_0. ptx; ring. Qed.
  Lemma turned_add (o p : Pt) a b : turned o a (turned o b p) = turned o (a + b) p.
  Proof.
    destruct o, p. unfold turned. rewrite cos_plus, sin_plus. ptx; ring.
  Qed.
  Lemma turned_dist (o p : Pt) a : euclid (turned o a p) o = euclid p o.
  Proof.
    apply euclid_unique; [apply euclid_pos|]. rewrite euclid_sqr. destruct o as [ox oy], p as [x y].
    unfold turned. cbn [px py]. rnum. pose proof (sin2_cos2 a) as Q. unfold Rsqr in Q.
    set (c := cos a) in *. set (s := sin a) in *. set (X := x - ox). set (Y := y - oy).
    replace (ox + (c * X - s * Y) - ox) with (c * X - s * Y) by ring.
    replace (oy + (s * X + c * Y) - oy) with (s * X + c * Y) by ring.
    replace ((c * X - s * Y) * (c * X - s * Y) + (s * X + c * Y) * (s * X + c * Y))
      with ((s * s + c * c) * (X * X + Y * Y)) by ring. rewrite Q. ring.
  Qed.

  (** The point at angle [t] from the start in the arc's direction. *)
  Lemma apoint_turned (a : Arc_) t : euclid (ap1 a) (center a) = radius a ->
    0 < t < Rabs (sweep a) ->
    apoint_at_angle a t = turned (center a) (if Rltb (sweep a) 0 then - t else t) (ap1 a).
  Proof.
    intros Hr [H0 H1]. unfold apoint_at_angle. rnum.
    destruct (Rleb t 0) eqn:L; [rbool; lra|]. destruct (Rleb (Rabs (sweep a)) t) eqn:G; [rbool; lra|].
    destruct a as [[x1 y1] q r sw [cx cy]]. cbn [ap1 radius center sweep] in *.
    rewrite euclid_hypot in Hr. cbn [px py] in *. rnum.
    unfold pangle. cbn [px py psub]. rnum.
    destruct (atan2_polar (y1 - cy) (x1 - cx)) as [PC PS]. rewrite Hr in PC, PS.
    set (s := Ratan2 (y1 - cy) (x1 - cx)) in *. unfold turned. cbn [px py]. rnum.
    rewrite <- PC, <- PS.
    destruct (Rltb sw 0); ptx; unfold Rminus; rewrite ?cos_plus, ?sin_plus, ?cos_neg, ?sin_neg; ring.
  Qed.

  Theorem arc_point (a : Arc_) mu : wf_arc a -> 0 <= mu <= 1 ->
    apoint_at a mu = turned (center a) (sweep a * mu) (ap1 a).
  Proof.
    intros (Hr & Hd & H2) Hm. unfold apoint_at. rnum.
    destruct (Req_dec (sweep a) 0) as [Z|Z].
    { rewrite Z, Rabs_R0. replace (0 * mu) with 0 by ring. rewrite turned_0.
      unfold apoint_at_angle. rnum. destruct (Rleb 0 0) eqn:L; [reflexivity|]. rbool. lra. }
    assert (Hs : 0 < Rabs (sweep a)) by now apply Rabs_pos_lt.
    destruct (Req_dec mu 0) as [M0|M0].
    { rewrite M0. replace (Rabs (sweep a) * 0) with 0 by ring. replace (sweep a * 0) with 0 by ring. rewrite turned_0.
      unfold apoint_at_angle. rnum. destruct (Rleb 0 0) eqn:L; [reflexivity|]. rbool. lra. }
    destruct (Req_dec mu 1) as [M1|M1].
    { rewrite M1. rewrite !Rmult_1_r, <- H2.
      unfold apoint_at_angle. rnum. destruct (Rleb (Rabs (sweep a)) 0) eqn:L; [rbool; lra|].
      destruct (Rleb (Rabs (sweep a)) (Rabs (sweep a))) eqn:G; [reflexivity|]. rbool. lra. }
    rewrite apoint_turned by (auto; nra). f_equal.
    destruct (Rltb (sweep a) 0) eqn:L; rbool.
    - rewrite Rabs_left by lra. ring.
    - rewrite Rabs_pos_eq by lra. ring.
  Qed.

  Lemma wf_reversed (a : Arc_) : wf_arc a -> wf_arc (areversed a).
  Proof.
    intros (Hr & Hd & H2). unfold wf_arc, areversed. cbn [ap1 ap2 radius center sweep]. rnum. repeat split; auto.
    - rewrite H2. rewrite turned_dist. auto.
    - rewrite H2, turned_add. replace (- sweep a + sweep a) with 0 by ring. now rewrite turned_0.
  Qed.

  Theorem arc_reversed_points (a : Arc_) mu : wf_arc a -> 0 <= mu <= 1 ->
    apoint_at (areversed a) mu = apoint_at a (1 - mu)%R.
  Proof.
    intros W Hm. rewrite (arc_point a) by (auto; lra). rewrite (arc_point (areversed a)) by (auto using wf_reversed).
    destruct W as (Hr & Hd & H2). unfold areversed. cbn [ap1 ap2 radius center sweep]. rnum.
    rewrite H2, turned_add. f_equal. ring.
  Qed.

  Theorem arc_subdivide_ccw (a : Arc_) mu : wf_arc a -> 0 < sweep a -> EPS <= mu -> mu < 1 ->
    EPS <= sweep a * mu ->
    exists a1 a2, asubdivide a mu = [a1; a2] /\ wf_arc a1 /\ wf_arc a2 /\
      ap1 a1 = ap1 a /\ ap2 a1 = apoint_at a mu /\ ap1 a2 = ap2 a1 /\ ap2 a2 = ap2 a /\
      radius a1 = radius a /\ radius a2 = radius a /\ center a1 = center a /\ center a2 = center a /\
      sweep a1 = sweep a * mu /\ sweep a1 + sweep a2 = sweep a.
  Proof.
    intros W Hs M0 M1 M2. pose proof W as (Hr & Hd & H2).
    assert (Hsm : 0 < sweep a * (1 - mu)) by (apply Rmult_lt_0_compat; lra).
    assert (Hsp : 0 < sweep a * mu) by (apply Rmult_lt_0_compat; lra).
    unfold asubdivide. rnum. destruct (Rltb mu EPS) eqn:L; [rbool; lra|]. destruct (Rleb 1 mu) eqn:G; [rbool; lra|].
    cbn [orb]. unfold asubdivide_at_angle. rnum. rewrite (Rabs_pos_eq (sweep a)) by lra.
    destruct (Rltb (sweep a * mu) EPS) eqn:L2; [rbool; lra|].
    destruct (Rleb (sweep a) (sweep a * mu)) eqn:L3; [rbool; lra|]. cbn [orb].
    destruct (Rltb (sweep a) 0) eqn:L4; [rbool; lra|].
    assert (K : apoint_at_angle a (sweep a * mu) = turned (center a) (sweep a * mu) (ap1 a)).
    { rewrite apoint_turned; auto; [|rewrite Rabs_pos_eq by lra; lra]. now rewrite L4. }
    assert (K2 : apoint_at a mu = turned (center a) (sweep a * mu) (ap1 a)) by (apply arc_point; auto; lra).
    eexists _, _. split; [reflexivity|]. unfold wf_arc. cbn [ap1 ap2 radius center sweep]. rnum.
    rewrite K, K2. repeat split; auto; try (toR; ring).
    - rewrite turned_dist. auto.
    - rewrite turned_add. rewrite H2. replace (sweep a - sweep a * mu + sweep a * mu)%R with (sweep a); [reflexivity|]. lra.
  Qed.
  Theorem arc_subdivide_cw (a : Arc_) mu : sweep a < 0 -> asubdivide a mu = [a].
  Proof.
    intros Hs. unfold asubdivide. rnum. destruct (Rltb mu EPS) eqn:L; [reflexivity|].
    destruct (Rleb 1 mu) eqn:G; [reflexivity|]. cbn [orb]. unfold asubdivide_at_angle. rnum. rbool.
    destruct (Rleb (sweep a) (Rabs (sweep a) * mu)) eqn:L3; [now rewrite orb_true_r|].
    rbool. pose proof (Rabs_pos (sweep a)). nra.
  Qed.

  Theorem arc_offset (a : Arc_) d : wf_arc a -> 0 < radius a + d ->
    exists a', aoffset a d = Ok a' /\ wf_arc a' /\ radius a' = radius a + d /\ center a' = center a /\
      sweep a' = sweep a /\ forall mu, 0 <= mu <= 1 ->
        apoint_at a' mu = at_param (Ln (center a) (apoint_at a mu)) ((radius a + d) / radius a).
  Proof.
    intros W Hd'. pose proof W as (Hr & Hd & H2).
    assert (X : forall q, euclid q (center a) = radius a ->
       extend (Ln (center a) q) d false = Ok (Ln (center a) (at_param (Ln (center a) q) ((radius a + d) / radius a)))).
    { intros q Hq. unfold extend. rewrite seg_len_llen. unfold seg_len. cbn [p1 p2]. rewrite euclid_sym, Hq.
      unfold pydiv. rnum. destruct (Reqb (radius a) 0) eqn:Z; [rbool; lra|]. cbn [rmap]. do 2 f_equal.
      destruct (center a) as [cx cy], q as [x y]. unfold at_param. gunf. ptx; field; lra. }
    unfold aoffset. rewrite X by auto. cbn [rbind]. rewrite X by (rewrite H2, turned_dist; auto). cbn [rbind p2].
    eexists. split; [reflexivity|].
    set (k := (radius a + d) / radius a) in *.
    assert (Kp : 0 < k) by (apply Rdiv_lt_0_compat; lra).
    assert (T : forall t, turned (center a) t (at_param (Ln (center a) (ap1 a)) k) = at_param (Ln (center a) (turned (center a) t (ap1 a))) k).
    { intros t. destruct (center a) as [cx cy], (ap1 a) as [x y]. unfold turned, at_param. ptx; ring. }
    match goal with |- wf_arc ?b /\ _ => assert (W' : wf_arc b) end.
    { unfold wf_arc. cbn [ap1 ap2 radius center sweep]. rnum. repeat split; auto.
      - replace (center a) with (at_param (Ln (center a) (ap1 a)) 0) at 2 by (destruct (center a), (ap1 a); ptx; ring).
        rewrite euclid_at. unfold seg_len. cbn [p1 p2]. rewrite euclid_sym, Hd. rewrite Rabs_pos_eq by lra.
        unfold k. field. lra.
      - rewrite T, <- H2. reflexivity. }
    split; [exact W'|]. repeat split; auto. intros mu Hm. rewrite (arc_point _ mu W' Hm), (arc_point a mu W Hm).
    cbn [ap1 ap2 radius center sweep]. apply T.
  Qed.

  (** Tangent directions. *)
  Lemma polar_of_normalized (v : Pt) : 0 < Rhypot (px v) (py v) ->
    let t := @normalize_angle ROps (pangle v + pi / of_Z 2)%num (of_Z 0) in
    Rhypot (px v) (py v) * cos t = - py v /\ Rhypot (px v) (py v) * sin t = px v.
  Proof.
    intros H. cbv zeta. rewrite (congruent_cos _ _ (normalize_congr _ _)), (congruent_sin _ _ (normalize_congr _ _)).
    unfold pangle. rnum. destruct (atan2_polar (py v) (px v)) as [A B].
    rewrite cos_plus, sin_plus, cos_PI2, sin_PI2. split; lra.
  Qed.
End C.
