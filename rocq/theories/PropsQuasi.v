(** * PropsQuasi: quasi-periodic tilings (C147, C148), over R. *)
From Verif Require Import Num NumR Geom GeomR GeomSpec GeomProofs GeomProofs2 Quasi.
From Coq Require Import ZArith Reals Lra Lia List Bool Permutation.
Import ListNotations.
Local Open Scope R_scope.

(** ** Specification *)
(** The directions of a tiling: [symmetry] unit vectors, equally spaced, the first one at the angle [first]. *)
Definition first_angle (o : qopts ROps) : R := if Nat.even (symmetry o) then q_tolerance o * 10 else 0.
Definition star (o : qopts ROps) (t : nat) : Pt :=
  let a := first_angle o + INR t * (2 * PI / INR (symmetry o)) in P (cos a) (sin a).
Definition plus (p v : Pt) : Pt := P (px p + px v) (py p + py v).
Definition times (k : R) (v : Pt) : Pt := P (k * px v) (k * py v).
(** The point reached from the origin with [k i] steps in the direction i *)
Fixpoint sum_to (n : nat) (f : nat -> Pt) : Pt := match n with O => P 0 0 | S n => plus (sum_to n f) (f n) end.
Definition lattice (o : qopts ROps) (k : list Z) : Pt := sum_to (symmetry o) (fun i => times (IZR (nth i k 0%Z)) (star o i)).
(** A tile: corner and two directions *)
Record tile_ := Tile { corner : Pt; side1 : Pt; side2 : Pt }.
Definition corners (t : tile_) : list Pt :=
  [corner t; plus (corner t) (side1 t); plus (plus (corner t) (side1 t)) (side2 t); plus (corner t) (side2 t)].
Definition valid_tile (o : qopts ROps) (x : tile_) : Prop :=
  exists t r k, (t < r < symmetry o)%nat /\ side1 x = star o t /\ side2 x = star o r /\ corner x = lattice o k /\
    length k = symmetry o /\ forall i, (i < symmetry o)%nat -> (0 <= nth i k 0 <= Z.of_nat (numlines o) - 3)%Z.

(** ** C147 *)
Lemma of_nat_INR n : of_nat (N:=ROps) n = INR n.
Proof. unfold of_nat. cbn. now rewrite INR_IZR_INZ. Qed.

Section Vectors.
  Variable o : qopts ROps.
  Lemma mk_qvec_dir a t v : mk_qvec o a t = Ok v -> q_dir v = P (cos a) (sin a) /\ cos a <> 0 /\ q_slope v = sin a / cos a /\ length (q_b v) = numlines o.
  Proof.
    unfold mk_qvec, pydiv. rnum. destruct (Reqb (cos a) 0) eqn:Z; [discriminate|]. apply Reqb_false in Z. cbn [rmap]. intros H.
    assert (Q : v = QV (P (cos a) (sin a)) (sin a / cos a) (q_b v)) by (injection H as <-; reflexivity). split; [now rewrite Q|split; [exact Z|]].
    split; [now rewrite Q|]. injection H as <-. cbn [q_b]. now rewrite map_length, seq_length.
  Qed.
  Lemma init_loop_spec phi : forall c a t vs, init_loop o phi a t c = Ok vs -> length vs = c /\
    forall i, (i < c)%nat -> q_dir (nthv vs i) = P (cos (a + INR i * phi)) (sin (a + INR i * phi)) /\ cos (a + INR i * phi) <> 0 /\
      q_slope (nthv vs i) = sin (a + INR i * phi) / cos (a + INR i * phi).
  Proof.
    induction c as [|c IH]; intros a t vs H; cbn [init_loop] in H; [injection H as <-; split; [reflexivity|lia]|].
    destruct (mk_qvec o a t) as [v|] eqn:V; [|discriminate]. cbn [rbind] in H. destruct (init_loop o phi _ (S t) c) as [r|] eqn:L; [|discriminate].
    cbn [rmap] in H. assert (vs = v :: r) by congruence. subst vs. destruct (IH _ _ _ L) as [LL D]. split; [cbn; now rewrite LL|].
    intros [|i] Hi.
    - cbn [INR]. rewrite Rmult_0_l, Rplus_0_r. unfold nthv. cbn [nth]. destruct (mk_qvec_dir _ _ _ V) as (? & ? & ? & _). auto.
    - specialize (D i ltac:(lia)). unfold nthv in *. cbn [nth]. rewrite S_INR. replace (a + (INR i + 1) * phi) with (a + phi + INR i * phi) by ring. exact D.
  Qed.
  Lemma init_vectors_spec vs : init_vectors o = Ok vs -> length vs = symmetry o /\
    forall i, (i < symmetry o)%nat -> q_dir (nthv vs i) = star o i /\ px (star o i) <> 0 /\ q_slope (nthv vs i) = py (star o i) / px (star o i).
  Proof.
    unfold init_vectors, pydiv. rewrite of_nat_INR. rnum. destruct (Reqb _ 0); [discriminate|]. cbn [rbind]. intros H.
    destruct (init_loop_spec _ _ _ _ _ H) as [A B]. split; [exact A|exact B].
  Qed.
  Lemma base_lattice vs k : (forall i, (i < symmetry o)%nat -> q_dir (nthv vs i) = star o i) -> base o vs k = lattice o k.
  Proof.
    intros D. unfold base, lattice. replace (@lit ROps 0 0) with 0 by (cbn; ring).
    assert (G : forall n, (n <= symmetry o)%nat -> forall p : Pt, 
      fold_left (fun p i => P (px p + px (q_dir (nthv vs i)) * IZR (nth i k 0%Z)) (py p + py (q_dir (nthv vs i)) * IZR (nth i k 0%Z))) (seq 0 n) (P 0 0 : Pt)
      = sum_to n (fun i => times (IZR (nth i k 0%Z)) (star o i))).
    { induction n as [|n IH]; intros Hn p; [reflexivity|]. rewrite seq_S, fold_left_app, IH by (auto; lia). cbn [fold_left sum_to plus]. cbn [Nat.add].
      rewrite D by lia. unfold plus, times. cbn [px py]. apply pt_ext; cbn [px py]; toR; ring. }
    rewrite <- (G (symmetry o)) by (auto; exact (P 0 0)). reflexivity.
  Qed.
  Lemma indices_spec vs x0 y0 t r n m : (1 <= n <= numlines o - 2)%nat -> (1 <= m <= numlines o - 2)%nat ->
    forall c i k, indices o vs x0 y0 t r n m i c = Some k -> length k = c /\ forall j, (j < c)%nat -> (0 <= nth j k 0 <= Z.of_nat (numlines o) - 3)%Z.
  Proof.
    intros Hn Hm. induction c as [|c IH]; intros i k H; cbn [indices] in H; [injection H as <-; split; [reflexivity|lia]|].
    destruct (if Nat.eqb i t then _ else _) as [z|] eqn:Z; [|discriminate].
    assert (B : (0 <= z <= Z.of_nat (numlines o) - 3)%Z).
    { destruct (Nat.eqb i t); [injection Z as <-; lia|]. destruct (Nat.eqb i r); [injection Z as <-; lia|].
      unfold index_of in Z. cbv zeta in Z. match type of Z with context[(?q >? _)%Z] => set (q0 := q) in Z end. clearbody q0.
      destruct (_ || _) eqn:Q; [discriminate|]. injection Z as <-. apply orb_false_iff in Q as [Q1 Q2]. lia. }
    destruct (indices _ _ _ _ _ _ _ _ (S i) c) as [l|] eqn:L; [|discriminate]. cbn [option_map] in H. injection H as <-.
    destruct (IH _ _ L) as [A D]. split; [cbn; lia|]. intros [|j] Hj; cbn [nth]; [exact B|]. apply D. lia.
  Qed.
End Vectors.

Lemma collect_spec {A B} (f : A -> res (list B)) l out : collect f l = Ok out -> exists outs, Forall2 (fun a b => f a = Ok b) l outs /\ out = concat outs.
Proof.
  revert out. induction l as [|a l IH]; intros out H; cbn [collect] in H; [injection H as <-; exists []; split; [constructor|reflexivity]|].
  destruct (f a) as [b|] eqn:F; [|discriminate]. cbn [rbind] in H. destruct (collect f l) as [c|]; [|discriminate]. cbn [rmap] in H. injection H as <-.
  destruct (IH c eq_refl) as (os & X & ->). exists (b :: os). split; [now constructor|reflexivity].
Qed.
Lemma direction_pairs_in (o : qopts ROps) t r : In (t, r) (direction_pairs o) <-> (t < r < symmetry o)%nat.
Proof.
  unfold direction_pairs. rewrite in_flat_map. split.
  - intros (t' & A & B). apply in_map_iff in B as (r' & Q & B). injection Q as -> ->. apply in_seq in A, B. lia.
  - intros H. exists t. split; [apply in_seq; lia|]. apply in_map. apply in_seq. lia.
Qed.
Lemma ring_in (o : qopts ROps) r1 r2 p : In p (ring o r1 r2) -> (1 <= fst p <= numlines o - 2)%nat /\ (1 <= snd p <= numlines o - 2)%nat.
Proof. unfold ring. intros H. apply filter_In in H as [H _]. destruct p as [n m]. apply in_prod_iff in H as [A B]. apply in_seq in A, B. cbn. lia. Qed.
Lemma rings_in (o : qopts ROps) fuel : forall x l, rings fuel o x = Ok l -> forall p, In p l -> (1 <= fst p <= numlines o - 2)%nat /\ (1 <= snd p <= numlines o - 2)%nat.
Proof.
  induction fuel as [|fuel IH]; intros x l H p I; cbn [rings] in H; destruct (negb _); try discriminate; try (injection H as <-; destruct I).
  destruct (rings fuel o _) as [r|] eqn:Q; [|discriminate]. cbn [rmap] in H. injection H as <-. apply in_app_or in I as [I|I]; [eapply ring_in; eauto|eapply IH; eauto].
Qed.

(** All that is drawn are tiles with one corner on the lattice and sides along two directions of the star, each followed by its decoration. *)
Theorem C147_tiles (o : qopts ROps) fuel out : quasi fuel o = Ok out ->
  exists tiles outs, Forall (valid_tile o) tiles /\ Forall2 (fun x evs => plot_tile o (corner x) (side1 x) (side2 x) = Ok evs) tiles outs /\ out = concat outs.
Proof.
  unfold quasi. destruct (init_vectors o) as [vs|] eqn:V; [|discriminate]. cbn [rbind]. destruct (rings fuel o _) as [pairs|] eqn:Q; [|discriminate]. cbn [rbind].
  intros H. destruct (init_vectors_spec o vs V) as [LV DV].
  assert (G1 : forall n m t r evs, (1 <= n <= numlines o - 2)%nat -> (1 <= m <= numlines o - 2)%nat -> (t < r < symmetry o)%nat -> tile o vs n m t r = Ok evs ->
    exists tiles outs, Forall (valid_tile o) tiles /\ Forall2 (fun x evs => plot_tile o (corner x) (side1 x) (side2 x) = Ok evs) tiles outs /\ evs = concat outs).
  { intros n m t r evs Hn Hm Ht T. unfold tile in T. destruct (pydiv _ _) as [x0|]; [|discriminate]. cbn [rbind] in T.
    destruct (indices _ _ _ _ _ _ _ _ _ _) as [k|] eqn:K; [|injection T as <-; exists [], []; repeat constructor].
    destruct (indices_spec o vs _ _ _ _ _ _ Hn Hm _ _ _ K) as [LK BK].
    rewrite (base_lattice o vs k) in T by (intros; now apply DV). rewrite (proj1 (DV t ltac:(lia))), (proj1 (DV r ltac:(lia))) in T.
    exists [Tile (lattice o k) (star o t) (star o r)], [evs]. split; [|split; [repeat constructor; exact T|cbn; now rewrite app_nil_r]].
    constructor; [|constructor]. exists t, r, k. cbn [corner side1 side2]. split; [exact Ht|]. do 3 (split; [reflexivity|]). split; [exact LK|exact BK]. }
  assert (JOIN : forall X (f : X -> res (list (qevent ROps))) l evs,
    (forall x e, In x l -> f x = Ok e -> exists tiles outs, Forall (valid_tile o) tiles /\ Forall2 (fun x evs => plot_tile o (corner x) (side1 x) (side2 x) = Ok evs) tiles outs /\ e = concat outs) ->
    collect f l = Ok evs -> exists tiles outs, Forall (valid_tile o) tiles /\ Forall2 (fun x evs => plot_tile o (corner x) (side1 x) (side2 x) = Ok evs) tiles outs /\ evs = concat outs).
  { intros X f l. induction l as [|x l IH]; intros evs Hf C; cbn [collect] in C; [injection C as <-; exists [], []; repeat constructor|].
    destruct (f x) as [b|] eqn:F; [|discriminate]. cbn [rbind] in C. destruct (collect f l) as [c|] eqn:CC; [|discriminate]. cbn [rmap] in C. injection C as <-.
    destruct (IH c) as (t2 & o2 & A2 & B2 & ->); [intros y e' Iy; apply Hf; now right|reflexivity|]. destruct (Hf x b (or_introl eq_refl) F) as (t1 & o1 & A1 & B1 & ->).
    exists (t1 ++ t2), (o1 ++ o2). split; [apply Forall_app; auto|split; [now apply Forall2_app|now rewrite concat_app]]. }
  eapply JOIN; [|exact H]. intros [n m] e I F. destruct (rings_in o fuel _ _ Q _ I) as [I1 I2]. cbn [fst snd] in I1, I2.
  eapply JOIN; [|exact F]. intros [t r] e' I' F'. apply direction_pairs_in in I'. exact (G1 n m t r e' I1 I2 I' F').
Qed.

(** The polygon of a tile is the rhombus on its sides, in this order; it comes first, and its colour is the cosine of the angle between
    the sides, without its sign. *)
Lemma star_unit o t : px (star o t) * px (star o t) + py (star o t) * py (star o t) = 1.
Proof. unfold star. cbn [px py]. pose proof (sin2_cos2 (first_angle o + INR t * (2 * PI / INR (symmetry o)))) as H. unfold Rsqr in H. lra. Qed.
Theorem C147_rhombus (o : qopts ROps) x evs : valid_tile o x -> plot_tile o (corner x) (side1 x) (side2 x) = Ok evs ->
  exists rest, evs = QPolygon (corners x) (Rabs (dot (side1 x) (side2 x))) :: rest /\
    (forall i, (i < 4)%nat -> euclid (nth i (corners x) (P 0 0)) (nth (S i mod 4) (corners x) (P 0 0)) = 1) /\
    0 <= Rabs (dot (side1 x) (side2 x)) <= 1 /\ (forall vs c, ~ In (QPolygon vs c) rest).
Proof.
  intros (t & r & k & _ & S1 & S2 & _) H.
  assert (Q : exists rest, evs = QPolygon (corners x) (Rabs (dot (side1 x) (side2 x))) :: rest /\ (forall vs c, ~ In (QPolygon vs c) rest)).
  { revert H. unfold plot_tile. destruct (negb _); [intros H; injection H as <-; exists []; split; [reflexivity|intros ? ? []]|].
    destruct (_ || _); [|intros H; injection H as <-; exists []; split; [reflexivity|intros ? ? []]].
    destruct (tile_segments _ _ _ _ _ _) as [sg|] eqn:SG; [|discriminate]. cbn [rmap]. intros H. injection H as <-. exists sg. split; [reflexivity|].
    intros vs c I. revert SG. unfold tile_segments. destruct (if @Num.ltb ROps _ _ then _ else _) as [[[s0 s1] s2] s3].
    destruct (if @Num.ltb ROps _ _ then _ else _); intros SG; try (injection SG as <-; cbn in I; intuition discriminate).
    - destruct (_ && _); injection SG as <-; cbn in I; intuition discriminate.
    - destruct (pydiv _ _); [|discriminate]. cbn [rmap] in SG. injection SG as <-. cbn in I. intuition discriminate.
    - destruct (split_cross o); injection SG as <-; cbn in I; intuition discriminate. }
  destruct Q as (rest & -> & NP). exists rest. split; [reflexivity|]. split; [|split; [|exact NP]].
  - pose proof (star_unit o t) as U1. pose proof (star_unit o r) as U2. rewrite <- S1 in U1. rewrite <- S2 in U2.
    assert (UN : forall a b c : R, a = b -> b = c -> a = c) by congruence.
    intros [|[|[|[|i]]]] Hi; try lia; cbn [Nat.modulo Nat.divmod Nat.sub fst snd corners nth]; unfold euclid, plus, Rsqr; cbn [px py];
      match goal with |- R_sqrt.sqrt ?e = 1 => replace e with 1; [apply sqrt_1|] end; toR; lra.
  - split; [apply Rabs_pos|]. unfold dot. rnum. rewrite S1, S2. unfold star. cbn [px py]. rewrite <- cos_minus. apply Rabs_le. apply COS_bound.
Qed.

(** *** The decoration *)
(** Corner number [i] of a tile and its neighbours *)
Definition at_corner (x : tile_) (i : nat) : Pt := nth (i mod 4) (corners x) (P 0 0).
Definition acute (x : tile_) (i : nat) : Prop := 0 <= dot (psub (at_corner x (i + 1)) (at_corner x i)) (psub (at_corner x (i + 3)) (at_corner x i)).
Definition obtuse (x : tile_) (i : nat) : Prop := dot (psub (at_corner x (i + 1)) (at_corner x i)) (psub (at_corner x (i + 3)) (at_corner x i)) <= 0.
(** [p] divides the edge from corner i to corner j in the ratio [k] *)
Definition divides (x : tile_) (k : R) (i j : nat) (p : Pt) : Prop := p = plus (times (1 - k) (at_corner x i)) (times k (at_corner x j)).
(** Edges as they are divided: always in the direction of the side vector *)
Definition edge_point (x : tile_) (k : R) (e : nat) (p : Pt) : Prop :=
  match e with O => divides x k 0 1 p | 1%nat => divides x k 1 2 p | 2%nat => divides x k 3 2 p | _ => divides x k 0 3 p end.
(** Segment from the point of one edge at corner i to that of the other one *)
Definition cuts_corner (x : tile_) (k : R) (i : nat) (a b : Pt) : Prop :=
  (edge_point x k (i mod 4) a /\ edge_point x k ((i + 3) mod 4) b) \/ (edge_point x k (i mod 4) b /\ edge_point x k ((i + 3) mod 4) a).
Definition skinny (o : qopts ROps) (x : tile_) : Prop := skinnyfat_ratio o < Rabs (dot (side1 x) (side2 x)).
Definition kind_of (o : qopts ROps) (x : tile_) (s : segtype) : Prop := (skinny o x /\ s = q_skinny o) \/ (~ skinny o x /\ s = q_fat o).

Ltac ptsolve := apply pt_ext; cbn [px py plus times]; toR; ring.
Ltac edge := unfold edge_point, divides, at_corner, corners; cbn [Nat.modulo Nat.divmod Nat.sub Nat.add fst snd nth]; ptsolve.
Lemma plot_tile_cases (o : qopts ROps) x s evs : kind_of o x s -> visible o (corners x) = true -> seg_on s = true ->
  plot_tile o (corner x) (side1 x) (side2 x) = Ok evs ->
  exists sg, tile_segments o s (corner x) (side1 x) (side2 x) (dot (side1 x) (side2 x)) = Ok sg /\ evs = QPolygon (corners x) (Rabs (dot (side1 x) (side2 x))) :: sg.
Proof.
  intros K V S. unfold plot_tile. change [corner x; _; _; _] with (corners x). rewrite V. cbn [negb].
  change (Num.add (Num.mul (px (side1 x)) (px (side2 x))) (Num.mul (py (side1 x)) (py (side2 x)))) with (dot (side1 x) (side2 x)).
  assert (SS : seg_on (q_skinny o) || seg_on (q_fat o) = true).
  { destruct K as [[_ ->]|[_ ->]]; rewrite S; rewrite ?orb_true_r; reflexivity. }
  rewrite SS. rnum.
  assert (Z : (if Rltb (skinnyfat_ratio o) (Rabs (dot (side1 x) (side2 x))) then q_skinny o else q_fat o) = s).
  { destruct K as [[K ->]|[K ->]]; unfold skinny in K; [rewrite (proj2 (Rltb_true _ _)) by exact K|rewrite (proj2 (Rltb_false _ _)) by lra]; reflexivity. }
  rewrite Z. destruct (tile_segments _ _ _ _ _ _) as [sg|]; [|discriminate]. cbn [rmap]. intros H. exists sg. split; [reflexivity|]. injection H as <-. reflexivity.
Qed.

(** Segments across the acute corners: one at each of two opposite acute corners, between the dividing points of the two edges. *)
Theorem C147_acute (o : qopts ROps) x evs : kind_of o x MidpAcute -> visible o (corners x) = true ->
  plot_tile o (corner x) (side1 x) (side2 x) = Ok evs ->
  exists i a b c d, (i < 2)%nat /\ evs = [QPolygon (corners x) (Rabs (dot (side1 x) (side2 x))); QSegment a b; QSegment c d] /\ acute x i /\ acute x (i + 2) /\
    ((cuts_corner x (segment_ratio o) i a b /\ cuts_corner x (segment_ratio o) (i + 2) c d) \/ (cuts_corner x (segment_ratio o) (i + 2) a b /\ cuts_corner x (segment_ratio o) i c d)).
Proof.
  intros K V H. destruct (plot_tile_cases o x _ _ K V eq_refl H) as (sg & T & ->). revert T. unfold tile_segments. rnum.
  assert (AC : forall i, (i < 4)%nat -> dot (psub (at_corner x (i + 1)) (at_corner x i)) (psub (at_corner x (i + 3)) (at_corner x i)) = (if Nat.even i then 1 else -1) * dot (side1 x) (side2 x)).
  { intros [|[|[|[|i]]]] Hi; try lia; unfold at_corner, corners, dot, psub, plus; cbn [Nat.modulo Nat.divmod Nat.sub Nat.add fst snd nth Nat.even px py]; rnum; toR; ring. }
  destruct (Rltb 0 (dot (side1 x) (side2 x))) eqn:D; [apply Rltb_true in D|apply Rltb_false in D]; intros T; injection T as <-.
  - exists 0%nat. do 4 eexists. split; [lia|]. split; [reflexivity|]. split; [unfold acute; rewrite AC by lia; cbn [Nat.even Nat.add]; lra|]. split; [unfold acute; rewrite AC by lia; cbn [Nat.even Nat.add]; lra|].
    right. split; right; split; edge.
  - exists 1%nat. do 4 eexists. split; [lia|]. split; [reflexivity|]. split; [unfold acute; rewrite AC by lia; cbn [Nat.even Nat.add]; lra|]. split; [unfold acute; rewrite AC by lia; cbn [Nat.even Nat.add]; lra|].
    left. split; right; split; edge.
Qed.

(** The same across the obtuse corners. *)
Theorem C147_obtuse (o : qopts ROps) x evs : kind_of o x MidpObtuse -> visible o (corners x) = true ->
  plot_tile o (corner x) (side1 x) (side2 x) = Ok evs ->
  exists i a b c d, (i < 2)%nat /\ evs = [QPolygon (corners x) (Rabs (dot (side1 x) (side2 x))); QSegment a b; QSegment c d] /\ obtuse x i /\ obtuse x (i + 2) /\
    ((cuts_corner x (segment_ratio o) i a b /\ cuts_corner x (segment_ratio o) (i + 2) c d) \/ (cuts_corner x (segment_ratio o) (i + 2) a b /\ cuts_corner x (segment_ratio o) i c d)).
Proof.
  intros K V H. destruct (plot_tile_cases o x _ _ K V eq_refl H) as (sg & T & ->). revert T. unfold tile_segments. rnum.
  assert (AC : forall i, (i < 4)%nat -> dot (psub (at_corner x (i + 1)) (at_corner x i)) (psub (at_corner x (i + 3)) (at_corner x i)) = (if Nat.even i then 1 else -1) * dot (side1 x) (side2 x)).
  { intros [|[|[|[|i]]]] Hi; try lia; unfold at_corner, corners, dot, psub, plus; cbn [Nat.modulo Nat.divmod Nat.sub Nat.add fst snd nth Nat.even px py]; rnum; toR; ring. }
  destruct (Rltb 0 (dot (side1 x) (side2 x))) eqn:D; [apply Rltb_true in D|apply Rltb_false in D]; intros T; injection T as <-.
  - exists 1%nat. do 4 eexists. split; [lia|]. split; [reflexivity|]. split; [unfold obtuse; rewrite AC by lia; cbn [Nat.even Nat.add]; lra|]. split; [unfold obtuse; rewrite AC by lia; cbn [Nat.even Nat.add]; lra|].
    first [left; split; [left|left]; split; edge|left; split; [left|right]; split; edge|left; split; [right|left]; split; edge|left; split; [right|right]; split; edge|right; split; [left|left]; split; edge|right; split; [left|right]; split; edge|right; split; [right|left]; split; edge|right; split; [right|right]; split; edge].
  - exists 0%nat. do 4 eexists. split; [lia|]. split; [reflexivity|]. split; [unfold obtuse; rewrite AC by lia; cbn [Nat.even Nat.add]; lra|]. split; [unfold obtuse; rewrite AC by lia; cbn [Nat.even Nat.add]; lra|].
    first [left; split; [left|left]; split; edge|left; split; [left|right]; split; edge|left; split; [right|left]; split; edge|left; split; [right|right]; split; edge|right; split; [left|left]; split; edge|right; split; [left|right]; split; edge|right; split; [right|left]; split; edge|right; split; [right|right]; split; edge].
Qed.

(** The points of the four edges, in the order of the sides of the quadrilateral they make *)
Definition edge_points (x : tile_) (k : R) (q : list Pt) : Prop :=
  exists p0 p1 p2 p3, edge_point x k 0 p0 /\ edge_point x k 1 p1 /\ edge_point x k 2 p2 /\ edge_point x k 3 p3 /\
    (q = [p0; p1; p2; p3] \/ q = [p1; p2; p3; p0]).
(** A cross: the two diagonals of that quadrilateral, or the halves of these which meet in the common middle of both. *)
Theorem C147_cross (o : qopts ROps) x evs : kind_of o x MidpCross -> visible o (corners x) = true ->
  plot_tile o (corner x) (side1 x) (side2 x) = Ok evs ->
  exists a b c d, edge_points x (segment_ratio o) [a; b; c; d] /\
    (((split_cross o = false \/ segment_ratio o <> 1 / 2) /\
      evs = [QPolygon (corners x) (Rabs (dot (side1 x) (side2 x))); QSegment a c; QSegment b d]) \/
     (split_cross o = true /\ segment_ratio o = 1 / 2 /\ exists m, m = times (1 / 2) (plus a c) /\ m = times (1 / 2) (plus b d) /\
      evs = [QPolygon (corners x) (Rabs (dot (side1 x) (side2 x))); QSegment a m; QSegment m c; QSegment b m; QSegment m d])).
Proof.
  intros K V H. destruct (plot_tile_cases o x _ _ K V eq_refl H) as (sg & T & ->). revert T. unfold tile_segments. rnum.
  replace (Rlit 5 (-1)) with (1 / 2) by (cbn; lra).
  match goal with |- context[if Rltb 0 ?q then ?u else ?v] => assert (EP : exists a b c d, (if Rltb 0 q then u else v) = (a, b, c, d) /\ edge_points x (segment_ratio o) [a; b; c; d] /\
    (segment_ratio o = 1 / 2 -> times (1 / 2) (plus a c) = times (1 / 2) (plus b d))) end.
  { destruct (Rltb 0 (dot (side1 x) (side2 x))); do 4 eexists; (split; [reflexivity|]); split.
    1: do 4 eexists; do 4 (split; [shelve|]); right; reflexivity.
    2: do 4 eexists; do 4 (split; [shelve|]); left; reflexivity.
    all: intros ->; apply pt_ext; unfold plus, times; cbn [px py]; toR; field.
    Unshelve. all: edge. }
  destruct EP as (a & b & c & d & -> & EP & MM). intros T. exists a, b, c, d. split; [exact EP|]. revert T.
  destruct (split_cross o) eqn:SC; cbn [andb].
  2: { intros T. left. split; [now left|]. injection T as <-. reflexivity. }
  destruct (Reqb (segment_ratio o) (1 / 2)) eqn:Q; [apply Reqb_true in Q|apply Reqb_false in Q]; intros T.
  - right. split; [reflexivity|split; [exact Q|]]. exists (times (1 / 2) (plus a c)). split; [reflexivity|split; [exact (MM Q)|]]. injection T as <-.
    replace (middle a c) with (times (1 / 2) (plus a c)); [reflexivity|]. unfold middle, times, plus. apply pt_ext; cbn [px py]; rnum; cbn; lra.
  - left. split; [now right|]. injection T as <-. reflexivity.
Qed.

(** A rectangle: with points in the middle of the edges, the four segments are the sides of a rectangle, which comes last; its colour is the
    ratio of the squares of its sides, at most 1. *)
Theorem C147_rect (o : qopts ROps) x evs : valid_tile o x -> kind_of o x MidpRect -> visible o (corners x) = true -> segment_ratio o = 1 / 2 ->
  plot_tile o (corner x) (side1 x) (side2 x) = Ok evs ->
  exists a b c d q, edge_points x (1 / 2) [a; b; c; d] /\
    evs = [QPolygon (corners x) (Rabs (dot (side1 x) (side2 x))); QSegment a b; QSegment c d; QSegment a d; QSegment b c; QSegpoly [a; b; c; d] q] /\
    dot (psub b a) (psub c b) = 0 /\ psub b a = psub c d /\
    q * Rmax (Rsqr (euclid a b)) (Rsqr (euclid b c)) = Rmin (Rsqr (euclid a b)) (Rsqr (euclid b c)) /\ 0 <= q <= 1.
Proof.
  intros VT K V HR H. destruct (plot_tile_cases o x _ _ K V eq_refl H) as (sg & T & ->). revert T. unfold tile_segments. rnum.
  destruct VT as (t & r & k & _ & S1 & S2 & _). pose proof (star_unit o t) as U1. pose proof (star_unit o r) as U2. rewrite <- S1 in U1. rewrite <- S2 in U2.
  match goal with |- context[if Rltb 0 ?q then ?u else ?v] => assert (EP : exists a b c d, (if Rltb 0 q then u else v) = (a, b, c, d) /\ edge_points x (1 / 2) [a; b; c; d] /\
    dot (psub b a) (psub c b) = 0 /\ psub b a = psub c d) end.
  { rewrite HR. destruct (Rltb 0 (dot (side1 x) (side2 x))); do 4 eexists; (split; [reflexivity|]); (split; [|split]).
    1: do 4 eexists; do 4 (split; [shelve|]); right; reflexivity.
    3: do 4 eexists; do 4 (split; [shelve|]); left; reflexivity.
    all: try (apply pt_ext; unfold psub; cbn [px py]; toR; field).
    all: unfold dot, psub; cbn [px py]; toR; clear - U1 U2; destruct (side1 x) as [x1 y1], (side2 x) as [x2 y2]; cbn [px py] in *; nra.
    Unshelve. all: edge. }
  destruct EP as (a & b & c & d & -> & EP & PE & PA). unfold pydiv. rnum. destruct (Reqb _ 0) eqn:Z; [discriminate|]. apply Reqb_false in Z. cbn [rmap].
  intros T. exists a, b, c, d, (pymin (distance2 a b) (distance2 b c) / pymax (distance2 a b) (distance2 b c)).
  assert (DD : forall p q : Pt, distance2 p q = Rsqr (euclid p q)).
  { intros p q. unfold euclid. rewrite Rsqr_sqrt; [unfold distance2; rnum; unfold Rsqr; ring|]. pose proof (Rle_0_sqr (px q - px p)). pose proof (Rle_0_sqr (py q - py p)).
    unfold Rsqr in *. lra. }
  split; [exact EP|]. split; [injection T as <-; reflexivity|]. split; [exact PE|split; [exact PA|]].
  rewrite pymin_R, pymax_R in *. rewrite !DD in *. pose proof (Rle_0_sqr (euclid a b)) as P1. pose proof (Rle_0_sqr (euclid b c)) as P2.
  set (u := Rsqr (euclid a b)) in *. set (v := Rsqr (euclid b c)) in *. split; [field; exact Z|].
  assert (PM : 0 < Rmax u v) by (destruct (Rtotal_order 0 (Rmax u v)) as [?|[E|E]]; [assumption|congruence|pose proof (Rmax_l u v); lra]).
  assert (MM : 0 <= Rmin u v <= Rmax u v) by (split; [now apply Rmin_glb|eapply Rle_trans; [apply Rmin_l|apply Rmax_l]]).
  split; [apply Rmult_le_pos; [lra|left; now apply Rinv_0_lt_compat]|]. apply Rmult_le_reg_r with (Rmax u v); [exact PM|]. field_simplify; [|lra]. lra.
Qed.

(** Vertex segments join the corners themselves; the crossing ones the opposite corners, in halves if asked. *)
Theorem C147_vertex_cross (o : qopts ROps) x evs : kind_of o x VertCross -> visible o (corners x) = true ->
  plot_tile o (corner x) (side1 x) (side2 x) = Ok evs ->
  let c := at_corner x in let m := times (1 / 2) (plus (c 0%nat) (c 2%nat)) in
  m = times (1 / 2) (plus (c 1%nat) (c 3%nat)) /\
  evs = QPolygon (corners x) (Rabs (dot (side1 x) (side2 x))) ::
    (if split_cross o then [QSegment (c 0%nat) m; QSegment m (c 2%nat); QSegment (c 1%nat) m; QSegment m (c 3%nat)]
     else [QSegment (c 0%nat) (c 2%nat); QSegment (c 1%nat) (c 3%nat)]).
Proof.
  intros K V H. destruct (plot_tile_cases o x _ _ K V eq_refl H) as (sg & T & ->). cbv zeta. split.
  - unfold at_corner, corners. cbn [Nat.modulo Nat.divmod Nat.sub fst snd nth]. ptsolve.
  - f_equal. revert T. unfold tile_segments. destruct (if @Num.ltb ROps _ _ then _ else _) as [[[s0 s1] s2] s3]. destruct (split_cross o); intros T; injection T as <-; [|reflexivity].
    assert (M : middle (corner x) (plus (plus (corner x) (side1 x)) (side2 x)) = times (1 / 2) (plus (at_corner x 0) (at_corner x 2))).
    { unfold middle, times, plus, at_corner, corners. cbn [Nat.modulo Nat.divmod Nat.sub fst snd nth]. apply pt_ext; cbn [px py plus]; rnum; cbn; toR; lra. }
    rewrite <- M. reflexivity.
Qed.
(** "Connect polygon vertices whose edges form an acute angle" joins the corners 1 and 3 of every tile, whatever their angles; these are
    the acute ones only if the sides of the tile make an obtuse angle. *)
Theorem C147_vertex_acute_partial (o : qopts ROps) x evs : kind_of o x VertAcute -> visible o (corners x) = true ->
  plot_tile o (corner x) (side1 x) (side2 x) = Ok evs ->
  evs = [QPolygon (corners x) (Rabs (dot (side1 x) (side2 x))); QSegment (at_corner x 1) (at_corner x 3)] /\
  (dot (side1 x) (side2 x) <= 0 <-> acute x 1) /\ (dot (side1 x) (side2 x) <= 0 <-> acute x 3).
Proof.
  intros K V H. destruct (plot_tile_cases o x _ _ K V eq_refl H) as (sg & T & ->). split.
  - f_equal. revert T. unfold tile_segments. destruct (if @Num.ltb ROps _ _ then _ else _) as [[[s0 s1] s2] s3]. intros T; injection T as <-. reflexivity.
  - unfold acute, at_corner, corners, dot, psub, plus. cbn [Nat.modulo Nat.divmod Nat.sub Nat.add fst snd nth px py]. toR.
    split; (match goal with |- ?u <= 0 <-> 0 <= ?v => replace v with (- u) by ring; generalize u; intros; lra end).
Qed.
Theorem C147_vertex_obtuse_partial (o : qopts ROps) x evs : kind_of o x VertObtuse -> visible o (corners x) = true ->
  plot_tile o (corner x) (side1 x) (side2 x) = Ok evs ->
  evs = [QPolygon (corners x) (Rabs (dot (side1 x) (side2 x))); QSegment (at_corner x 0) (at_corner x 2)] /\
  (dot (side1 x) (side2 x) <= 0 <-> obtuse x 0) /\ (dot (side1 x) (side2 x) <= 0 <-> obtuse x 2).
Proof.
  intros K V H. destruct (plot_tile_cases o x _ _ K V eq_refl H) as (sg & T & ->). split.
  - f_equal. revert T. unfold tile_segments. destruct (if @Num.ltb ROps _ _ then _ else _) as [[[s0 s1] s2] s3]. intros T; injection T as <-. reflexivity.
  - unfold obtuse, at_corner, corners, dot, psub, plus. cbn [Nat.modulo Nat.divmod Nat.sub Nat.add fst snd nth px py]. toR.
    split; (match goal with |- ?u <= 0 <-> ?v <= 0 => replace v with u by ring; reflexivity end).
Qed.
(** Symmetry 5: the directions 0 and 1 make an acute angle, so the tiles on them are joined at their obtuse corners. *)
Theorem C147_vertex_acute_refuted (o : qopts ROps) k evs : symmetry o = 5%nat -> length k = 5%nat ->
  (forall i, (i < 5)%nat -> (0 <= nth i k 0 <= Z.of_nat (numlines o) - 3)%Z) ->
  let x := Tile (lattice o k) (star o 0) (star o 1) in
  valid_tile o x /\ (kind_of o x VertAcute -> visible o (corners x) = true -> plot_tile o (corner x) (side1 x) (side2 x) = Ok evs ->
    In (QSegment (at_corner x 1) (at_corner x 3)) evs /\ ~ acute x 1 /\ ~ acute x 3).
Proof.
  intros S L B x. split; [exists 0%nat, 1%nat, k; rewrite S; cbn [x side1 side2 corner]; repeat split; auto; intros; now apply B|].
  intros K V H. destruct (C147_vertex_acute_partial o x evs K V H) as (-> & A1 & A3).
  assert (D : 0 < dot (side1 x) (side2 x)).
  { unfold x. cbn [side1 side2]. unfold dot, star, first_angle. rewrite S. cbn [Nat.even px py]. toR. rewrite <- cos_minus. replace (INR 5) with 5 by (cbn; ring). rewrite INR_0, INR_1 || cbn [INR].
    match goal with |- 0 < cos ?z => replace z with (- (2 * PI / 5)) by field end. rewrite cos_neg. apply cos_gt_0; pose proof PI_RGT_0; lra. }
  split; [cbn; auto|]. rewrite <- A1, <- A3. split; lra.
Qed.
