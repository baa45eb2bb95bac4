(** * PropsQuasi3: which crossings of a quasi-periodic tiling become tiles, and where these are (C177), over R. *)
From Verif Require Import Num NumR Geom GeomR GeomSpec GeomProofs GeomProofs2 Quasi PropsQuasi PropsQuasi2.
From Coq Require Import ZArith Reals Lra Lia List Bool Permutation Sorted.
Import ListNotations.
Local Open Scope R_scope.

(** ** Specification *)
(** The lines of direction [i] are parallel to it, one apart, with the origin in the middle but for a shift that depends on the salts;
    [level o i X] is the number of the line on which the point [X] lies, or between whose number and the next one it is. *)
Definition level (o : qopts ROps) (i : nat) (X : Pt) : R :=
  let v := star o i in
  (px X * py v - py X * px v) + INR (numlines o) / 2 - INR i * (salt_x o - salt_y o) * (px v * py v).
(** [k]: the numbers of the lines below the crossing [X] of line n of direction t and line m of direction r *)
Definition below (o : qopts ROps) (n m t r : nat) (X : Pt) (k : list Z) : Prop :=
  length k = symmetry o /\ nth t k 0%Z = (Z.of_nat n - 1)%Z /\ nth r k 0%Z = (Z.of_nat m - 1)%Z /\
  forall i, (i < symmetry o)%nat -> i <> t -> i <> r -> IZR (nth i k 0%Z) <= level o i X < IZR (nth i k 0%Z) + 1.
(** [X] is between the second and the last but one line of the other directions *)
Definition inner (o : qopts ROps) (t r : nat) (X : Pt) : Prop :=
  forall i, (i < symmetry o)%nat -> i <> t -> i <> r -> 1 <= level o i X < INR (numlines o) - 2.
(** What a crossing contributes: nothing, or the tile whose corner is reached with as many steps in each direction as there are lines below. *)
Definition contributes (o : qopts ROps) (n m t r : nat) (evs : list (qevent ROps)) : Prop :=
  exists X, level o t X = INR n /\ level o r X = INR m /\
    (inner o t r X /\ (exists k, below o n m t r X k /\ plot_tile o (lattice o k) (star o t) (star o r) = Ok evs) \/
     ~ inner o t r X /\ evs = []).

Section Tile.
  Variable o : qopts ROps.
  Lemma init_loop_lines phi : forall c a t vs, init_loop o phi a t c = Ok vs ->
    forall i, (i < c)%nat -> exists u : nat, u = (t + i)%nat /\ forall r, (r < numlines o)%nat ->
      let v := q_dir (nthv vs i) in nthb (nthv vs i) r * px v = INR u * (salt_y o - salt_x o) * (px v * py v) - (INR r - INR (numlines o) / 2).
  Proof.
    induction c as [|c IH]; intros a t vs H i Hi; [lia|]. cbn [init_loop] in H.
    destruct (mk_qvec o a t) as [v|] eqn:V; [|discriminate]. cbn [rbind] in H. destruct (init_loop o phi _ (S t) c) as [w|] eqn:L; [|discriminate].
    cbn [rmap] in H. assert (vs = v :: w) by congruence. subst vs. destruct i as [|i].
    - exists t. split; [lia|]. intros r Hr. cbn zeta. unfold nthv. cbn [nth]. destruct (mk_qvec_dir _ _ _ _ V) as (D & C & S & _).
      rewrite D. cbn [px py]. unfold mk_qvec, pydiv in V. rnum. rewrite (proj2 (Reqb_false (cos a) 0)) in V by exact C. cbn [rmap] in V. injection V as <-.
      unfold nthb. cbn [q_b]. erewrite nth_indep by (rewrite map_length, seq_length; exact Hr).
      rewrite (map_nth (fun r => _) (seq 0 (numlines o)) 0%nat), seq_nth by exact Hr. cbn [Nat.add]. rewrite <- !INR_IZR_INZ.
      pose proof (sin2_cos2 a) as P1. unfold Rsqr in P1. change (IZR 2) with 2.
      set (x := cos a) in *. set (y := sin a) in *. set (h := INR r - INR (numlines o) / 2). clearbody x y h.
      replace ((y * (INR t * salt_y o) - x * h - y / x * (x * (INR t * salt_x o) + y * h)) * x) with
        (INR t * (salt_y o - salt_x o) * (x * y) - h * (y * y + x * x)) by (change (T ROps) with R in *; field; exact C).
      rewrite P1. ring.
    - destruct (IH _ _ _ L i ltac:(lia)) as (u & -> & U). exists (S t + i)%nat. split; [lia|]. intros r Hr. exact (U r Hr).
  Qed.
  Lemma init_lines vs : init_vectors o = Ok vs -> forall i r, (i < symmetry o)%nat -> (r < numlines o)%nat ->
    nthb (nthv vs i) r * px (star o i) = INR i * (salt_y o - salt_x o) * (px (star o i) * py (star o i)) - (INR r - INR (numlines o) / 2).
  Proof.
    intros V i r Hi Hr. destruct (init_vectors_spec o vs V) as [_ D]. destruct (D i Hi) as (D1 & _).
    unfold init_vectors, pydiv in V. rewrite of_nat_INR in V. rnum. destruct (Reqb _ 0); [discriminate|]. cbn [rbind] in V.
    destruct (init_loop_lines _ _ _ _ _ V i Hi) as (u & -> & U). specialize (U r Hr). cbn zeta in U. rewrite D1 in U. exact U.
  Qed.

  Lemma index_level vs X i : init_vectors o = Ok vs -> (i < symmetry o)%nat -> (0 < numlines o)%nat ->
    match index_of o vs (px X) (py X) i with
    | Some k => IZR k <= level o i X < IZR k + 1 /\ 1 <= level o i X < INR (numlines o) - 2
    | None => ~ (1 <= level o i X < INR (numlines o) - 2)
    end.
  Proof.
    intros V Hi Hl. pose proof (init_lines vs V i 0%nat Hi Hl) as B. destruct (init_vectors_spec o vs V) as [_ D]. destruct (D i Hi) as (D1 & _).
    unfold index_of. rewrite D1. cbn [INR] in B. rnum.
    assert (Q : - (- px X * py (star o i) + (py X - nthb (nthv vs i) 0) * px (star o i)) = level o i X).
    { replace (- (- px X * py (star o i) + (py X - nthb (nthv vs i) 0) * px (star o i))) with
        (px X * py (star o i) - py X * px (star o i) + nthb (nthv vs i) 0 * px (star o i)) by (toR; ring). rewrite B. unfold level. toR; ring. }
    rewrite Q. clear Q. set (d := level o i X). clearbody d. clear - Hl. cbv zeta. rewrite !INR_IZR_INZ.
    set (L := Z.of_nat (numlines o)). unfold Ztrunc. destruct (Rlt_dec d 0) as [P|P].
    - destruct (_ || _) eqn:C; [lra|]. exfalso. apply orb_false_iff in C as [C1 C2].
      pose proof (Zfloor_spec (- d)) as [A A']. apply Z.ltb_ge in C2. assert (F : (Zfloor (- d) <= -1)%Z) by lia. apply IZR_le in F. lra.
    - pose proof (Zfloor_spec d) as [A A']. set (k := Zfloor d) in *. destruct ((k >? L - 3)%Z || (k <? 1)%Z) eqn:C.
      + apply orb_true_iff in C. intros [I1 I2]. destruct C as [C|C].
        * rewrite Z.gtb_ltb in C. apply Z.ltb_lt in C. assert (F : (L - 2 <= k)%Z) by lia. apply IZR_le in F. rewrite minus_IZR in F. lra.
        * apply Z.ltb_lt in C. assert (F : (k + 1 <= 1)%Z) by lia. apply IZR_le in F. rewrite plus_IZR in F. lra.
      + apply orb_false_iff in C as [C1 C2]. rewrite Z.gtb_ltb in C1. apply Z.ltb_ge in C1, C2. assert (F : (k <= L - 3)%Z) by lia. assert (G : (1 <= k)%Z) by lia.
        apply IZR_le in F, G. rewrite minus_IZR in F. split; lra.
  Qed.

  Lemma indices_level vs X t r n m : init_vectors o = Ok vs -> (0 < numlines o)%nat -> forall c i, (i + c = symmetry o)%nat ->
    match indices o vs (px X) (py X) t r n m i c with
    | Some k => length k = c /\ forall j, (j < c)%nat ->
        (if Nat.eqb (i + j) t then nth j k 0%Z = (Z.of_nat n - 1)%Z else if Nat.eqb (i + j) r then nth j k 0%Z = (Z.of_nat m - 1)%Z
         else IZR (nth j k 0%Z) <= level o (i + j) X < IZR (nth j k 0%Z) + 1 /\ 1 <= level o (i + j) X < INR (numlines o) - 2)
    | None => exists j, (j < c)%nat /\ (i + j)%nat <> t /\ (i + j)%nat <> r /\ ~ (1 <= level o (i + j) X < INR (numlines o) - 2)
    end.
  Proof.
    intros V Hl. induction c as [|c IH]; intros i Hi; cbn [indices]; [split; [reflexivity|lia]|].
    pose proof (index_level vs X i V ltac:(lia) Hl) as Q. specialize (IH (S i) ltac:(lia)).
    destruct (Nat.eqb i t) eqn:T1; [|destruct (Nat.eqb i r) eqn:R1; [|destruct (index_of o vs (px X) (py X) i) as [z|]]].
    4: { apply Nat.eqb_neq in T1, R1. exists 0%nat. rewrite Nat.add_0_r. repeat split; [lia|assumption|assumption|exact Q]. }
    all: destruct (indices o vs (px X) (py X) t r n m (S i) c) as [k|]; cbn [option_map];
      [|destruct IH as (j & J1 & J2 & J3 & J4); exists (S j); replace (i + S j)%nat with (S i + j)%nat by lia; repeat split; [lia|assumption..]].
    all: destruct IH as [LK IH]; split; [cbn; lia|]; intros [|j] Hj; [rewrite Nat.add_0_r; cbn [nth]|replace (i + S j)%nat with (S i + j)%nat by lia; cbn [nth]; apply IH; lia].
    - rewrite T1. reflexivity.
    - rewrite T1, R1. reflexivity.
    - rewrite T1, R1. exact Q.
  Qed.

  Lemma tile_contributes vs n m t r evs : init_vectors o = Ok vs -> (t < r < symmetry o)%nat -> (n < numlines o)%nat -> (m < numlines o)%nat ->
    tile o vs n m t r = Ok evs -> contributes o n m t r evs.
  Proof.
    intros V Ht Hn Hm H. destruct (init_vectors_spec o vs V) as [_ D].
    destruct (D t ltac:(lia)) as (Dt & Ct & St). destruct (D r ltac:(lia)) as (Dr & Cr & Sr).
    pose proof (init_lines vs V t n ltac:(lia) Hn) as Bt. pose proof (init_lines vs V r m ltac:(lia) Hm) as Br.
    unfold tile, pydiv in H. rnum. destruct (Reqb _ 0) eqn:Z; [discriminate|]. apply Reqb_false in Z. cbn [rbind] in H.
    rewrite St, Sr in Z. rewrite St, Sr in H.
    set (x0 := (nthb (nthv vs t) n - nthb (nthv vs r) m) / (py (star o r) / px (star o r) - py (star o t) / px (star o t))) in H.
    set (y0 := py (star o t) / px (star o t) * x0 + nthb (nthv vs t) n) in H.
    assert (Et : level o t (P x0 y0) = INR n).
    { unfold level. cbn [px py]. replace (x0 * py (star o t) - y0 * px (star o t)) with (- (nthb (nthv vs t) n * px (star o t))); [rewrite Bt; toR; ring|].
      unfold y0. clear - Ct. set (q := nthb _ _). set (sx := px _) in *. set (sy := py _). clearbody q sx sy x0. change (T ROps) with R in *. field. exact Ct. }
    assert (Er : level o r (P x0 y0) = INR m).
    { unfold level. cbn [px py]. replace (x0 * py (star o r) - y0 * px (star o r)) with (- (nthb (nthv vs r) m * px (star o r))); [rewrite Br; toR; ring|].
      unfold y0, x0. clear - Ct Cr Z. set (q := nthb (nthv vs t) n). set (q' := nthb _ _). set (tx := px (star o t)) in *. set (ty := py (star o t)) in *.
      set (rx := px (star o r)) in *. set (ry := py (star o r)) in *. clearbody q q' tx ty rx ry. change (T ROps) with R in *. 
      assert (W : ry * tx - ty * rx <> 0). { intros W. apply Z. replace (ry / rx - ty / tx) with ((ry * tx - ty * rx) / (rx * tx)) by (field; auto). rewrite W. unfold Rdiv. apply Rmult_0_l. }
      field. auto. }
    exists (P x0 y0). split; [exact Et|split; [exact Er|]].
    pose proof (indices_level vs (P x0 y0) t r n m V ltac:(lia) (symmetry o) 0%nat eq_refl) as Q. cbn [px py Nat.add] in Q.
    destruct (indices o vs x0 y0 t r n m 0 (symmetry o)) as [k|].
    - destruct Q as [Lk Q]. left. split.
      + intros i Hi N1 N2. specialize (Q i Hi). rewrite (proj2 (Nat.eqb_neq i t) N1), (proj2 (Nat.eqb_neq i r) N2) in Q. apply Q.
      + exists k. split; [|rewrite (base_lattice o vs k) in H by (intros; now apply D); rewrite Dt, Dr in H; exact H].
        split; [exact Lk|]. split; [|split].
        * specialize (Q t ltac:(lia)). now rewrite Nat.eqb_refl in Q.
        * specialize (Q r ltac:(lia)). rewrite (proj2 (Nat.eqb_neq r t)) in Q by lia. now rewrite Nat.eqb_refl in Q.
        * intros i Hi N1 N2. specialize (Q i Hi). rewrite (proj2 (Nat.eqb_neq i t) N1), (proj2 (Nat.eqb_neq i r) N2) in Q. apply Q.
    - destruct Q as (j & J1 & J2 & J3 & J4). right. split; [|injection H as <-; reflexivity]. intros I. apply J4. exact (I j J1 J2 J3).
  Qed.
End Tile.

(** ** C177: the drawing is what the crossings contribute, each crossing once (the order of C148). *)
Theorem C177_tiling (o : qopts ROps) fuel out : quasi fuel o = Ok out ->
  exists pairs outs, Permutation pairs (line_pairs o) /\ NoDup pairs /\ StronglySorted (fun p q => off_center o p < off_center o q + 4 / 10) pairs /\
    Forall2 (fun '(n, m, (t, r)) evs => contributes o n m t r evs) (list_prod pairs (direction_pairs o)) outs /\ out = concat outs /\
    (forall t r, In (t, r) (direction_pairs o) <-> (t < r < symmetry o)%nat) /\ NoDup (direction_pairs o).
Proof.
  intros H. destruct (C148_once o fuel out H) as (vs & pairs & outs & V & P1 & P2 & P3 & F & E & D1 & D2).
  exists pairs, outs. split; [exact P1|split; [exact P2|split; [exact P3|split; [|split; [exact E|split; [exact D1|exact D2]]]]]].
  assert (G : forall l outs, (forall x, In x l -> In x (list_prod pairs (direction_pairs o))) ->
    Forall2 (fun '(n, m, (t, r)) evs => tile o vs n m t r = Ok evs) l outs -> Forall2 (fun '(n, m, (t, r)) evs => contributes o n m t r evs) l outs).
  { clear F E. intros l os I F. induction F as [|[[n m] [t r]] e l os T F IH]; constructor; [|apply IH; intros; apply I; now right].
    specialize (I _ (or_introl eq_refl)). apply in_prod_iff in I as [I1 I2]. apply D1 in I2. apply (Permutation_in _ P1) in I1. apply in_prod_iff in I1 as [I1 I3]. apply in_seq in I1, I3.
    apply (tile_contributes o vs); auto; lia. }
  apply G; auto.
Qed.
(** The settings of the example of C147 make a tiling; a crossing that is inner, and its lines below. *)
Example C177_example : (exists fuel out, quasi fuel (three MidpAcute) = Ok out) /\
  level (three MidpAcute) 0 (P 0 (-1 / 2)) = 15.5 /\ level (three MidpAcute) 0 (P 7 0) = 15 /\ (1 <= 15.5 < INR 30 - 2).
Proof.
  split; [destruct (C147_example MidpAcute eq_refl) as (_ & _ & _ & _ & H); exact H|].
  unfold level, star, first_angle. cbn [three symmetry numlines salt_x salt_y Nat.even px py]. replace (0 + INR 0 * (2 * PI / INR 3)) with 0 by (cbn; ring).
  rewrite cos_0, sin_0. cbn [INR]. repeat split; lra.
Qed.
