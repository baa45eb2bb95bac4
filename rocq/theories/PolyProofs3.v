(** * PolyProofs3: centroid under translation, bounding box, even-odd point test. *)
From Verif Require Import Num NumR Geom GeomR GeomSpec GeomProofs GeomProofs2 GeomProofs4 GeomProofs5 Polygon PolySpec BezierProofs PolyProofs.
From Coq Require Import ZArith Reals Lra Lia Bool List Psatz Permutation.
Import ListNotations.
Local Open Scope R_scope.

(** ** centroid *)
Lemma moment_px_moved dx dy (l : list Pt) : moment px (map (moved dx dy) l) = moment px l + 6 * dx * signed_area l.
Proof.
  rewrite (moment_moved dx dy px dx l); [|reflexivity].
  rewrite (sum_ext _ (fun e => dx * (let '(a, b) := e in px a * py b - px b * py a) +
     (let '(a, b) := e in (dx * (px b * py b) - dy * (px b * px b)) - (dx * (px a * py a) - dy * (px a * px a))))).
  - rewrite PolyProofs.sum_plus, sum_scal. rewrite (telescope (fun p => dx * (px p * py p) - dy * (px p * px p)) l).
    unfold signed_area. toR. lra.
  - intros [a b] _. toR. ring.
Qed.
Lemma moment_py_moved dx dy (l : list Pt) : moment py (map (moved dx dy) l) = moment py l + 6 * dy * signed_area l.
Proof.
  rewrite (moment_moved dx dy py dy l); [|reflexivity].
  rewrite (sum_ext _ (fun e => dy * (let '(a, b) := e in px a * py b - px b * py a) +
     (let '(a, b) := e in (dx * (py b * py b) - dy * (px b * py b)) - (dx * (py a * py a) - dy * (px a * py a))))).
  - rewrite PolyProofs.sum_plus, sum_scal. rewrite (telescope (fun p => dx * (py p * py p) - dy * (px p * py p)) l).
    unfold signed_area. toR. lra.
  - intros [a b] _. toR. ring.
Qed.
Lemma centroid_moved dx dy (l : list Pt) : (3 <= length l)%nat ->
  centroid (map (moved dx dy) l) = rmap (moved dx dy) (centroid l).
Proof.
  intros H. rewrite !centroid_general by (rewrite ?map_length; auto). rewrite signed_area_moved.
  destruct (Reqb (signed_area l) 0) eqn:Z; [reflexivity|]. rbool. cbn [rmap]. f_equal.
  rewrite moment_px_moved, moment_py_moved. unfold moved. apply pt_ext; cbn [px py]; toR; field; auto.
Qed.

(** ** bounding box *)
Lemma lit_pos (m p : positive) : 0 < Rlit (Zpos m) (Zneg p).
Proof. cbn [Rlit]. apply Rdiv_lt_0_compat; apply IZR_lt; [reflexivity|]. apply (Z.pow_pos_nonneg 10 (Zpos p)); lia. Qed.
Lemma flt_min_pos : 0 < (FLT_MIN : R).
Proof. exact (lit_pos _ _). Qed.

Lemma bb_fold (l : list Pt) : forall x0 y0 x9 y9, exists X0 Y0 X9 Y9,
  fold_left (fun '(x0, y0, x9, y9) p => (pymin x0 (px p), pymin y0 (py p), pymax x9 (px p), pymax y9 (py p))) l
    ((x0, y0, x9, y9) : R * R * R * R) = (X0, Y0, X9, Y9) /\
  X0 <= x0 /\ Y0 <= y0 /\ x9 <= X9 /\ y9 <= Y9 /\
  (forall p, In p l -> X0 <= px p <= X9 /\ Y0 <= py p <= Y9) /\
  (X0 = x0 \/ exists p, In p l /\ px p = X0) /\ (Y0 = y0 \/ exists p, In p l /\ py p = Y0) /\
  (X9 = x9 \/ exists p, In p l /\ px p = X9) /\ (Y9 = y9 \/ exists p, In p l /\ py p = Y9).
Proof.
  induction l as [|p l IH]; intros x0 y0 x9 y9.
  - exists x0, y0, x9, y9. repeat split; auto; try lra; destruct H.
  - cbn [fold_left].
    destruct (IH (pymin x0 (px p)) (pymin y0 (py p)) (pymax x9 (px p)) (pymax y9 (py p)))
      as (X0 & Y0 & X9 & Y9 & F & A & B & C & D & I & U & V & W & Z).
    exists X0, Y0, X9, Y9. split; [exact F|]. clear F.
    assert (M : forall a b : R, pymin a b <= a /\ pymin a b <= b /\ (pymin a b = a \/ pymin a b = b)).
    { intros a b. unfold pymin. rnum. destruct (Rltb b a) eqn:Q; rbool; lra. }
    assert (M' : forall a b : R, a <= pymax a b /\ b <= pymax a b /\ (pymax a b = a \/ pymax a b = b)).
    { intros a b. unfold pymax. rnum. destruct (Rltb a b) eqn:Q; rbool; lra. }
    pose proof (M x0 (px p)) as (m1 & m2 & m3). pose proof (M y0 (py p)) as (m4 & m5 & m6).
    pose proof (M' x9 (px p)) as (m7 & m8 & m9). pose proof (M' y9 (py p)) as (n1 & n2 & n3).
    clear M M'. change (T ROps) with R in *.
    repeat split; try lra.
    + destruct H as [->|H]; [lra|apply I; auto].
    + destruct H as [->|H]; [lra|apply I; auto].
    + destruct H as [->|H]; [lra|apply I; auto].
    + destruct H as [->|H]; [lra|apply I; auto].
    + destruct U as [U|(q & Q & R1)]; [|right; exists q; cbn; auto].
      destruct m3 as [m3|m3]; [left; lra|right; exists p; cbn; split; auto; lra].
    + destruct V as [U'|(q & Q & R1)]; [|right; exists q; cbn; auto].
      destruct m6 as [m|m]; [left; lra|right; exists p; cbn; split; auto; lra].
    + destruct W as [U'|(q & Q & R1)]; [|right; exists q; cbn; auto].
      destruct m9 as [m|m]; [left; lra|right; exists p; cbn; split; auto; lra].
    + destruct Z as [U'|(q & Q & R1)]; [|right; exists q; cbn; auto].
      destruct n3 as [m|m]; [left; lra|right; exists p; cbn; split; auto; lra].
Qed.

(** The box is exact as long as some coordinate on each axis is at least the least positive normal double. *)
Theorem bounding_box_spec (l : list Pt) : l <> [] ->
  (forall p, In p l -> px p <= FLT_MAX /\ py p <= FLT_MAX) ->
  (exists p, In p l /\ FLT_MIN <= px p) -> (exists p, In p l /\ FLT_MIN <= py p) ->
  (forall p, In p l -> in_box (bounding_box l) p) /\
  (exists p, In p l /\ px p = px (b1 (bounding_box l))) /\ (exists p, In p l /\ py p = py (b1 (bounding_box l))) /\
  (exists p, In p l /\ px p = px (b2 (bounding_box l))) /\ (exists p, In p l /\ py p = py (b2 (bounding_box l))).
Proof.
  intros NE Hm (p & Ip & Hp) (q & Iq & Hq). unfold bounding_box.
  destruct (bb_fold l FLT_MAX FLT_MAX FLT_MIN FLT_MIN) as (X0 & Y0 & X9 & Y9 & F & A & B & C & D & I & U & V & W & Z).
  change (T ROps) with R in *. rewrite F. clear F. unfold mkbox. cbn [px py b1 b2].
  pose proof (I p Ip) as I1.
  assert (M0 : forall a b : R, a <= b -> pymin a b = a). { intros a b H. unfold pymin. rnum. destruct (Rltb b a) eqn:Q; rbool; lra. }
  assert (M9 : forall a b : R, a <= b -> pymax a b = b). { intros a b H. unfold pymax. rnum. destruct (Rltb a b) eqn:Q; rbool; lra. }
  change (T ROps) with R in *.
  rewrite !M0, !M9 by lra. unfold in_box. cbn [px py b1 b2].
  split; [intros r Hr; apply I in Hr; lra|].
  pose proof (Hm p Ip). pose proof (Hm q Iq). pose proof (I q Iq).
  repeat split.
  - destruct U as [U|U]; auto. exists p. split; auto. lra.
  - destruct V as [U'|U']; auto. exists q. split; auto. lra.
  - destruct W as [U'|U']; auto. exists p. split; auto. lra.
  - destruct Z as [U'|U']; auto. exists q. split; auto. lra.
Qed.
(** With only negative abscissas the right side of the box is wrong. *)
Theorem bounding_box_negative (l : list Pt) : l <> [] -> (forall p, In p l -> px p < 0) -> px (b2 (bounding_box l)) = FLT_MIN /\ 0 < px (b2 (bounding_box l)).
Proof.
  intros NE H. unfold bounding_box.
  destruct (bb_fold l FLT_MAX FLT_MAX FLT_MIN FLT_MIN) as (X0 & Y0 & X9 & Y9 & F & A & B & C & D & I & U & V & W & Z).
  change (T ROps) with R in *. rewrite F. clear F. unfold mkbox. cbn [px py b1 b2]. pose proof flt_min_pos as FP.
  assert (X9 = FLT_MIN) as ->. { destruct W as [W|(q & Q & E)]; auto. apply H in Q. lra. }
  assert (E : pymax X0 (FLT_MIN : R) = FLT_MIN).
  { unfold pymax. rnum. destruct (Rltb X0 FLT_MIN) eqn:Q; rbool; auto. destruct l as [|p l]; [congruence|].
    pose proof (I p (or_introl eq_refl)). pose proof (H p (or_introl eq_refl)). lra. }
  change (T ROps) with R in *. rewrite E. auto.
Qed.

(** ** point_inside: even-odd rule *)
Definition crosses (p a b : Pt) : bool :=
  negb (Bool.eqb (Rltb (py p) (py b)) (Rltb (py p) (py a))) &&
  Rltb (px p) ((px a - px b) * (py p - py b) / (py a - py b) + px b).
Lemma inside_fold (p : Pt) l : poly_inside l p = Nat.odd (length (filter (fun '(a, b) => crosses p a b) (cyc_pairs l))).
Proof.
  unfold poly_inside. rewrite <- (xorb_false_l (Nat.odd _)). generalize false.
  induction (cyc_pairs l) as [|[a b] r IH]; intros i; [cbn; rewrite xorb_false_r; reflexivity|].
  cbn [fold_left filter]. rewrite IH. unfold crosses. rnum.
  match goal with |- context [if ?c then negb i else i] => destruct c end; [|reflexivity].
  cbn [length]. rewrite Nat.odd_succ, <- Nat.negb_odd. destruct i, (Nat.odd _); reflexivity.
Qed.
Lemma filter_perm {A} (f : A -> bool) l l' : Permutation l l' -> Permutation (filter f l) (filter f l').
Proof.
  induction 1; cbn; auto.
  - destruct (f x); auto.
  - destruct (f x), (f y); auto. apply perm_swap.
  - etransitivity; eauto.
Qed.
Lemma inside_parity (p : Pt) l : poly_inside l p = Nat.odd (length (filter (fun '(a, b) => crosses p a b) (cyclic_edges l))).
Proof. rewrite inside_fold. f_equal. apply Permutation_length, filter_perm, cyc_pairs_perm. Qed.
Lemma crosses_spec (p a b : Pt) : crosses p a b = true <-> ray_crosses p a b.
Proof.
  destruct p as [x y], a as [ax ay], b as [bx by_]. unfold crosses, ray_crosses, on_segment, at_param. cbn [px py p1 p2].
  change (T ROps) with R in *. rewrite andb_true_iff, negb_true_iff, eqb_false_iff.
  assert (S : Rltb y by_ <> Rltb y ay <-> (ay <= y < by_ \/ by_ <= y < ay)).
  { destruct (Rltb y by_) eqn:B, (Rltb y ay) eqn:A; rbool; split; intros H; try congruence; try lra; intros; lra. }
  rewrite S, Rltb_true.
  split.
  - intros [H L]. split; auto. assert (N : ay - by_ <> 0) by lra.
    set (u := (y - by_) / (ay - by_)).
    assert (U : u * (ay - by_) = y - by_) by (unfold u; field; auto).
    exists (P (ax + (1 - u) * (bx - ax))%R (ay + (1 - u) * (by_ - ay))%R). repeat split.
    + exists (1 - u). split; [|reflexivity]. nra.
    + cbn. nra.
    + cbn [px]. replace ((ax - bx) * (y - by_) / (ay - by_)) with (u * (ax - bx)) in L by (unfold u; field; auto). lra.
  - intros [H ([qx qy] & (u & U & Q) & Y & X)]. split; auto. injection Q as -> ->. cbn [px py] in *.
    change (@eq R (ay + u * (by_ - ay)) y) in Y. assert (N : ay - by_ <> 0) by lra.
    replace ((ax - bx) * (y - by_) / (ay - by_)) with ((1 - u) * (ax - bx)); [lra|].
    rewrite <- Y. field. auto.
Qed.
