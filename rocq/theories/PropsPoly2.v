(** * PropsPoly2: closed polygons and the conversion to and from Clipper's integer polygons (C116).  Over R. *)
From Verif Require Import Num NumR Geom GeomR GeomSpec GeomProofs GeomProofs2 GeomProofs4 GeomProofs5 Polygon PropsGeom.
From Coq Require Import ZArith Reals Lra Lia Bool List Psatz.
Import ListNotations.
Local Open Scope R_scope.

Lemma floor_bounds (x : R) : IZR (Zfloor x) <= x < IZR (Zfloor x) + 1.
Proof. unfold Zfloor. pose proof (archimed x). rewrite minus_IZR. lra. Qed.
Lemma floor_IZR (z : Z) : Zfloor (IZR z) = z.
Proof.
  pose proof (floor_bounds (IZR z)) as [A B]. apply le_IZR in A. replace (IZR (Zfloor (IZR z)) + 1) with (IZR (Zfloor (IZR z) + 1)) in B by (rewrite plus_IZR; lra).
  apply lt_IZR in B. lia.
Qed.
(** Truncation: towards zero, by less than one unit. *)
Lemma trunc_bounds (x : R) : Rabs (IZR (Ztrunc x)) <= Rabs x /\ Rabs (x - IZR (Ztrunc x)) < 1 /\ 0 <= x * IZR (Ztrunc x).
Proof.
  unfold Ztrunc. destruct (Rlt_dec x 0) as [L|L].
  - pose proof (floor_bounds (- x)) as [A B]. rewrite opp_IZR. assert (0 <= IZR (Zfloor (- x))).
    { apply IZR_le. assert (IZR (-1) < IZR (Zfloor (- x))) by (cbn; lra). apply lt_IZR in H. lia. }
    rewrite Rabs_Ropp, (Rabs_pos_eq (IZR _)), (Rabs_left x), Rabs_left1 by lra. repeat split; try lra. nra.
  - pose proof (floor_bounds x) as [A B]. assert (0 <= IZR (Zfloor x)).
    { apply IZR_le. assert (IZR (-1) < IZR (Zfloor x)) by (cbn; lra). apply lt_IZR in H. lia. }
    rewrite !Rabs_pos_eq by lra. repeat split; try lra. nra.
Qed.
Lemma trunc_IZR (z : Z) : Ztrunc (IZR z) = z.
Proof. unfold Ztrunc. destruct (Rlt_dec (IZR z) 0); [rewrite <- opp_IZR|]; rewrite floor_IZR; lia. Qed.

(** ** C116 *)
Section C116.
  Context {E : Epsilon ROps}.
  Hypothesis He : 0 < EPS.
  Theorem C116_is_closed (p : Pt) (r : list Pt) :
    exists b, is_closed (p :: r) = Ok b /\ (b = true <-> Rabs (px p - px (last r p)) < EPS /\ Rabs (py p - py (last r p)) < EPS).
  Proof. eexists. split; [reflexivity|]. rewrite andb_true_iff. unfold feq. rnum. rewrite !Rltb_true. reflexivity. Qed.
  Theorem C116_empty_raises : is_closed ([] : list Pt) = Raise IndexError.
  Proof. reflexivity. Qed.

  (** [x'] is [x] with the digits after the [prec]-th decimal cut off. *)
  Definition cut_off (prec : nat) (x x' : R) : Prop :=
    (exists z, x' = IZR z / IZR (10 ^ Z.of_nat prec)) /\ Rabs x' <= Rabs x /\ 0 <= x * x' /\ Rabs (x - x') < 1 / IZR (10 ^ Z.of_nat prec).
  Lemma ten_pos prec : 0 < IZR (10 ^ Z.of_nat prec).
  Proof. apply IZR_lt. apply Z.pow_pos_nonneg; lia. Qed.
  Lemma cut_off_trunc prec x : cut_off prec x (IZR (Ztrunc (x * IZR (10 ^ Z.of_nat prec))) / IZR (10 ^ Z.of_nat prec)).
  Proof.
    pose proof (ten_pos prec) as M. set (m := IZR (10 ^ Z.of_nat prec)) in *. destruct (trunc_bounds (x * m)) as (A & B & C). assert (I : 0 < / m) by (apply Rinv_0_lt_compat; exact M).
    set (z := Ztrunc (x * m)) in *. split; [exists z; reflexivity|]. split; [|split].
    - unfold Rdiv. rewrite Rabs_mult, (Rabs_pos_eq (/ m)) by lra. rewrite Rabs_mult, (Rabs_pos_eq m) in A by lra.
      apply Rmult_le_reg_r with m; [exact M|]. rewrite Rmult_assoc, Rinv_l by lra. lra.
    - replace (x * (IZR z / m)) with ((x * m * IZR z) * (/ m * / m)) by (field; lra). apply Rmult_le_pos; nra.
    - replace (x - IZR z / m) with ((x * m - IZR z) * / m) by (field; lra). rewrite Rabs_mult, (Rabs_pos_eq (/ m)) by lra. unfold Rdiv. apply Rmult_lt_compat_r; auto.
  Qed.
  (** There and back: every coordinate loses the digits after the last decimal, and a polygon of more than two vertices comes back closed. *)
  Theorem C116_round_trip (prec : nat) (l : list Pt) : exists l',
    Forall2 (fun p p' : Pt => cut_off prec (px p) (px p') /\ cut_off prec (py p) (py p')) l l' /\
    (clipper2poly prec (poly2clipper prec l) = l' \/ exists p, hd_error l' = Some p /\ clipper2poly prec (poly2clipper prec l) = l' ++ [p]).
  Proof.
    set (l' := map (fun p : Pt => P (IZR (Ztrunc (px p * IZR (10 ^ Z.of_nat prec))) / IZR (10 ^ Z.of_nat prec)) (IZR (Ztrunc (py p * IZR (10 ^ Z.of_nat prec))) / IZR (10 ^ Z.of_nat prec)) : Pt) l).
    exists l'. split.
    - unfold l'. clear l'. induction l as [|p r IH]; cbn [map]; constructor; [|exact IH]. cbn [px py]. split; apply cut_off_trunc.
    - unfold clipper2poly, poly2clipper. rewrite map_map. match goal with |- context [map ?f l] => replace (map f l) with l' by reflexivity end.
      destruct l' as [|p [|q [|s r]]]; auto. destruct (negb _); [right; exists p; auto|left; auto].
  Qed.
  Theorem C116_closed (prec : nat) (z : list (Z * Z)) : (2 < length z)%nat -> is_closed (clipper2poly (N:=ROps) prec z) = Ok true.
  Proof.
    intros L. unfold clipper2poly. set (l := map _ z). assert (LL : (2 < length l)%nat) by (unfold l; rewrite map_length; exact L). clearbody l.
    destruct l as [|p [|q [|s r]]]; try (cbn in LL; lia).
    assert (K : forall x : Pt, Rabs (px p - px x) < EPS /\ Rabs (py p - py x) < EPS -> Ok (feq (px p) (px x) && feq (py p) (py x)) = Ok true).
    { intros x [A B]. f_equal. apply andb_true_iff. unfold feq. rnum. rewrite !Rltb_true. auto. }
    destruct (peq p (last (p :: q :: s :: r) p)) eqn:Z; cbn [negb].
    - cbn [is_closed]. apply (peq_true He) in Z. apply K. change (last (p :: q :: s :: r) p) with (last (q :: s :: r) p) in Z. set (x := last _ p) in *. clearbody x. clear - Z.
      pose proof (euclid_sqr p x) as Q. pose proof (euclid_pos p x) as D. set (d := euclid p x) in *. set (u := px p - px x) in *. set (v := py p - py x) in *. clearbody d u v.
      split; (eapply Rle_lt_trans; [|exact Z]); apply Rabs_le; split; nra.
    - cbn [is_closed app]. apply K. change (q :: s :: r ++ [p]) with ((q :: s :: r) ++ [p]). rewrite last_last.
      rewrite !Rminus_diag_eq, Rabs_R0 by reflexivity. auto.
  Qed.
  (** Integer polygons survive the other round trip exactly (but for being closed). *)
  Theorem C116_integers (prec : nat) (z : list (Z * Z)) :
    poly2clipper prec (clipper2poly (N:=ROps) prec z) = z \/ exists p, hd_error z = Some p /\ poly2clipper prec (clipper2poly (N:=ROps) prec z) = z ++ [p].
  Proof.
    pose proof (ten_pos prec) as M.
    assert (K : forall z, poly2clipper (N:=ROps) prec (map (fun '(x, y) => P (IZR x / IZR (10 ^ Z.of_nat prec)) (IZR y / IZR (10 ^ Z.of_nat prec))) z) = z).
    { unfold poly2clipper. intros z'. rewrite map_map, <- (map_id z') at 1. rewrite map_id. rewrite <- (map_id z') at 2. apply map_ext. intros [x y]. cbn [px py]. rnum.
      replace (IZR x / IZR (10 ^ Z.of_nat prec) * IZR (10 ^ Z.of_nat prec)) with (IZR x) by (field; lra).
      replace (IZR y / IZR (10 ^ Z.of_nat prec) * IZR (10 ^ Z.of_nat prec)) with (IZR y) by (field; lra). rewrite !trunc_IZR. reflexivity. }
    unfold clipper2poly. rnum. destruct z as [|[a a'] [|[b b'] [|[c c'] r]]]; [left; exact (K [])|left; exact (K [(a, a')])|left; exact (K [(a, a'); (b, b')])|]. cbn [map].
    destruct (negb _).
    - right. exists (a, a'). split; [reflexivity|]. exact (K (((a, a') :: (b, b') :: (c, c') :: r) ++ [(a, a')])) || (etransitivity; [|exact (K (((a, a') :: (b, b') :: (c, c') :: r) ++ [(a, a')]))]; rewrite map_app; reflexivity).
    - left. exact (K ((a, a') :: (b, b') :: (c, c') :: r)).
  Qed.
End C116.
Example C116_example : cut_off 2 (314159 / 100000) (314 / 100) /\ @is_closed ROps eps6 [P 0 0; P 1 0; P 1 1; P 0 0] = Ok true.
Proof.
  split.
  - split; [exists 314%Z; cbn; lra|]. cbn. rewrite !Rabs_pos_eq by lra. lra.
  - cbn [is_closed last px py]. unfold feq. rnum. rewrite Rminus_diag_eq, Rabs_R0 by reflexivity. replace (Rltb 0 EPS) with true; [reflexivity|]. symmetry. apply Rltb_true. unfold EPS, eps6. lra.
Qed.
