(** * NumR: the real-number instance of [NumOps]. *)
From Coq Require Import ZArith NArith Reals Bool Lra Lia.
From Verif Require Import Num.
Local Open Scope R_scope.

Definition Rltb (x y : R) : bool := if Rlt_dec x y then true else false.
Definition Rleb (x y : R) : bool := if Rle_dec x y then true else false.
Definition Reqb (x y : R) : bool := if Req_EM_T x y then true else false.

(** Floor, truncation. *)
Definition Zfloor (x : R) : Z := (up x - 1)%Z.
Definition Ztrunc (x : R) : Z := if Rlt_dec x 0 then (- Zfloor (- x))%Z else Zfloor x.

(** Round to nearest integer, ties to even. *)
Definition Zrnd (x : R) : Z :=
  let k := Zfloor x in
  let f := x - IZR k in
  if Rlt_dec f (1/2) then k
  else if Rlt_dec (1/2) f then (k + 1)%Z
  else if Z.even k then k else (k + 1)%Z.

(** C's atan2 (with no signed zero: atan2 0 x is 0 for x >= 0 and pi for x < 0). *)
Definition Ratan2 (y x : R) : R :=
  if Rlt_dec 0 x then atan (y / x)
  else if Rlt_dec x 0 then
         (if Rle_dec 0 y then atan (y / x) + PI else atan (y / x) - PI)
  else if Rlt_dec 0 y then PI / 2
  else if Rlt_dec y 0 then - (PI / 2)
  else 0.

Definition Rhypot (x y : R) : R := R_sqrt.sqrt (x * x + y * y).

(** C's fmod: the result has the sign of the dividend. *)
Definition Rfmod (x y : R) : R := x - y * IZR (Ztrunc (x / y)).

Definition Rlit (m e : Z) : R :=
  match e with
  | Z0 => IZR m
  | Zpos p => IZR (m * Z.pow_pos 10 p)
  | Zneg p => IZR m / IZR (Z.pow_pos 10 p)
  end.

(** '%.nf' % x : correctly rounded, ties to even. *)
Definition Rfmt (n : nat) (x : R) : decnum :=
  DFin (Rltb x 0) (Z.abs_N (Zrnd (x * 10 ^ n))).

Definition ROps : NumOps := {|
  T := R; of_Z := IZR; lit := Rlit;
  add := Rplus; sub := Rminus; mul := Rmult; div := Rdiv; opp := Ropp; abs := Rabs;
  ltb := Rltb; leb := Rleb; eqb := Reqb;
  floor := fun x => IZR (Zfloor x); trunc := Ztrunc;
  sqrt := R_sqrt.sqrt; hypot := Rhypot;
  sin := Rtrigo_def.sin; cos := Rtrigo_def.cos; tan := Rtrigo1.tan;
  acos := Ratan.acos; atan2 := Ratan2; pi := PI; fmod := Rfmod; fmt := Rfmt |}.
Canonical ROps.

(** ** Basic facts *)
Lemma Rltb_true x y : Rltb x y = true <-> x < y.
Proof. unfold Rltb; destruct (Rlt_dec x y); split; intro; auto; discriminate. Qed.
Lemma Rltb_false x y : Rltb x y = false <-> y <= x.
Proof. unfold Rltb; destruct (Rlt_dec x y); split; intro; auto; try discriminate; lra. Qed.
Lemma Rleb_true x y : Rleb x y = true <-> x <= y.
Proof. unfold Rleb; destruct (Rle_dec x y); split; intro; auto; discriminate. Qed.
Lemma Rleb_false x y : Rleb x y = false <-> y < x.
Proof. unfold Rleb; destruct (Rle_dec x y); split; intro; auto; try discriminate; lra. Qed.
Lemma Reqb_true x y : Reqb x y = true <-> x = y.
Proof. unfold Reqb; destruct (Req_EM_T x y); split; intro; auto; discriminate. Qed.
Lemma Reqb_false x y : Reqb x y = false <-> x <> y.
Proof. unfold Reqb; destruct (Req_EM_T x y); split; intro; auto; try discriminate; contradiction. Qed.

Lemma Zfloor_spec x : IZR (Zfloor x) <= x < IZR (Zfloor x) + 1.
Proof.
  unfold Zfloor. destruct (archimed x) as [H1 H2]. rewrite minus_IZR. lra.
Qed.
Lemma Zfloor_unique x k : IZR k <= x < IZR k + 1 -> Zfloor x = k.
Proof.
  intros H. pose proof (Zfloor_spec x) as H0.
  assert (A : IZR (Zfloor x) < IZR (k + 1)) by (rewrite plus_IZR; lra).
  assert (B : IZR k < IZR (Zfloor x + 1)) by (rewrite plus_IZR; lra).
  apply lt_IZR in A. apply lt_IZR in B. lia.
Qed.

Lemma R_order : OrderLaws ROps.
Proof.
  split; simpl; intros.
  - apply Rltb_false. lra.
  - apply Rltb_true in H. apply Rltb_false. lra.
Qed.

(** Rounding is within one half, and monotone. *)
Lemma Zrnd_half x : Rabs (IZR (Zrnd x) - x) <= 1/2.
Proof.
  unfold Zrnd. pose proof (Zfloor_spec x).
  destruct (Rlt_dec _ _); [|destruct (Rlt_dec _ _); [|destruct (Z.even _)]];
    rewrite ?plus_IZR; apply Rabs_le; lra.
Qed.

Lemma Zrnd_mono x y : x <= y -> (Zrnd x <= Zrnd y)%Z.
Proof.
  intros H. destruct (Z_le_gt_dec (Zrnd x) (Zrnd y)) as [|G]; auto. exfalso.
  pose proof (Zfloor_spec x) as Hx. pose proof (Zfloor_spec y) as Hy.
  assert (F : (Zfloor x <= Zfloor y)%Z).
  { destruct (Z_le_gt_dec (Zfloor x) (Zfloor y)) as [|g]; auto. exfalso.
    assert (IZR (Zfloor y) + 1 <= IZR (Zfloor x)) by (rewrite <- plus_IZR; apply IZR_le; lia). lra. }
  unfold Zrnd in G.
  destruct (Z.eq_dec (Zfloor x) (Zfloor y)) as [E|NE].
  - rewrite E in *.
    repeat destruct (Rlt_dec _ _); try lia; try lra; destruct (Z.even _); lia.
  - repeat destruct (Rlt_dec _ _); try lia; repeat destruct (Z.even _); lia.
Qed.

Lemma Zfloor_IZR k : Zfloor (IZR k) = k.
Proof. apply Zfloor_unique; lra. Qed.

Lemma Zrnd_IZR k : Zrnd (IZR k) = k.
Proof.
  unfold Zrnd. rewrite Zfloor_IZR. destruct (Rlt_dec _ _); auto. lra.
Qed.

(** Real operations, for [rewrite]/[unfold] of generic models at [ROps]. *)
Ltac rnum :=
  cbn [ROps add sub mul div opp abs ltb leb eqb floor trunc sqrt hypot sin cos tan
       acos atan2 pi fmod fmt of_Z lit T] in *.

(** Case analysis on a boolean real comparison in the goal or a hypothesis. *)
Ltac rcase x y :=
  first [ destruct (Rlt_dec x y) | destruct (Rle_dec x y) | destruct (Req_EM_T x y) ].
Ltac rbool :=
  repeat match goal with
  | H : Rltb _ _ = true |- _ => apply Rltb_true in H
  | H : Rltb _ _ = false |- _ => apply Rltb_false in H
  | H : Rleb _ _ = true |- _ => apply Rleb_true in H
  | H : Rleb _ _ = false |- _ => apply Rleb_false in H
  | H : Reqb _ _ = true |- _ => apply Reqb_true in H
  | H : Reqb _ _ = false |- _ => apply Reqb_false in H
  | |- Rltb _ _ = true => apply Rltb_true
  | |- Rltb _ _ = false => apply Rltb_false
  | |- Rleb _ _ = true => apply Rleb_true
  | |- Rleb _ _ = false => apply Rleb_false
  | |- Reqb _ _ = true => apply Reqb_true
  | |- Reqb _ _ = false => apply Reqb_false
  end.
