(** * NumF64: IEEE-754 binary64, the arithmetic of CPython floats.

    Built on [Coq.Floats.SpecFloat], which is pure Gallina (no primitive floats, no
    axioms).  Every operation below is the correctly rounded IEEE one except:
    - [hypot] is computed as sqrt(x*x + y*y) (C's hypot is more accurate);
    - sin, cos, tan, acos, atan2 are not modelled and return nan. *)
From Coq Require Import ZArith NArith Bool Lia Floats.SpecFloat.
From Verif Require Import Num.

Definition prec : Z := 53.
Definition emax : Z := 1024.
Definition f64 := spec_float.

Definition f64_of_Z (z : Z) : f64 := binary_normalize prec emax z 0 false.
Definition f64_lit (m e : Z) : f64 :=
  match e with
  | Zneg p => SFdiv prec emax (f64_of_Z m) (f64_of_Z (Z.pow_pos 10 p))
  | _ => f64_of_Z (m * 10 ^ e)
  end.

Definition smant (s : bool) (m : positive) : Z := if s then Zneg m else Zpos m.

Definition f64_floor (x : f64) : f64 :=
  match x with
  | S754_finite s m e =>
      if (0 <=? e)%Z then x else f64_of_Z (Z.shiftr (smant s m) (- e))
  | _ => x
  end.

(** int(x); Python raises on inf/nan, here 0. *)
Definition f64_trunc (x : f64) : Z :=
  match x with
  | S754_finite s m e =>
      let a := if (0 <=? e)%Z then Z.shiftl (Zpos m) e else Z.shiftr (Zpos m) (- e) in
      if s then (- a)%Z else a
  | _ => 0%Z
  end.

(** Exact remainder with the sign of the dividend. *)
Definition f64_fmod (x y : f64) : f64 :=
  match x, y with
  | S754_finite s m e, S754_finite _ m' e' =>
      let d := Z.min e e' in
      let r := Z.modulo (Z.shiftl (Zpos m) (e - d)) (Z.shiftl (Zpos m') (e' - d)) in
      binary_normalize prec emax (if s then (- r)%Z else r) d s
  | S754_zero s, S754_finite _ _ _ => x
  | S754_finite _ _ _, S754_infinity _ => x
  | S754_zero s, S754_infinity _ => x
  | _, _ => S754_nan
  end.

(** Round-half-even of the non-negative rational a/b. *)
Definition rdiv_even (a b : Z) : Z :=
  let q := (a / b)%Z in let r := (a mod b)%Z in
  match (2 * r ?= b)%Z with
  | Lt => q | Gt => (q + 1)%Z | Eq => if Z.even q then q else (q + 1)%Z
  end.

Definition f64_fmt (n : nat) (x : f64) : decnum :=
  match x with
  | S754_zero s => DFin s 0
  | S754_infinity s => DInf s
  | S754_nan => DNan
  | S754_finite s m e =>
      let a := (Zpos m * 10 ^ Z.of_nat n)%Z in
      DFin s (Z.to_N (if (0 <=? e)%Z then Z.shiftl a e else rdiv_even a (2 ^ (- e))))
  end.

(** math.pi = 884279719003555 * 2^-48 *)
Definition f64_pi : f64 := S754_finite false 7074237752028440 (-51).

Definition f64_sub (x y : f64) := SFsub prec emax x y.
Definition f64_hypot (x y : f64) : f64 :=
  SFsqrt prec emax (SFadd prec emax (SFmul prec emax x x) (SFmul prec emax y y)).

Definition F64Ops : NumOps := {|
  T := f64; of_Z := f64_of_Z; lit := f64_lit;
  add := SFadd prec emax; sub := f64_sub; mul := SFmul prec emax; div := SFdiv prec emax;
  opp := SFopp; abs := SFabs; ltb := SFltb; leb := SFleb; eqb := SFeqb;
  floor := f64_floor; trunc := f64_trunc; sqrt := SFsqrt prec emax; hypot := f64_hypot;
  sin := fun _ => S754_nan; cos := fun _ => S754_nan; tan := fun _ => S754_nan;
  acos := fun _ => S754_nan; atan2 := fun _ _ => S754_nan;
  pi := f64_pi; fmod := f64_fmod; fmt := f64_fmt |}.

Lemma F64_order : OrderLaws F64Ops.
Proof.
  split; simpl.
  - intros [s|s| |s m e]; try (destruct s; reflexivity); try reflexivity.
    unfold SFltb, SFcompare. destruct s.
    + rewrite Z.compare_refl, Pcompare_refl. reflexivity.
    + rewrite Z.compare_refl, Pcompare_refl. reflexivity.
  - intros [s|s| |s m e] [s'|s'| |s' m' e']; unfold SFltb, SFcompare;
      try (destruct s; destruct s'); try (destruct s); try (destruct s');
      try reflexivity; try discriminate.
    all: rewrite (Z.compare_antisym e e');
      destruct (e ?= e')%Z; simpl; try reflexivity; try discriminate;
      change (Pos.compare_cont Eq m' m) with (m' ?= m)%positive;
      change (Pos.compare_cont Eq m m') with (m ?= m')%positive;
      rewrite (Pos.compare_antisym m m');
      destruct (m ?= m')%positive; simpl; try reflexivity; try discriminate.
Qed.
