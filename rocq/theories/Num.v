(** * Num: the arithmetic the Python code is written against.

    Python floats are modelled by a record of operations WITHOUT laws, so a
    theorem quantified over [N : NumOps] holds for every instance, in particular
    for IEEE-754 binary64 ([NumF64.v]).  Statements about exact arithmetic use the
    instance over the real numbers ([NumR.v]). *)
From Coq Require Import ZArith NArith List Bool.
Import ListNotations.

(** Result of the conversion ['%.nf' % x]: sign, and magnitude in units of
    [10^-n]; or an infinity / nan.  ['%.2f' % -0.001] is ['-0.00'], hence the
    explicit sign. *)
Inductive decnum := DFin (neg : bool) (mag : N) | DInf (neg : bool) | DNan.

Record NumOps := mkNumOps {
  T :> Type;
  of_Z : Z -> T;
  lit : Z -> Z -> T;            (* [lit m e] is the literal m * 10^e *)
  add : T -> T -> T;
  sub : T -> T -> T;
  mul : T -> T -> T;
  div : T -> T -> T;            (* the divisor is non-zero: see [pydiv] *)
  opp : T -> T;
  abs : T -> T;
  ltb : T -> T -> bool;
  leb : T -> T -> bool;
  eqb : T -> T -> bool;
  floor : T -> T;               (* math.floor (a float in Python 2) *)
  trunc : T -> Z;               (* int(x) *)
  sqrt : T -> T;
  hypot : T -> T -> T;
  sin : T -> T;
  cos : T -> T;
  tan : T -> T;
  acos : T -> T;
  atan2 : T -> T -> T;
  pi : T;
  fmod : T -> T -> T;
  fmt : nat -> T -> decnum      (* '%.nf' % x *)
}.

Arguments of_Z {_} _.
Arguments lit {_} _ _.
Arguments add {_} _ _.
Arguments sub {_} _ _.
Arguments mul {_} _ _.
Arguments div {_} _ _.
Arguments opp {_} _.
Arguments abs {_} _.
Arguments ltb {_} _ _.
Arguments leb {_} _ _.
Arguments eqb {_} _ _.
Arguments floor {_} _.
Arguments trunc {_} _.
Arguments sqrt {_} _.
Arguments hypot {_} _ _.
Arguments sin {_} _.
Arguments cos {_} _.
Arguments tan {_} _.
Arguments acos {_} _.
Arguments atan2 {_} _ _.
Arguments pi {_}.
Arguments fmod {_} _ _.
Arguments fmt {_} _ _.

Declare Scope num_scope.
Delimit Scope num_scope with num.
Notation "x + y" := (add x y) : num_scope.
Notation "x - y" := (sub x y) : num_scope.
Notation "x * y" := (mul x y) : num_scope.
Notation "x / y" := (div x y) : num_scope.
Notation "- x" := (opp x) : num_scope.
Notation "x <? y" := (ltb x y) : num_scope.
Notation "x <=? y" := (leb x y) : num_scope.
Notation "x >? y" := (ltb y x) : num_scope.
Notation "x >=? y" := (leb y x) : num_scope.
Notation "x =? y" := (eqb x y) : num_scope.
Notation "# z" := (of_Z z%Z) (at level 1, z at level 0, format "# z") : num_scope.

(** Exceptions that the modelled functions raise. *)
Inductive exn :=
| GCodeException | TypeError | ValueError | KeyError | IndexError
| ZeroDivisionError | AttributeError | UnboundLocalError | NameError | OverflowError | OutOfFuel.

Inductive res (A : Type) := Ok (a : A) | Raise (e : exn).
Arguments Ok {A} a.
Arguments Raise {A} e.

Definition rbind {A B} (x : res A) (f : A -> res B) : res B :=
  match x with Ok a => f a | Raise e => Raise e end.
Definition rmap {A B} (f : A -> B) (x : res A) : res B :=
  match x with Ok a => Ok (f a) | Raise e => Raise e end.

Declare Scope res_scope.
Delimit Scope res_scope with res.
Notation "'do' x <- a ; b" := (rbind a (fun x => b))
  (at level 200, x pattern, a at level 100, b at level 200) : res_scope.

Section Derived.
  Context {N : NumOps}.
  Local Open Scope num_scope.

  (** Python's float division: raises on a zero divisor. *)
  Definition pydiv (x y : N) : res N :=
    if y =? #0 then Raise ZeroDivisionError else Ok (x / y).

  (** math.sqrt: raises ValueError on a negative argument. *)
  Definition pysqrt (x : N) : res N :=
    if x <? #0 then Raise ValueError else Ok (sqrt x).

  (** Python's two-argument [max]/[min]: the first argument wins ties. *)
  Definition pymax (a b : N) : N := if b >? a then b else a.
  Definition pymin (a b : N) : N := if b <? a then b else a.

  Definition two_pi : N := #2 * pi.

  (** math.degrees / math.radians (CPython: x * (180/pi), x * (pi/180)). *)
  Definition degrees (x : N) : N := x * (#180 / pi).
  Definition radians (x : N) : N := x * (pi / #180).
End Derived.

(** The only laws ever assumed of an instance in the order-theoretic theorems:
    [<] is irreflexive and asymmetric.  Proved for R in [NumR.v] and for binary64
    in [NumF64.v]. *)
Record OrderLaws (N : NumOps) : Prop := mkOrderLaws {
  ltb_irrefl : forall x : N, ltb x x = false;
  ltb_asym : forall x y : N, ltb x y = true -> ltb y x = false
}.
