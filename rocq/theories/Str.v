(** * Str: small ASCII string helpers shared by the models. *)
From Coq Require Import String Ascii ZArith NArith List Bool.
From Verif Require Import Num.
Import ListNotations.
Local Open Scope string_scope.

(** str.upper() on ASCII. *)
Definition upper_ascii (c : ascii) : ascii :=
  let n := N_of_ascii c in
  if ((97 <=? n) && (n <=? 122))%N then ascii_of_N (n - 32) else c.
Fixpoint upper (s : string) : string :=
  match s with EmptyString => EmptyString | String c r => String (upper_ascii c) (upper r) end.

(** str.lower() on ASCII. *)
Definition lower_ascii (c : ascii) : ascii :=
  let n := N_of_ascii c in
  if ((65 <=? n) && (n <=? 90))%N then ascii_of_N (n + 32) else c.
Fixpoint lower (s : string) : string :=
  match s with EmptyString => EmptyString | String c r => String (lower_ascii c) (lower r) end.

Definition is_digit (c : ascii) : bool :=
  let n := N_of_ascii c in ((48 <=? n) && (n <=? 57))%N.

(** Decimal digits of a natural number. *)
Definition digit_char (d : N) : ascii := ascii_of_N (48 + d).

(** [fixed n x acc]: the [n] low decimal digits of [x], followed by [acc]. *)
Fixpoint fixed (n : nat) (x : N) (acc : string) : string :=
  match n with
  | O => acc
  | S k => fixed k (x / 10) (String (digit_char (x mod 10)) acc)
  end.

(** Number of decimal digits: a fuel-bounded loop on the binary size. *)
Fixpoint ndigits_aux (fuel : nat) (x : N) : nat :=
  match fuel with
  | O => 1
  | S k => if (x <? 10)%N then 1 else S (ndigits_aux k (x / 10))
  end.
Definition ndigits (x : N) : nat := ndigits_aux (N.to_nat (N.size x)) x.

(** '%d' % x for a non-negative x. *)
Definition N_text (x : N) : string := fixed (ndigits x) x "".
(** '%d' % x *)
Definition Z_text (z : Z) : string :=
  if (z <? 0)%Z then "-" ++ N_text (Z.abs_N z) else N_text (Z.abs_N z).

(** ['%.nf' % x] given the rounded decimal, for n > 0. *)
Definition dec_text (n : nat) (d : decnum) : string :=
  match d with
  | DFin neg mag =>
      let p := (10 ^ N.of_nat n)%N in
      (if neg then "-" else "") ++ N_text (mag / p) ++ "." ++ fixed n (mag mod p) ""
  | DInf neg => if neg then "-inf" else "inf"
  | DNan => "nan"
  end.

Fixpoint str_mem (c : ascii) (s : string) : bool :=
  match s with EmptyString => false | String d r => Ascii.eqb c d || str_mem c r end.

(** s.split(sep)[0] for a one-character separator. *)
Fixpoint before (sep : ascii) (s : string) : string :=
  match s with
  | EmptyString => EmptyString
  | String c r => if Ascii.eqb c sep then EmptyString else String c (before sep r)
  end.

Definition mem_str (s : string) (l : list string) : bool := existsb (String.eqb s) l.
Definition nonempty (s : string) : bool := match s with EmptyString => false | _ => true end.
Definition newline : string := String (ascii_of_N 10) "".
