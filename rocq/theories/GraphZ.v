(** * GraphZ: the [geo] record for points of the integer grid, where every comparison the code makes
    (ordinates, angles, area sign, point in polygon) is exact.  Used for the concrete cases.
    GraphR: the same record over the reals, from the model of point.py, util.py and polygon.py. *)
From Coq Require Import ZArith List Bool.
From Verif Require Import Graph.
Import ListNotations.
Local Open Scope Z_scope.

Definition zpt := (Z * Z)%type.
Definition zpt_eq (a b : zpt) : {a = b} + {a <> b}.
Proof. decide equality; apply Z.eq_dec. Defined.
Definition zsub (a b : zpt) : zpt := (fst a - fst b, snd a - snd b).
Definition zcross (a b : zpt) : Z := fst a * snd b - snd a * fst b.
Definition zdot (a b : zpt) : Z := fst a * fst b + snd a * snd b.
Definition znorm2 (a : zpt) : Z := zdot a a.
(** direction in [0, pi) first, then [pi, 2 pi): the order of normalize_angle(angle from the +X axis) *)
Definition half (a : zpt) : bool := (0 <? snd a) || ((snd a =? 0) && (0 <? fst a)).
Definition zangle_le (a b : zpt) : bool :=
  match half a, half b with
  | true, false => true
  | false, true => false
  | _, _ => 0 <=? zcross a b
  end.
(** |angle(u,a)| < |angle(u,b)|: cosine of a larger; compare dot(u,a)/|a| with dot(u,b)/|b| *)
Definition sgn_sq (d n : Z) : Z := Z.sgn d * d * d * n.
Definition zturn_lt (u a b : zpt) : bool := sgn_sq (zdot u b) (znorm2 a) <? sgn_sq (zdot u a) (znorm2 b).
Fixpoint zarea2_from (f p : zpt) (l : list zpt) : Z :=
  match l with [] => zcross p f | q :: r => zcross p q + zarea2_from f q r end.
(** twice the (counter-clockwise positive) area *)
Definition zarea2 (l : list zpt) : Z := match l with [] => 0 | p :: r => zarea2_from p p r end.
(** even-odd rule, ray to the right *)
Definition zhit (p a b : zpt) : bool :=
  xorb (snd p <? snd a) (snd p <? snd b) &&
  (if snd a <? snd b then 0 <? zcross (zsub b a) (zsub p a) else zcross (zsub b a) (zsub p a) <? 0).
Fixpoint zinside_from (f q : zpt) (l : list zpt) (p : zpt) : bool :=
  match l with [] => zhit p q f | r :: t => xorb (zhit p q r) (zinside_from f r t p) end.
Definition zinside (l : list zpt) (p : zpt) : bool := match l with [] => false | q :: r => zinside_from q q r p end.
(** polygon.area is negative for counter-clockwise polygons (polygon.py; C47_area_sign_partial) *)
Definition zgeo : geo zpt :=
  mkgeo zpt_eq (fun a b => snd a <? snd b)
    (fun o a b => zangle_le (zsub a o) (zsub b o))
    (fun p c a b => zturn_lt (zsub p c) (zsub a c) (zsub b c))
    (fun l => zarea2 l <? 0) zinside.
