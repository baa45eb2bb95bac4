(** * ClipperSpec: notions for polygon offsetting.  Only the data types are shared with the model. *)
From Verif Require Import Num NumR Geom GeomSpec.
From Coq Require Import ZArith Reals List.
Import ListNotations.
Local Open Scope R_scope.

(** How far [q] lies to the right of the directed line from [a] to [b]: for a counterclockwise polygon, the outside. *)
Definition to_the_right (a b q : Pt) : R :=
  ((px q - px a) * (py b - py a) - (py q - py a) * (px b - px a)) / euclid a b.
(** The coordinates are whole numbers. *)
Definition on_grid (p : Pt) : Prop := exists i j, p = P (IZR i) (IZR j).
(** [q] is [p] up to [e] in each coordinate. *)
Definition near (e : R) (p q : Pt) : Prop := Rabs (px q - px p) <= e /\ Rabs (py q - py p) <= e.
(** Half the diagonal of a grid cell: what rounding to the grid may move a point. *)
Definition half_cell : R := R_sqrt.sqrt 2 / 2.
(** A direction. *)
Definition unit_vec (n : Pt) : Prop := px n * px n + py n * py n = 1.
(** How far [q] lies from [p] in the direction [n]. *)
Definition along (n p q : Pt) : R := px n * (px q - px p) + py n * (py q - py p).
(** The outward direction of the side from [a] to [b] of a counterclockwise polygon. *)
Definition outward (a b : Pt) : Pt := P ((py b - py a) / euclid a b) (- ((px b - px a) / euclid a b)).
(** The cyclic sides of a polygon have different ends. *)
Definition no_repeats (edges : list (Pt * Pt)) : Prop := forall a b, In (a, b) edges -> a <> b.
