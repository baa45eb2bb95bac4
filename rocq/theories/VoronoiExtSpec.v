(** * VoronoiExtSpec: the points of an edge of a Voronoi diagram, written without the model's functions.
    [e1], [e2] are the left and right end, if there are any; a*x + b*y = c is the edge's line. *)
From Verif Require Import Num NumR Geom GeomSpec.
From Coq Require Import ZArith Reals List.
Local Open Scope R_scope.

Definition on_edge (e1 e2 : option Pt) (a b c : R) (z : Pt) : Prop :=
  match e1, e2 with
  | Some p, Some q => on_segment (Ln p q) z
  | Some p, None => a * px z + b * py z = c /\ px p <= px z
  | None, Some q => a * px z + b * py z = c /\ px z <= px q
  | None, None => a * px z + b * py z = c
  end.
(** the ends lie on the edge's line *)
Definition ends_on (e1 e2 : option Pt) (a b c : R) : Prop :=
  forall p, e1 = Some p \/ e2 = Some p -> a * px p + b * py p = c.
(** strictly inside a rectangle *)
Definition within (b : Box_) (q : Pt) : Prop := px (b1 b) < px q < px (b2 b) /\ py (b1 b) < py q < py (b2 b).
(** a point of the page grown by [e] on each side *)
Definition near_box (e : R) (b : Box_) (q : Pt) : Prop :=
  px (b1 b) - e <= px q <= px (b2 b) + e /\ py (b1 b) - e <= py q <= py (b2 b) + e.
