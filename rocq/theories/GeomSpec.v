(** * GeomSpec: textbook plane geometry over R, written without the model's functions.
    Only the data types ([pt], [line], [box], [arc]) are shared with the model. *)
From Verif Require Import Num NumR Geom.
From Coq Require Import ZArith Reals List.
Local Open Scope R_scope.

Notation Pt := (pt ROps).
Notation Line_ := (line ROps).
Notation Box_ := (box ROps).
Notation Arc_ := (arc ROps).

(** The point of parameter [u] on the line through the end points of [l]. *)
Definition at_param (l : Line_) (u : R) : Pt :=
  P (px (p1 l) + u * (px (p2 l) - px (p1 l)))%R (py (p1 l) + u * (py (p2 l) - py (p1 l)))%R.
Definition on_line (l : Line_) (q : Pt) : Prop := exists u, q = at_param l u.
Definition on_segment (l : Line_) (q : Pt) : Prop := exists u, 0 <= u <= 1 /\ q = at_param l u.
(** Twice the signed area of (p1, p2, q): positive to the left of the direction p1 -> p2. *)
Definition side (l : Line_) (q : Pt) : R :=
  (px (p2 l) - px (p1 l)) * (py q - py (p1 l)) - (py (p2 l) - py (p1 l)) * (px q - px (p1 l)).
(** Cross product of the two directions: zero exactly for parallel lines. *)
Definition dir_cross (l m : Line_) : R :=
  (px (p2 l) - px (p1 l)) * (py (p2 m) - py (p1 m)) - (py (p2 l) - py (p1 l)) * (px (p2 m) - px (p1 m)).
Definition euclid (a b : Pt) : R := R_sqrt.sqrt ((px a - px b)² + (py a - py b)²).
Definition seg_len (l : Line_) : R := euclid (p1 l) (p2 l).
(** [p] turned about [o] by the angle [a] (counter-clockwise). *)
Definition turned (o : Pt) (a : R) (p : Pt) : Pt :=
  P (px o + (cos a * (px p - px o) - sin a * (py p - py o)))%R
    (py o + (sin a * (px p - px o) + cos a * (py p - py o)))%R.
Definition moved (dx dy : R) (p : Pt) : Pt := P (px p + dx)%R (py p + dy)%R.
(** The closed rectangle. *)
Definition in_box (b : Box_) (q : Pt) : Prop :=
  px (b1 b) <= px q <= px (b2 b) /\ py (b1 b) <= py q <= py (b2 b).
Definition proper_box (b : Box_) : Prop := px (b1 b) <= px (b2 b) /\ py (b1 b) <= py (b2 b).
(** Triangle: [p] is a convex combination of the corners. *)
Definition in_triangle (a b c p : Pt) : Prop :=
  exists u v w, 0 <= u /\ 0 <= v /\ 0 <= w /\ u + v + w = 1 /\
    px p = u * px a + v * px b + w * px c /\ py p = u * py a + v * py b + w * py c.
(** A circular arc whose data agree: the end is the start turned about the centre by the sweep. *)
Definition wf_arc (a : Arc_) : Prop :=
  0 < radius a /\ euclid (ap1 a) (center a) = radius a /\ ap2 a = turned (center a) (sweep a) (ap1 a).
Definition on_circle (c : Pt) (r : R) (q : Pt) : Prop := euclid c q = r.
