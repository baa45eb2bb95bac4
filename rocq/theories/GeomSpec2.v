(** * GeomSpec2: points of an arc and distances to it, over R. *)
From Verif Require Import Num NumR Geom GeomSpec.
From Coq Require Import ZArith Reals List.
Local Open Scope R_scope.

(** [q] is a point of the arc: the start turned about the centre by a part of the sweep. *)
Definition on_arc (a : Arc_) (q : Pt) : Prop := exists u, 0 <= u <= 1 /\ q = turned (center a) (u * sweep a) (ap1 a).
(** [d] is the distance of [p] to the arc: attained by a point of the arc and by none undercut. *)
Definition nearest (a : Arc_) (p : Pt) (d : R) : Prop :=
  (exists q, on_arc a q /\ euclid p q = d) /\ forall q, on_arc a q -> d <= euclid p q.
(** [p] lies on the ray from the centre through the point of the circle at the part [u] of the sweep. *)
Definition radially (a : Arc_) (u : R) (p : Pt) : Prop :=
  exists k, 0 < k /\ p = at_param (Ln (center a) (turned (center a) (u * sweep a) (ap1 a))) k.
(** Arcs on which the code's case distinction is clear-cut: not degenerate, less than a full turn, and exactly half a
    turn or clearly not. *)
Definition plain_arc {E : Epsilon ROps} (a : Arc_) : Prop := wf_arc a /\ EPS <= radius a /\ EPS <= euclid (ap1 a) (ap2 a) /\
  0 < Rabs (sweep a) < 2 * PI /\ (Rabs (sweep a) = PI \/ EPS <= Rabs (Rabs (sweep a) - PI)).
(** [p] is within [tol] of the arc, provided that the arc is clear-cut and passes beside [p]. *)
Definition arc_within {E : Epsilon ROps} (a : Arc_) (tol : R) (p : Pt) : Prop :=
  plain_arc a -> forall u, 0 < u < 1 -> radially a u p -> EPS <= euclid p (ap1 a) \/ Rabs (sweep a) <= PI -> exists d, nearest a p d /\ d <= tol.
(** The matrix of a rotation ([d] = 1) or of a mirroring ([d] = -1), with a translation. *)
Definition isometry (m : mat ROps) (d : R) : Prop :=
  d * d = 1 /\ m11 m = d * m00 m /\ m01 m = - d * m10 m /\ m00 m * m00 m + m10 m * m10 m = 1.
