(** * VoronoiSpec: what the properties of Voronoi diagrams mention, written without the model's functions. *)
From Coq Require Import List.
Import ListNotations.

(** two things joined by a path along the pairs of [L], walked either way *)
Inductive reach {A} (L : list (A * A)) (a : A) : A -> Prop :=
| reach_here : reach L a a
| reach_step b c : reach L a b -> In (b, c) L \/ In (c, b) L -> reach L a c.
(** one of the pairs of [L], either way round *)
Definition side_of {A} (L : list (A * A)) (a b : A) : Prop := In (a, b) L \/ In (b, a) L.
