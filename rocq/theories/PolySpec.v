(** * PolySpec: textbook notions for point lists over R.  Only the data types are shared with the model. *)
From Verif Require Import Num NumR Geom GeomSpec.
From Coq Require Import ZArith Reals List.
Import ListNotations.
Local Open Scope R_scope.

(** Twice the signed area of the triangle a b c: positive iff c is strictly to the left of the
    directed line a -> b. *)
Definition cross3 (a b c : Pt) : R := (px b - px a) * (py c - py a) - (py b - py a) * (px c - px a).
(** The directed edges of the closed polygon with vertices [l], starting with l[0] -> l[1]. *)
Definition cyclic_edges (l : list Pt) : list (Pt * Pt) :=
  match l with [] => [] | p :: r => combine l (r ++ [p]) end.
(** [h] is the convex hull of [pts], counterclockwise. *)
Record is_hull (pts h : list Pt) : Prop := {
  hull_vertices : forall p, In p h -> In p pts;
  hull_distinct : NoDup h;
  hull_encloses : forall a b, In (a, b) (cyclic_edges h) -> forall p, In p pts -> 0 <= cross3 a b p;
  hull_strict : (3 <= length h)%nat -> forall a b c, In (a, b) (cyclic_edges h) -> In (b, c) (cyclic_edges h) -> 0 < cross3 a b c;
  hull_two : forall a b, h = [a; b] -> forall p, In p pts -> on_segment (Ln a b) p;
  hull_one : forall a, h = [a] -> forall p, In p pts -> p = a;
  hull_none : h = [] -> pts = [] }.
(** The shoelace formula: positive for counterclockwise simple polygons. *)
Definition sum_over {A} (f : A -> R) (l : list A) : R := fold_right (fun x s => f x + s) 0 l.
Definition signed_area (l : list Pt) : R :=
  sum_over (fun '(a, b) => px a * py b - px b * py a) (cyclic_edges l) / 2.
(** Consecutive elements of a list. *)
Definition consecutive {A} (l : list A) : list (A * A) := combine l (tl l).
(** [kept] are increasing positions of [l], from the first to the last, and every vertex of [l] between
    two consecutive kept ones is within [tol] of the segment that replaces it. *)
Definition simplification (tol : R) (l out : list Pt) : Prop :=
  exists kept : list nat,
    out = map (fun i => nth i l (P 0%R 0%R)) kept /\
    hd_error kept = Some 0%nat /\ (exists k, kept = k ++ [length l - 1]%nat) /\
    (forall i j, In (i, j) (consecutive kept) -> (i < j < length l)%nat /\
      forall k, (i < k < j)%nat ->
        exists q, on_segment (Ln (nth i l (P 0%R 0%R)) (nth j l (P 0%R 0%R))) q /\ euclid q (nth k l (P 0%R 0%R)) <= tol).
(** The horizontal ray from [p] to the right crosses the edge a -> b: some point of the edge, its upper
    end point excluded, has the ordinate of [p] and lies strictly to the right; horizontal edges do not count. *)
Definition ray_crosses (p a b : Pt) : Prop :=
  ((py a <= py p < py b) \/ (py b <= py p < py a)) /\
  exists q, on_segment (Ln a b) q /\ py q = py p /\ px p < px q.
(** A strictly convex polygon listed counterclockwise. *)
Record convex_ccw (h : list Pt) : Prop := {
  cc_size : (3 <= length h)%nat;
  cc_distinct : NoDup h;
  cc_left : forall a b, In (a, b) (cyclic_edges h) -> forall v, In v h -> 0 <= cross3 a b v;
  cc_turn : forall a b c, In (a, b) (cyclic_edges h) -> In (b, c) (cyclic_edges h) -> 0 < cross3 a b c }.
