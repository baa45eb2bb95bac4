(** * QuasinkSpec: what the tiling extension draws.  [place] (transform and projection of one point) and
    [region_inside] are the only functions of the model used. *)
From Verif Require Import Num Geom Quasi Quasink.
From Coq Require Import ZArith List.
Import ListNotations.

Section Spec.
  Context {N : NumOps} {E : Epsilon N}.
  (** a polygon appears with the vertices [xs], all of them inside of the clip region *)
  Definition appears (c : pconf N) (vs xs : list (pt N)) : Prop :=
    Forall2 (fun p q => place c p = Ok q) vs xs /\ Forall (fun q => region_inside (pc_region c) q = Ok true) xs /\ vs <> [].
  (** a polygon has a vertex outside of the clip region *)
  Definition sticks_out (c : pconf N) (vs : list (pt N)) : Prop :=
    exists p q, In p vs /\ place c p = Ok q /\ region_inside (pc_region c) q = Ok false.
  (** the calls [evs] draw the tiles [ps], the segments [ss] and the rectangles [gs] *)
  Inductive drawing (c : pconf N) : list (qevent N) -> list (list (pt N) * N) -> list (line N) -> list (list (pt N) * N) -> Prop :=
  | drawing_end : drawing c [] [] [] []
  | drawing_tile vs col xs evs ps ss gs : appears c vs xs -> drawing c evs ps ss gs ->
      drawing c (QPolygon vs col :: evs) ((xs, col) :: ps) ss gs
  | drawing_no_tile vs col evs ps ss gs : sticks_out c vs \/ vs = [] -> drawing c evs ps ss gs ->
      drawing c (QPolygon vs col :: evs) ps ss gs
  | drawing_segment a b a' b' evs ps ss gs : place c a = Ok a' -> place c b = Ok b' -> drawing c evs ps ss gs ->
      drawing c (QSegment a b :: evs) ps (Ln a' b' :: ss) gs
  | drawing_rect vs col xs evs ps ss gs : appears c vs xs -> drawing c evs ps ss gs ->
      drawing c (QSegpoly vs col :: evs) ps ss ((xs, col) :: gs)
  | drawing_no_rect vs col evs ps ss gs : sticks_out c vs \/ vs = [] -> drawing c evs ps ss gs ->
      drawing c (QSegpoly vs col :: evs) ps ss gs.
End Spec.

(** the same thing, possibly turned round *)
Definition either_way {A} (rev : A -> A) (a b : A) : Prop := b = a \/ b = rev a.
(** every element is related to the next one *)
Fixpoint linked {A} (R : A -> A -> Prop) (l : list A) : Prop :=
  match l with
  | a :: ((b :: _) as r) => R a b /\ linked R r
  | _ => True
  end.
