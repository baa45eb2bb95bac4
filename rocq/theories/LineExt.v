(** * LineExt: the two methods of geom/line.py that nothing in the program calls: general_equation and intersects.

    Simplification: [raise (a, b, c)] is Python 2's raise of a tuple: its first element, a number, is not an exception: TypeError. *)
From Coq Require Import ZArith List Bool.
From Verif Require Import Num Geom.

Section LineExt.
  Context {N : NumOps}.
  (** Line.general_equation: the coefficients (91-94) *)
  Definition general_coefficients (l : line N) : N * N * N :=
    (sub (py (p1 l)) (py (p2 l)), sub (px (p2 l)) (px (p1 l)), cross (p1 l) (p2 l)).
  (** Line.general_equation (80-95): they are raised, not returned *)
  Definition general_equation (l : line N) : res (N * N * N) :=
    let '(_, _, _) := general_coefficients l in Raise TypeError.
  (** Line.intersects (381-384): interection_mu is not a method of lines *)
  Definition line_intersects (l o : line N) (segment : bool) : res bool := Raise AttributeError.
End LineExt.
