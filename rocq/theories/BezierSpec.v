(** * BezierSpec: cubic and quadratic Bezier curves as textbook polynomials over R.
    Only the data types are shared with the model. *)
From Verif Require Import Num NumR Geom GeomSpec Bezier.
From Coq Require Import ZArith Reals List.
Local Open Scope R_scope.

Notation Bez := (bez ROps).
(** Bernstein form of one coordinate, and of the curve. *)
Definition bern3 (a b c d t : R) : R :=
  (1 - t)^3 * a + 3 * (1 - t)^2 * t * b + 3 * (1 - t) * t^2 * c + t^3 * d.
Definition bern2 (a b c t : R) : R := (1 - t)^2 * a + 2 * (1 - t) * t * b + t^2 * c.
Definition on_bez (b : Bez) (t : R) : Pt :=
  P (bern3 (px (z1 b)) (px (k1 b)) (px (k2 b)) (px (z2 b)) t : R)
    (bern3 (py (z1 b)) (py (k1 b)) (py (k2 b)) (py (z2 b)) t : R).
Definition on_quadratic (q1 q2 q3 : Pt) (t : R) : Pt :=
  P (bern2 (px q1) (px q2) (px q3) t : R) (bern2 (py q1) (py q2) (py q3) t : R).
(** A chain of curves: each starts exactly where the one before ends. *)
Fixpoint bez_chain (l : list Bez) (s e : Pt) : Prop :=
  match l with
  | nil => s = e
  | cons b r => z1 b = s /\ bez_chain r (z2 b) e
  end.
(** [v] points along the positive direction [u]. *)
Definition along (u v : Pt) : Prop := exists k, 0 < k /\ px v = k * px u /\ py v = k * py u.
(** ** Arc length: the least upper bound of the lengths of inscribed polylines. *)
Fixpoint polyline_len (l : list Pt) : R :=
  match l with
  | cons a r => match r with cons b _ => euclid a b + polyline_len r | nil => 0 end
  | nil => 0
  end.
Fixpoint increasing_from (x : R) (l : list R) : Prop :=
  match l with nil => x <= 1 | cons t r => x <= t /\ increasing_from t r end.
(** [x] is the length of a polyline with vertices on the curve, taken at parameters that increase from 0 to 1 *)
Definition inscribed (b : Bez) (x : R) : Prop :=
  exists ts, increasing_from 0 ts /\ x = polyline_len (map (on_bez b) ts).
Definition arc_length (b : Bez) (L : R) : Prop := is_lub (inscribed b) L.
Definition control_polygon_len (b : Bez) : R := euclid (z1 b) (k1 b) + euclid (k1 b) (k2 b) + euclid (k2 b) (z2 b).
(** the largest second difference of the control points: how far the curve is from an evenly
    parametrised straight segment *)
Definition bend (b : Bez) : R :=
  Rmax (euclid (P (px (z1 b) + px (k2 b))%R (py (z1 b) + py (k2 b))%R) (P (2 * px (k1 b))%R (2 * py (k1 b))%R))
       (euclid (P (px (k1 b) + px (z2 b))%R (py (k1 b) + py (z2 b))%R) (P (2 * px (k2 b))%R (2 * py (k2 b))%R)).
