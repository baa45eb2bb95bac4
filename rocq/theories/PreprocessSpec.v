(** * PreprocessSpec: drawing paths before they are made into tool paths.  Over R; only the data types
    are shared with the model. *)
From Verif Require Import Num NumR Geom GeomSpec Bezier Gcode Cam OffsetSpec FilletSpec Preprocess.
From Coq Require Import ZArith Reals List.
Import ListNotations.
Local Open Scope R_scope.

Notation DSeg_ := (dseg ROps).
Notation Drawing := (list (dseg ROps)).

Definition d_begin (s : DSeg_) : Pt := match s with DCurve b => z1 b | DSeg c => seg_begin (geo c) end.
Definition d_finish (s : DSeg_) : Pt := match s with DCurve b => z2 b | DSeg c => seg_finish (geo c) end.
(** Consecutive segments of the drawing are less than [eps] apart. *)
Fixpoint drawn (eps : R) (p : Drawing) : Prop :=
  match p with s :: ((t :: _) as r) => euclid (d_finish s) (d_begin t) < eps /\ drawn eps r | _ => True end.
(** A list of segments runs from [a] to [b] without a gap. *)
Definition runs (eps : R) (a b : Pt) (l : list Seg) : Prop :=
  unbroken eps l /\ exists h t, l = h :: t /\ seg_begin h = a /\ seg_finish (last t h) = b.
Definition is_curve (s : DSeg_) : Prop := match s with DCurve _ => True | DSeg _ => False end.
