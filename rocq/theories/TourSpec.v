(** * TourSpec: the way of the machine through the plane while it carries out a program, line by line.  Over R. *)
From Verif Require Import Num NumR Gcode GcodeSpec GcodeR Geom.
From Coq Require Import Reals List String.
Import ListNotations.
Local Open Scope R_scope.

(** The machine shows about [v] on an axis. *)
Definition shows (m : machine) (letter : string) (v err : R) : Prop :=
  exists d, option_map dec_val (mpos m letter) = Some (Some d) /\ Rabs (d - v) <= err.
(** Before the first move the position is not known to the program. *)
Definition shows_place (x y : string) (errx erry : R) (p : option (pt ROps)) (m : machine) : Prop :=
  match p with
  | Some p => shows m x (px p) errx /\ shows m y (py p) erry
  | None => mpos m x = None /\ mpos m y = None
  end.

Section Tour.
  Variable axes : list string.
  Variable at_place : option (pt ROps) -> machine -> Prop.
  (** After [before] and any number of lines of [l], also none or all of them, the machine is at one of two places. *)
  Definition on_way (p q : option (pt ROps)) (before l : list item) : Prop :=
    forall done rest, l = (done ++ rest)%list ->
    exists m, replay axes (before ++ done) machine0 = Some m /\ (at_place p m \/ at_place q m).
  (** From [p] the lines [l] lead to the places [r] in this order, and to none besides. *)
  Inductive tour : option (pt ROps) -> list item -> list item -> list (pt ROps) -> Prop :=
  | t_end p before l : on_way p p before l -> tour p before l []
  | t_step p q before l1 l2 r : on_way p (Some q) before l1 ->
      (exists m, replay axes (before ++ l1) machine0 = Some m /\ at_place (Some q) m) ->
      tour (Some q) (before ++ l1) l2 r -> tour p before (l1 ++ l2) (q :: r).
End Tour.
