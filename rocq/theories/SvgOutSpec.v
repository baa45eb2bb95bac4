(** * SvgOutSpec: what written path data should draw.  Over R. *)
From Verif Require Import Num NumR Geom GeomSpec Bezier SvgSpec GeomSvg GeomSvgSpec.
From Coq Require Import Reals List.
Import ListNotations.
Local Open Scope R_scope.

(** Within half a unit of the [n]-th decimal. *)
Definition near (n : nat) (a b : R) : Prop := Rabs (b - a) <= / 2 * / 10 ^ n.
Definition near_xy (n : nat) (p q : xy R) : Prop := near n (xx p) (xx q) /\ near n (yy p) (yy q).
Definition near_pt (n : nat) (p q : Pt) : Prop := near n (px p) (px q) /\ near n (py p) (py q).
(** The same command with the same flags, every number nearly the same. *)
Definition near_drawn (n : nat) (d e : drawn ROps) : Prop :=
  match d, e with
  | DMove p, DMove q | DLine p, DLine q => near_xy n p q
  | DCurve a b p, DCurve a' b' q => near_xy n a a' /\ near_xy n b b' /\ near_xy n p q
  | DArc rx ry rot l w p, DArc rx' ry' rot' l' w' q =>
      near n rx rx' /\ near n ry ry' /\ near n rot rot' /\ l = l' /\ w = w' /\ near_xy n p q
  | _, _ => False
  end.

Definition at_xy (p : Pt) : xy R := XY (px p : R) (py p : R).
(** The commands that draw the segments of a path that starts where the first one does.  [large a]: the arc is
    the longer way round. *)
Definition drawn_as (g : Gseg) (d : drawn ROps) : Prop :=
  match g with
  | GLine l => d = DLine (at_xy (p2 l))
  | GCurve b => d = DCurve (at_xy (k1 b)) (at_xy (k2 b)) (at_xy (z2 b))
  | GArc a => exists large ccw, d = DArc (radius a) (radius a) 0 large ccw (at_xy (ap2 a)) /\
      (large = true <-> PI < Rabs (sweep a)) /\ (ccw = true <-> 0 <= sweep a)
  | GEArc _ => False
  end.
Definition draws_path (path : list Gseg) (close : bool) (ds : list (drawn ROps)) : Prop :=
  exists g r body, path = g :: r /\ Forall2 drawn_as path body /\
    ds = DMove (at_xy (g_p1 g)) :: body ++ (if close then [DLine (at_xy (g_p1 g))] else []).
(** Each segment starts where the one before it ends. *)
Fixpoint chained (path : list Gseg) : Prop :=
  match path with
  | g :: (h :: _) as r => g_p2 g = g_p1 h /\ chained r
  | _ => True
  end.
