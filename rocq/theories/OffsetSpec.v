(** * OffsetSpec: following a path with a tool whose tip trails behind its axis.  Over R; only the
    data types are shared with the model. *)
From Verif Require Import Num NumR Geom GeomSpec Gcode Cam.
From Coq Require Import ZArith Reals List.
Import ListNotations.
Local Open Scope R_scope.

Notation Seg := (seg ROps).
Notation CSeg := (cseg ROps).
Notation Path := (list (cseg ROps)).

(** The point reached after the fraction [u] of a segment, and the unit vector along which one moves there. *)
Definition reached (s : Seg) (u : R) : Pt :=
  match s with
  | SLine l => at_param l u
  | SArc a => turned (center a) (u * sweep a) (ap1 a)
  end.
Definition heading (s : Seg) (u : R) : Pt :=
  match s with
  | SLine l => P ((px (p2 l) - px (p1 l)) / seg_len l)%R ((py (p2 l) - py (p1 l)) / seg_len l)%R
  | SArc a =>
      let q := turned (center a) (u * sweep a) (ap1 a) in
      let k := if Rlt_dec (sweep a) 0 then -1 else 1 in
      P (- k * (py q - py (center a)) / radius a)%R (k * (px q - px (center a)) / radius a)%R
  end.
(** [q] moved by [d] in the direction [h]. *)
Definition ahead (q h : Pt) (d : R) : Pt := P (px q + d * px h)%R (py q + d * py h)%R.
Definition unit_at (a : R) : Pt := P (cos a) (sin a).
(** A proper segment: a line of positive length or an arc whose data agree. *)
Definition proper (s : Seg) : Prop :=
  match s with SLine l => 0 < seg_len l | SArc a => wf_arc a /\ sweep a <> 0 end.
Definition starts (s : CSeg) : Pt := reached (geo s) 0.
Definition ends (s : CSeg) : Pt := reached (geo s) 1.

(** The direction of the tool at the start / end of a segment: its rotation hint if it has one,
    the direction of travel otherwise. *)
Definition tool_start (s : CSeg) : Pt := match inline_sa s with Some a => unit_at a | None => heading (geo s) 0 end.
Definition tool_end (s : CSeg) : Pt := match inline_ea s with Some a => unit_at a | None => heading (geo s) 1 end.

(** [os] carries the axis of the tool so that its tip, [o] behind the axis, runs along [s], and the
    tool points along [s] at both ends. *)
Definition carries (o : R) (s os : CSeg) : Prop :=
  proper (geo os) /\ (forall u, reached (geo os) u = ahead (reached (geo s) u) (heading (geo s) u) o) /\
  tool_start os = heading (geo s) 0 /\ tool_end os = heading (geo s) 1.
(** [c] pivots the tool: the axis runs along a circle about the fixed point [q], on which the tip stays,
    from [o] ahead of it in the direction [h1] to [o] ahead of it in the direction [h2], turning by at
    most half a circle. *)
Definition pivots (o : R) (q h1 h2 : Pt) (c : CSeg) : Prop :=
  exists a, geo c = SArc a /\ center a = q /\ radius a = o /\ - PI < sweep a <= PI /\
    (forall u, reached (geo c) u = turned q (u * sweep a) (ahead q h1 o)) /\
    reached (geo c) 0 = ahead q h1 o /\ reached (geo c) 1 = ahead q h2 o.
(** [c] is a straight step between the two axis positions. *)
Definition steps (o : R) (q h1 h2 : Pt) (c : CSeg) : Prop :=
  geo c = SLine (Ln (ahead q h1 o) (ahead q h2 o)).

(** The offset path of a connected path: every segment is carried in turn; two neighbours whose axis
    paths do not meet (within [eps]) are joined by a pivot, or by a straight step if the gap is below
    [min_arc] or the two are tangent within [tol]. *)
Inductive woven (eps o min_arc tol : R) : Path -> Path -> Prop :=
| wv_last s os : carries o s os -> woven eps o min_arc tol [s] [os]
| wv_meet s os t r ot out : carries o s os ->
    euclid (ends os) (starts ot) < eps -> woven eps o min_arc tol (t :: r) (ot :: out) ->
    woven eps o min_arc tol (s :: t :: r) (os :: ot :: out)
| wv_join s os t r c ot out : carries o s os ->
    eps <= euclid (ends os) (starts ot) ->
    tool_start c = heading (geo s) 1 -> tool_end c = heading (geo t) 0 ->
    (pivots o (ends s) (heading (geo s) 1) (heading (geo t) 0) c /\ min_arc <= euclid (ends os) (starts ot) \/
     steps o (ends s) (heading (geo s) 1) (heading (geo t) 0) c /\
       (euclid (ends os) (starts ot) < Rmax min_arc tol)) ->
    woven eps o min_arc tol (t :: r) (ot :: out) ->
    woven eps o min_arc tol (s :: t :: r) (os :: c :: ot :: out).
(** The segments of a path meet exactly / within a tolerance. *)
Fixpoint meets (p : Path) : Prop :=
  match p with s :: ((t :: _) as r) => ends s = starts t /\ meets r | _ => True end.
