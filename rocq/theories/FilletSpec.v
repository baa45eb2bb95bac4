(** * FilletSpec: rounding the corners of a path, over R.  Only the data types are shared with the model. *)
From Verif Require Import Num NumR Geom GeomSpec Gcode Cam OffsetSpec.
From Coq Require Import ZArith Reals List.
Import ListNotations.
Local Open Scope R_scope.

Definition dir_dot (l m : Line_) : R :=
  (px (p2 l) - px (p1 l)) * (px (p2 m) - px (p1 m)) + (py (p2 l) - py (p1 l)) * (py (p2 m) - py (p1 m)).
(** How much of each of two lines that meet in a corner a fillet of radius [r] takes: r tan(turn / 2). *)
Definition setback (l m : Line_) (r : R) : R := r * Rabs (dir_cross l m) / (seg_len l * seg_len m + dir_dot l m).
Definition before_end (l : Line_) (t : R) : Pt := at_param l (1 - t / seg_len l).
Definition after_start (l : Line_) (t : R) : Pt := at_param l (t / seg_len l).
(** The arc [f] leaves [s] and runs into [t] without a kink. *)
Definition tangent_to (s : Seg) (f : Arc_) (t : Seg) : Prop :=
  heading s 1 = heading (SArc f) 0 /\ heading (SArc f) 1 = heading t 0.

Definition seg_begin (s : Seg) : Pt := match s with SLine l => p1 l | SArc a => ap1 a end.
Definition seg_finish (s : Seg) : Pt := match s with SLine l => p2 l | SArc a => ap2 a end.
(** [m] is a part of [s] in the same direction: of a line, the piece between two of its parameters;
    of an arc, an arc of the same circle. *)
Definition part (s m : Seg) : Prop :=
  match s, m with
  | SLine l, SLine k => exists u v, 0 <= u /\ u <= v /\ v <= 1 /\ k = Ln (at_param l u) (at_param l v)
  | SArc x, SArc y => center y = center x /\ radius y = radius x
  | _, _ => False
  end.
(** Consecutive segments are at most (less than) [eps] apart. *)
Fixpoint unbroken (eps : R) (p : list Seg) : Prop :=
  match p with s :: ((t :: _) as r) => euclid (seg_finish s) (seg_begin t) < eps /\ unbroken eps r | _ => True end.
(** [out] is made of one part of every segment of [p], in order, with some arcs (satisfying [ok]) put
    between neighbours, starting and ending where the parts end and start. *)
Inductive rounded (ok : Arc_ -> Prop) : list Seg -> list Seg -> Prop :=
| rd_last s a : part s a -> seg_finish a = seg_finish s -> rounded ok [s] [a]
| rd_plain s a b t p out : part s a -> seg_finish a = seg_finish s -> seg_begin b = seg_begin t ->
    rounded ok (t :: p) (b :: out) -> rounded ok (s :: t :: p) (a :: b :: out)
| rd_fillet s a f b t p out : part s a -> ok f -> ap1 f = seg_finish a -> ap2 f = seg_begin b ->
    rounded ok (t :: p) (b :: out) -> rounded ok (s :: t :: p) (a :: SArc f :: b :: out).
(** ... and if the path is closed, perhaps one more arc between the last part and the first. *)
Definition round_closed (ok : Arc_ -> Prop) (p out : list Seg) : Prop :=
  exists h m z h' z' f, rounded ok p (h :: m ++ [z]) /\ out = h' :: m ++ [z'; SArc f] /\ part h h' /\ part z z' /\ ok f /\ ap1 f = seg_finish z' /\ ap2 f = seg_begin h' /\ seg_begin z' = seg_begin z /\ seg_finish h' = seg_finish h.
Definition is_line (s : Seg) : Prop := match s with SLine _ => True | SArc _ => False end.
(** Every corner of a polyline is rounded: line, arc of radius [r] tangent to both sides, line, ... *)
Inductive smooth (r : R) : list Line_ -> list Seg -> Prop :=
| sm_last l k : part (SLine l) (SLine k) -> p2 k = p2 l -> smooth r [l] [SLine k]
| sm_corner l k f m k' rest out : part (SLine l) (SLine k) -> wf_arc f -> radius f = r ->
    ap1 f = p2 k -> ap2 f = p1 k' -> tangent_to (SLine l) f (SLine m) ->
    smooth r (m :: rest) (SLine k' :: out) -> smooth r (l :: m :: rest) (SLine k :: SArc f :: SLine k' :: out).
(** A corner that can be rounded: the lines meet, turn, are long enough, and so is what the fillet leaves. *)
Definition roundable (eps r : R) (l m : Line_) : Prop :=
  eps <= seg_len l /\ eps <= seg_len m /\ p2 l = p1 m /\ eps <= Rabs (dir_cross l m) /\
  setback l m r <= seg_len l /\ setback l m r <= seg_len m /\
  eps <= euclid (before_end l (setback l m r)) (after_start m (setback l m r)).
(** ... and so on along a polyline, each corner taking its part of the side it ends on. *)
Fixpoint all_roundable (eps r : R) (l : Line_) (rest : list Line_) : Prop :=
  match rest with
  | [] => True
  | m :: rest' => roundable eps r l m /\ all_roundable eps r (Ln (after_start m (setback l m r)) (p2 m)) rest'
  end.
(** The circle of radius [r] about [c] touches the line [l] at the point [t] before its end and the arc [a]
    at the point [th] (radians) after its start; it lies on the side [k] of the line to which the arc leaves,
    and of the two such circles it is the one next to the corner. *)
Definition turn_sign (a : Arc_) : R := if Rlt_dec (sweep a) 0 then -1 else 1.
Definition touches (r : R) (l : Line_) (a : Arc_) (k t th : R) (c : Pt) : Prop :=
  let u := heading (SLine l) 0 in
  let v := heading (SArc a) 0 in
  let b := before_end l t in
  let q := reached (SArc a) (th / Rabs (sweep a)) in
  let K := turn_sign a in
  let h := radius a - k * K * r in
  (k = 1 \/ k = -1) /\ 0 <= t <= seg_len l /\ 0 < th <= Rabs (sweep a) /\ th < PI /\
  0 < k * (px u * py v - py u * px v) /\
  c = P (px b - k * r * py u)%R (py b + k * r * px u)%R /\
  0 < h /\ c = at_param (Ln (center a) q) (h / radius a) /\
  0 < k * K * ((px c - px (center a)) * px u + (py c - py (center a)) * py u).
Definition backwards_line (l : Line_) : Line_ := Ln (p2 l) (p1 l).
Definition backwards_arc (a : Arc_) : Arc_ := mkarc (ap2 a) (ap1 a) (radius a) (- sweep a)%R (center a).
(** The direction in which the tool enters / leaves a segment: its hint, or else the direction of travel. *)
Definition enters_at (s : CSeg) (x : R) : Prop := inline_sa s = Some x \/ inline_sa s = None /\ unit_at x = heading (geo s) 0.
Definition leaves_at (s : CSeg) (x : R) : Prop := inline_ea s = Some x \/ inline_ea s = None /\ unit_at x = heading (geo s) 1.
(** [x] and [y] are the same direction, within [eps] if they are so close as numbers. *)
Definition same_direction (eps x y : R) : Prop := Rabs (x - y) < eps \/ exists n : Z, x = y + IZR n * (2 * PI).
(** A point whose place on the segment the code can measure: not too close to the start of an arc, nor half a turn or more away. *)
Definition measurable (eps : R) (s : Seg) (u : R) : Prop :=
  match s with
  | SLine _ => 0 <= u
  | SArc a => Rabs (u * sweep a) < PI /\ eps <= euclid (ap1 a) (reached s u)
  end.
(** The circle of radius [r] about [c] touches the arc [a] at the part [u] of its way and the arc [b] at the
    part [v]; it lies on the side [k] to which the second arc leaves the first, and an arc of it from the one
    to the other point turns to that side. *)
Definition beside (a : Arc_) (d u : R) : Pt := at_param (Ln (center a) (reached (SArc a) u)) (d / radius a).
Definition touches_arcs (r : R) (a b : Arc_) (k u v : R) (c : Pt) : Prop :=
  let q1 := reached (SArc a) u in
  let q2 := reached (SArc b) v in
  let h1 := radius a - k * turn_sign a * r in
  let h2 := radius b - k * turn_sign b * r in
  let t1 := heading (SArc a) 1 in
  let t2 := heading (SArc b) 0 in
  (k = 1 \/ k = -1) /\ 0 <= u <= 1 /\ 0 <= v <= 1 /\ 0 < h1 /\ 0 < h2 /\
  0 < k * (px t1 * py t2 - py t1 * px t2) /\
  c = beside a h1 u /\ c = beside b h2 v /\
  0 < k * ((px q1 - px c) * (py q2 - py c) - (py q1 - py c) * (px q2 - px c)).
(** Less than half a turn, by enough for the tolerance, on the circle of radius [d] about the centre. *)
Definition clearly_minor (eps : R) (a : Arc_) (d : R) : Prop :=
  0 < Rabs (sweep a) < PI /\ eps <= d * d * sin (Rabs (sweep a)) /\ eps * (1 + 2 * (d + eps)) < 2 * (d * cos (Rabs (sweep a) / 2)).
(** No other circle of that radius, on that side, comes as close to touching both arcs as the tolerance. *)
Definition only_circle (eps r : R) (a b : Arc_) (k : R) (c : Pt) : Prop :=
  let h1 := radius a - k * turn_sign a * r in
  let h2 := radius b - k * turn_sign b * r in
  forall c', euclid (center a) c' = h1 -> euclid (center b) c' = h2 ->
    (exists u, 0 <= u <= 1 /\ euclid c' (beside a h1 u) <= eps * (1 + 2 * (h1 + eps))) ->
    (exists v, 0 <= v <= 1 /\ euclid c' (beside b h2 v) <= eps * (1 + 2 * (h2 + eps))) -> c' = c.
(** [m] runs over [s] from the part [u] of the way to the part [v], at constant pace. *)
Definition runs_over (s : Seg) (u v : R) (m : Seg) : Prop :=
  forall w, 0 <= w <= 1 -> reached m w = reached s (u + w * (v - u)).
(** As [measurable], seen from the end. *)
Definition measurable_back (eps : R) (s : Seg) (u : R) : Prop :=
  match s with
  | SLine _ => True
  | SArc a => Rabs ((1 - u) * sweep a) < PI /\ eps <= euclid (reached s u) (ap2 a)
  end.
