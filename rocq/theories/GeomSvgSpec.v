(** * GeomSvgSpec: what the geometry made from SVG shapes should be.  Over R.
    Shares with the model only the data types of segments. *)
From Verif Require Import Num NumR Geom GeomSpec GeomSpec2 Ellipse Bezier BezierSpec SvgSpec GeomSvg.
From Coq Require Import ZArith Reals List.
Import ListNotations.
Local Open Scope R_scope.

Notation Gseg := (gseg ROps).
Definition spot (p : xy R) : Pt := P (xx p : R) (yy p : R).
(** Where a drawn piece ends. *)
Definition stop (d : drawn ROps) : xy R :=
  match d with DMove p | DLine p | DCurve _ _ p | DQuad _ p | DArc _ _ _ _ _ p => p end.
(** Every piece together with the point it starts from. *)
Notation piece := (xy R * drawn ROps)%type.
Fixpoint located (here : xy R) (l : list (drawn ROps)) : list piece :=
  match l with [] => [] | d :: r => (here, d) :: located (stop d) r end.
(** The subpaths: the runs of pieces between the moves, without the empty ones. *)
Definition run (l : list piece) : list (list piece) := match l with [] => [] | _ => [l] end.
Fixpoint runs (cur : list piece) (l : list piece) : list (list piece) :=
  match l with
  | [] => run cur
  | (s, DMove p) :: r => run cur ++ runs [] r
  | x :: r => runs (cur ++ [x]) r
  end.
Definition subpaths (l : list (drawn ROps)) : list (list piece) := runs [] (located (XY 0 0) l).

(** The circular arc of the SVG specification from [a] to [b] with radius [r] and the two flags. *)
Definition svg_arc (a b : Pt) (r : R) (large flag : bool) (c : Arc_) : Prop :=
  wf_arc c /\ ap1 c = a /\ ap2 c = b /\ radius c = r /\
  (if flag then 0 < sweep c else sweep c < 0) /\
  (if large then PI < Rabs (sweep c) < 2 * PI else Rabs (sweep c) < PI).
(** The segment [g] draws the piece. *)
Definition shows (x : piece) (g : Gseg) : Prop :=
  let s := spot (fst x) in
  match snd x with
  | DMove _ => False
  | DLine p => exists l, g = GLine l /\ p1 l = s /\ p2 l = spot p
  | DCurve a b p => exists c, g = GCurve c /\ z1 c = s /\ k1 c = spot a /\ k2 c = spot b /\ z2 c = spot p
  | DQuad a p => exists c, g = GCurve c /\ forall t, on_bez c t = on_quadratic s (spot a) (spot p) t
  | DArc rx ry _ large flag p => rx = ry /\ exists c, g = GArc c /\ svg_arc s (spot p) rx large flag c
  end.

(** The point of parameter [u] of a segment. *)
Definition point_on (g : Gseg) (u : R) : Pt :=
  match g with
  | GLine l => at_param l u
  | GArc a => turned (center a) (u * sweep a) (ap1 a)
  | GCurve b => on_bez b u
  | GEArc e => ea_p1 e
  end.
(** A closed chain of segments. *)
Fixpoint joined (l : list Gseg) (s e : Pt) : Prop :=
  match l with [] => s = e | g :: r => point_on g 0 = s /\ joined r (point_on g 1) e end.

(** ** Elements *)
From Coq Require Import String Ascii.
From Verif Require SvgDocSpec.
Notation blank := SvgDocSpec.blank.
(** The element has the given name, with or without a namespace. *)
Definition named (e : element) (name : string) : Prop :=
  tag e = list_ascii_of_string name \/ exists ns, tag e = ns ++ "}"%char :: list_ascii_of_string name.
Definition attribute (e : element) (name : string) (s : list ascii) : Prop := In (list_ascii_of_string name, s) (attrs e).
(** The attribute is missing and counts as zero, or is a number with blanks around it. *)
Definition length_attr (e : element) (name : string) (x : R) : Prop :=
  ((forall s, ~ attribute e name s) /\ x = 0) \/
  exists n b1 b2, numeral_ok n /\ Forall blank b1 /\ Forall blank b2 /\
    attribute e name (b1 ++ numeral_text n ++ b2) /\ x = numeral_value (N:=ROps) n.
(** An XML element has no attribute twice. *)
Definition proper_element (e : element) : Prop := NoDup (map fst (attrs e)).

(** The points of some segments. *)
Definition covers (gs : list Gseg) (q : Pt) : Prop := exists g u, In g gs /\ 0 <= u <= 1 /\ point_on g u = q.
(** The outline of the rectangle with a corner at (x, y). *)
Definition on_rectangle (x y w h : R) (q : Pt) : Prop :=
  (px q = x \/ px q = x + w) /\ y <= py q <= y + h \/ (py q = y \/ py q = y + h) /\ x <= px q <= x + w.
(** A points attribute in the form 'x,y x,y ...'. *)
Inductive points_text : list (xy numeral) -> list ascii -> Prop :=
| pt_end b : Forall blank b -> points_text [] b
| pt_cons b p l t : Forall blank b -> points_text l t -> (l <> [] -> exists c r, t = c :: r /\ blank c) ->
    points_text (p :: l) (b ++ numeral_text (xx p) ++ ","%char :: numeral_text (yy p) ++ t).
Definition value_xy (p : xy numeral) : Pt := P (numeral_value (N:=ROps) (xx p) : R) (numeral_value (N:=ROps) (yy p) : R).
(** The lines from [p] through the points of the list. *)
Fixpoint through (p : Pt) (l : list Pt) : list Gseg :=
  match l with [] => [] | q :: r => GLine (Ln p q) :: through q r end.
(** The axis-parallel ellipse. *)
Definition on_axis_ellipse (c : Pt) (rx ry : R) (q : Pt) : Prop :=
  (px q - px c) / rx * ((px q - px c) / rx) + (py q - py c) / ry * ((py q - py c) / ry) = 1.
(** ** Placement: [M] is the map of the plane *)
Section Placed.
  Context {E : Epsilon ROps}.
  Variable M : Pt -> Pt.
  (** [g'] is [g] moved, point for point. *)
  Definition carries (g g' : Gseg) : Prop := forall u, point_on g' u = M (point_on g u).
  (** The segments whose ends are apart are moved, the others left out. *)
  Inductive placed : list Gseg -> list Gseg -> Prop :=
  | placed_nil : placed [] []
  | placed_skip g l l' : euclid (point_on g 0) (point_on g 1) < EPS -> placed l l' -> placed (g :: l) l'
  | placed_keep g g' l l' : EPS <= euclid (point_on g 0) (point_on g 1) -> carries g g' -> placed l l' -> placed (g :: l) (g' :: l').
  (** What can be moved: lines and curves by every map, arcs of at most half a turn by rigid motions. *)
  Definition movable (g : Gseg) : Prop :=
    match g with
    | GLine _ | GCurve _ => True
    | GArc a => wf_arc a /\ Rabs (sweep a) <= PI /\
        exists m d, (forall p, apply m p = M p) /\ GeomSpec2.isometry m d /\ (d = 1 \/ m00 m <> 0)
    | GEArc _ => False
    end.
End Placed.
