(** * SvgOut: model of the functions of tcnc/svg/svg.py that write path data, and of the to_svg_path methods.

    A function returns the text of the 'd' attribute; the element that carries it and its style are not
    part of this model.  [n]: the precision, the number of digits after the decimal point, positive
    (set_precision, 275-290).  '_scale' (760-763) returns its argument. *)
From Coq Require Import String Ascii ZArith NArith List Bool.
From Verif Require Import Num Str Geom Bezier Svg GeomSvg.
Import ListNotations.

(** [' '.join(d)] *)
Fixpoint join_blank (d : list pystr) : pystr :=
  match d with [] => [] | [t] => t | t :: r => t ++ " "%char :: join_blank r end.

Section SvgOut.
  Context {N : NumOps} {E : Epsilon N}.
  Variable n : nat.
  Local Open Scope num_scope.

  (** '%.nf' % x *)
  Definition fmt_float (x : N) : pystr := L (dec_text n (fmt n x)).
  (** '%.nf,%.nf' (282) *)
  Definition fmt_point (p : pt N) : pystr := fmt_float (px p) ++ ","%char :: fmt_float (py p).
  (** 'M %s' (283) *)
  Definition fmt_move (p : pt N) : pystr := L "M " ++ fmt_point p.
  (** 'C %s %s %s' (288) *)
  Definition fmt_curve (a b p : pt N) : pystr :=
    L "C " ++ fmt_point a ++ " "%char :: fmt_point b ++ " "%char :: fmt_point p.
  (** 'A %s %s %%d %%d %s' (285-287); the flags are 0 or 1 *)
  Definition fmt_flag (b : bool) : pystr := [if b then "1"%char else "0"%char].
  Definition fmt_arc (rx ry rot : N) (large sweep_flag : bool) (p : pt N) : pystr :=
    L "A " ++ fmt_point (P rx ry) ++ " "%char :: fmt_float rot ++ " "%char :: fmt_flag large ++
    " "%char :: fmt_flag sweep_flag ++ " "%char :: fmt_point p.

  (** create_line (547-554) *)
  Definition line_data (a b : pt N) : pystr := L "M " ++ fmt_point a ++ L " L " ++ fmt_point b.
  (** create_circular_arc (556-567) *)
  Definition circular_arc_data (a b : pt N) (r : N) (sweep_flag : bool) : pystr :=
    fmt_move a ++ " "%char :: fmt_arc r r #0 false sweep_flag b.
  (** create_curve (569-599) *)
  Definition curve_data (a c1 c2 b : pt N) : pystr := join_blank [fmt_move a; fmt_curve c1 c2 b].
  (** create_ellipse (526-545) *)
  Definition ellipse_data (c : pt N) (rx ry angle : N) : pystr :=
    let angle := angle - (#2 * pi) * floor (angle / (#2 * pi)) in
    let a := P (rx * cos angle + px c) (rx * sin angle + py c) in
    let b := P (rx * cos (angle + pi) + px c) (rx * sin (angle + pi) + py c) in
    join_blank [fmt_move a; fmt_arc rx ry (degrees angle) false true b; fmt_arc rx ry (degrees angle) false true a].
  (** create_polygon (601-635); no path element is made without vertices *)
  Definition polygon_data (vs : list (pt N)) (close_polygon close_path : bool) : option pystr :=
    match vs with
    | [] => None
    | v :: r =>
        Some (join_blank (L "M" :: fmt_point v :: L "L" :: map fmt_point r ++
          (if close_polygon && negb (peq v (last vs v)) then [fmt_point v] else []) ++
          (if close_path then [L "Z"] else [])))
    end.
  (** create_polypath (637-696); the last case has no len() *)
  Definition segment_data (s : gseg N) : res (list pystr) :=
    match s with
    | GLine l => Ok [L "L"; fmt_point (p2 l)]
    | GCurve b => Ok [fmt_curve (k1 b) (k2 b) (z2 b)]
    | GArc a => Ok [fmt_arc (radius a) (radius a) #0 false (negb (sweep a <? #0)) (ap2 a)]
    | GEArc _ => Raise TypeError
    end.
  Fixpoint segments_data (l : list (gseg N)) : res (list pystr) :=
    match l with
    | [] => Ok []
    | s :: r => rbind (segment_data s) (fun d => rbind (segments_data r) (fun ds => Ok (d ++ ds)))
    end.
  Definition polypath_data (path : list (gseg N)) (close_path : bool) : res (option pystr) :=
    match path with
    | [] => Ok None
    | s :: _ =>
        rmap (fun ds => Some (join_blank (L "M" :: fmt_point (g_p1 s) :: ds ++ (if close_path then [L "Z"] else []))))
             (segments_data path)
    end.
End SvgOut.

Section ToSvgPath.
  Context {N : NumOps}.
  Local Open Scope num_scope.
  Notation f := (fmt_float (N:=N) 6).
  (** '%f %f' *)
  Definition two (p : pt N) : pystr := f (px p) ++ " "%char :: f (py p).
  (** Line.to_svg_path (line.py 600-604) *)
  Definition line_svg_path (l : line N) : pystr := L "M " ++ two (p1 l) ++ L " L " ++ two (p2 l).
  (** Arc.to_svg_path (arc.py 632-641) *)
  Definition arc_svg_path (a : arc N) : pystr :=
    L "M " ++ two (ap1 a) ++ L " A " ++ f (radius a) ++ " "%char :: f (radius a) ++ L " 0.0 0 " ++
    fmt_flag (negb (sweep a <? #0)) ++ " "%char :: two (ap2 a).
  (** CubicBezier.to_svg_path (bezier.py 734-740) *)
  Definition bezier_svg_path (b : bez N) : pystr :=
    L "M " ++ two (z1 b) ++ L " C " ++ two (k1 b) ++ " "%char :: two (k2 b) ++ " "%char :: two (z2 b).
End ToSvgPath.
