(** * TcncSpec: what the program has to do with a drawing made of straight lines.  Over R.
    Shares with the model only the data types. *)
From Verif Require Import Num NumR Geom GeomSpec GeomSpec2 Cam Svg SvgSpec GeomSvg GeomSvgSpec PropsGeomSvg2.
From Verif Require Ink InkSpec.
From Coq Require Import ZArith Reals List String Ascii.
Import ListNotations.
Local Open Scope R_scope.

(** The SVG element behind an XML node. *)
Definition element_is (n : Ink.xml) (e : GeomSvg.element) : Prop := Ink.x_tag n = Some (tag e) /\ Ink.x_attrs n = attrs e.

(** The corners of the subpaths of a shape drawn with straight lines. *)
Definition straight (d : drawn ROps) : Prop := match d with DMove _ | DLine _ => True | _ => False end.
Definition corners (l : list piece) : list Pt :=
  match l with [] => [] | x :: _ => spot (fst x) :: map (fun x => spot (stop (snd x))) l end.
Inductive outline (e : GeomSvg.element) : list (list Pt) -> Prop :=
| ol_rect x y w h : named e "rect" ->
    length_attr e "x" x -> length_attr e "y" y -> length_attr e "width" w -> length_attr e "height" h ->
    outline e [[P x y; P x (y + h); P (x + w) (y + h); P (x + w) y; P x y]]
| ol_polyline s p q l : named e "polyline" -> attribute e "points" s ->
    points_text (p :: q :: l) s -> Forall xy_ok (p :: q :: l) -> outline e [map value_xy (p :: q :: l)]
| ol_path s p : named e "path" -> attribute e "d" s -> s <> [] ->
    path_ok p -> smooth_directly p -> Forall item_ok (path_items p) -> written (path_items p) s ->
    Forall straight (drawing p) -> outline e (map corners (subpaths (drawing p))).

(** Repeated points are left out; points that differ are at least [tol] apart. *)
Inductive tidy (tol : R) : list Pt -> list Pt -> Prop :=
| td_one p : tidy tol [p] [p]
| td_same p r r' : tidy tol (p :: r) r' -> tidy tol (p :: p :: r) r'
| td_step p q r r' : tol <= euclid p q -> tidy tol (q :: r) r' -> tidy tol (p :: q :: r) (p :: r').

(** Where a point of a shape is on the machine: it is placed in the drawing, whose Y axis points down from the top of
    the page, while the Y axis of the machine points up from the bottom. *)
Definition on_machine (height : R) (f : InkSpec.placement) (p : Pt) : Pt :=
  P (fst (f (px p : R, py p : R)) : R) (height - snd (f (px p : R, py p : R)) : R).

(** The tool path through some points. *)
Fixpoint tool_path (p : Pt) (l : list Pt) : list (cseg ROps) :=
  match l with [] => [] | q :: r => mkseg (SLine (Ln p q)) None None None false false false :: tool_path q r end.
Definition stroke (l : list Pt) : list (cseg ROps) := match l with [] => [] | p :: r => tool_path p r end.
(** A single point draws nothing. *)
Definition visits (l : list Pt) : list Pt := match l with [_] => [] | _ => l end.

(** The depth step of the options: downwards, at most the whole depth, and the whole depth if it is (nearly) zero. *)
Definition pass_step (tol step depth : R) : R :=
  let s := Rmax (- Rabs step) depth in if Rlt_dec (Rabs s) tol then depth else s.
