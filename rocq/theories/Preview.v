(** * Preview: model of the SVG preview plotter (tcnc/cam/gcodesvg.py).

    The plotter is driven by the calls recorded in [plots] (Gcode.v); it draws into three layers.  A drawn
    element is recorded with its layer, style and geometry; its path attribute is [element_data], from the
    writers in SvgOut.v.  Not modelled: the style templates, the end markers, the creation of the layers (Ink.v
    has create_layer), and the experimental sub-paths (_draw_subpaths, off unless x_subpath_render is set). *)
From Coq Require Import ZArith NArith List Bool.
From Verif Require Import Num Geom Gcode SvgOut Str.
Import ListNotations.

Inductive layer := PathLayer | ToolLayer | DebugLayer.
Inductive style := Moveline | Feedline | Feedarc | Toolmark | Tooloffset | Subpath.
(** create_line, create_circular_arc and create_polypath calls. *)
Inductive element (N : NumOps) :=
| ELine (ly : layer) (st : style) (a b : pt N)
| EArc (ly : layer) (st : style) (a b : pt N) (r : N) (sweep_flag : bool)
| EPath (ly : layer) (st : style) (l : list (line N)).
Arguments ELine {N}. Arguments EArc {N}. Arguments EPath {N}.

(** The constructor's arguments (115-149) and gcgen.tolerance. *)
Record plotter_opts (N : NumOps) := mkpo {
  po_offset : N; po_width : N; po_line_interval : N; po_rotation_interval : N;
  po_toolmarks : bool; po_outline : bool; po_tolerance : N }.
Arguments mkpo {N}. Arguments po_offset {N}. Arguments po_width {N}. Arguments po_line_interval {N}.
Arguments po_rotation_interval {N}. Arguments po_toolmarks {N}. Arguments po_outline {N}. Arguments po_tolerance {N}.

Record plotter (N : NumOps) := mkpl { pl_xy : pt N; pl_z : option N; pl_a : option N; pl_marks : list (line N); pl_drawn : list (element N) }.
Arguments mkpl {N}. Arguments pl_xy {N}. Arguments pl_z {N}. Arguments pl_a {N}. Arguments pl_marks {N}. Arguments pl_drawn {N}.

Section Preview.
  Context {N : NumOps} {E : Epsilon N}.
  Local Open Scope num_scope.

  (** show_toolmarks and show_tm_outline (151-153): nothing without a tool width. *)
  Definition show_toolmarks (k : plotter_opts N) : bool := negb (is_zero (po_width k)) && po_toolmarks k.
  Definition show_tm_outline (k : plotter_opts N) : bool := negb (is_zero (po_width k)) && po_outline k.
  (** The state after the constructor (165-168, 196). *)
  Definition new_plotter : plotter N := mkpl (P #0 #0) (Some #0) (Some #0) [] [].

  (** self.svg.create_... *)
  Definition draw (e : element N) (s : plotter N) : plotter N :=
    mkpl (pl_xy s) (pl_z s) (pl_a s) (pl_marks s) (pl_drawn s ++ [e]).
  Definition set_marks (l : list (line N)) (s : plotter N) : plotter N :=
    mkpl (pl_xy s) (pl_z s) (pl_a s) l (pl_drawn s).
  (** _update_location (474-477) *)
  Definition update_location (e : pt N) (z a : option N) (s : plotter N) : plotter N :=
    mkpl e z a (pl_marks s) (pl_drawn s).
  (** A tuple (x, y, z, a) used as a point: a coordinate that is None is a TypeError (float(None), '%f' % None). *)
  Definition end_point (x y : option N) : res (pt N) :=
    match x, y with Some x, Some y => Ok (P x y) | _, _ => Raise TypeError end.

  (** segment.point_at (line.py, arc.py) *)
  Definition s_point_at (s : seg N) (u : N) : pt N := match s with SLine l => lpoint_at l u | SArc a => apoint_at a u end.
  (** _draw_tool_mark (286-312); gcgen.float_eq is a comparison with the tolerance. *)
  Definition tool_mark_line (k : plotter_opts N) (q : pt N) (angle : N) : line N :=
    let r := po_width k / #2 in
    Ln (padd q (from_polar r (angle + pi / #2))) (padd q (from_polar r (angle - pi / #2))).
  Definition has_offset (k : plotter_opts N) : bool := negb (abs (po_offset k - #0) <? po_tolerance k).
  Definition mark_center (k : plotter_opts N) (p : pt N) (angle : N) : pt N :=
    if has_offset k then padd p (from_polar (po_offset k) (angle - pi)) else p.
  Definition draw_tool_mark (k : plotter_opts N) (sg : seg N) (u angle : N) (s : plotter N) : plotter N :=
    let p := s_point_at sg u in
    let q := mark_center k p angle in
    let s := if has_offset k && show_toolmarks k then draw (ELine ToolLayer Tooloffset p q) s else s in
    let l := tool_mark_line k q angle in
    let fresh := match rev (pl_marks s) with [] => true | m :: _ => negb (is_coincident l m EPS) end in
    let s := if fresh && show_toolmarks k then draw (ELine ToolLayer Toolmark (p1 l) (p2 l)) s else s in
    set_marks (pl_marks s ++ [l]) s.
  (** The while loop of _draw_tool_marks (281-284). *)
  Fixpoint marks_loop (fuel : nat) (k : plotter_opts N) (sg : seg N) (u angle point_incr angle_incr : N) (s : plotter N)
    : res (plotter N) :=
    if u <? #1 + EPS then
      match fuel with
      | O => Raise OutOfFuel
      | S f => marks_loop f k sg (u + point_incr) (angle + angle_incr) point_incr angle_incr (draw_tool_mark k sg u angle s)
      end
    else Ok s.
  (** _draw_tool_marks (264-284) *)
  Definition num_markers (k : plotter_opts N) (sg : seg N) (rotation : N) : res Z :=
    rbind (if s_length sg >? #0 then pydiv (s_length sg) (po_line_interval k)
           else pydiv (abs rotation) (po_rotation_interval k)) (fun q => Ok (Z.max 1 (trunc q))).
  Definition draw_tool_marks (k : plotter_opts N) (sg : seg N) (start_angle end_angle : option N) (s : plotter N)
    : res (plotter N) :=
    match start_angle, end_angle with
    | Some a, Some b =>
        let rotation := b - a in
        rbind (num_markers k sg rotation) (fun n =>
        marks_loop (Z.to_nat (2 * n + 2)) k sg #0 a (#1 / of_Z n) (rotation / of_Z n) s)
    | _, _ => Raise TypeError
    end.

  (** ** The tool mark outline *)
  (** The loop of _make_outline_path (376-388); the intersection points before it are only drawn for debugging. *)
  Fixpoint outline_loop (path : list (line N)) (prev : pt N) (pts : list (pt N)) : list (line N) :=
    match pts with
    | [] => path
    | p :: r =>
        if peq p prev then outline_loop path p r else
        match rev path with
        | l :: before => if Z.eqb (which_side l p true) 0 then outline_loop (rev before ++ [Ln (p1 l) p]) p r
                         else outline_loop (path ++ [Ln prev p]) p r
        | [] => outline_loop [Ln prev p] p r
        end
    end.
  (** _fix_intersections (409-437): the first line from the second next on that the segment meets. *)
  Fixpoint first_crossing (l : line N) (j : nat) (rest : list (line N)) : option (nat * pt N * line N) :=
    match rest with
    | [] => None
    | m :: r => match intersection l m true false false with Some p => Some (j, p, m) | None => first_crossing l (S j) r end
    end.
  (** [skip]: lines still to be passed over. *)
  Fixpoint fix_intersections (skip : nat) (path : list (line N)) : list (line N) :=
    match path with
    | [] => []
    | l :: r =>
        match skip with
        | S n => fix_intersections n r
        | O => match first_crossing l 0 (tl r) with
               | Some (j, p, m) => Ln (p1 l) p :: Ln p (p2 m) :: fix_intersections (j + 2) r
               | None => l :: fix_intersections 0 r
               end
        end
    end.
  (** _fix_reversals (439-472).  The two searches for the end of a reversal, from the line after the corner;
      they return the lines line1 and line2 as the for statement leaves them, and the index found. *)
  Fixpoint right_search (l1 l2 : line N) (j : nat) (rest : list (line N)) : line N * option nat :=
    match rest with
    | [] => (l2, None)
    | m :: r => if abs (angle2 (p2 l1) (p1 l1) (p2 m)) >? pi / #2 then (Ln (p2 l1) (p2 m), Some j)
                else right_search l1 m (S j) r
    end.
  Fixpoint left_search (l1 l2 : line N) (j : nat) (rest : list (line N)) : line N * line N * option nat :=
    match rest with
    | [] => (l1, l2, None)
    | m :: r => let l1 := Ln (p1 l1) (p1 m) in
                if abs (angle2 (p2 l1) (p1 l1) (p2 m)) >? pi / #2 then (l1, m, Some j)
                else left_search l1 m (S j) r
    end.
  Fixpoint reversal_loop (skip : nat) (l1 : line N) (rest : list (line N)) : list (line N) :=
    match rest with
    | [] => [l1]
    | l2 :: r =>
        match skip with
        | S n => reversal_loop n l1 r
        | O =>
            let angle := angle2 (p2 l1) (p1 l1) (p2 l2) in
            if abs angle <? pi / #2 then
              if angle >? #0 then
                match right_search l1 l2 0 (l2 :: r) with
                | (l2', o) => l1 :: reversal_loop (match o with Some j => j | None => 0 end) l2' r
                end
              else
                match left_search l1 l2 0 (l2 :: r) with
                | (l1', l2', o) => l1' :: reversal_loop (match o with Some j => j | None => 0 end) l2' r
                end
            else l1 :: reversal_loop 0 l2 r
        end
    end.
  Definition fix_reversals (path : list (line N)) : res (list (line N)) :=
    match path with [] => Raise IndexError | l :: r => Ok (reversal_loop 0 l r) end.
  (** _make_outline_path (363-391) *)
  Definition make_outline_path (pts : list (pt N)) : res (list (line N)) :=
    match pts with
    | p :: (_ :: _) as r => fix_reversals (fix_intersections 0 (outline_loop [] p (tl pts)))
    | _ => Ok []
    end.
  (** _draw_toolmark_outline (314-341) *)
  Definition draw_outline (s : plotter N) : res (plotter N) :=
    match pl_marks s with
    | [] => Ok s
    | ms =>
        rbind (make_outline_path (map p1 ms)) (fun a =>
        rbind (make_outline_path (map p2 ms)) (fun b =>
        match a, b with
        | _ :: _, _ :: _ => Ok (draw (EPath DebugLayer Subpath b) (draw (EPath DebugLayer Subpath a) s))
        | _, _ => Ok s
        end))
    end.

  (** ** The plotter calls *)
  Definition plot_call (k : plotter_opts N) (e : plot_event N) (s : plotter N) : res (plotter N) :=
    match e with
    (* plot_move (203-206) *)
    | PlotMove x y z a =>
        rbind (end_point x y) (fun p => Ok (update_location p z a (draw (ELine PathLayer Moveline (pl_xy s) p) s)))
    (* plot_feed (208-217) *)
    | PlotFeed x y z a =>
        rbind (end_point x y) (fun p =>
        rbind (if show_toolmarks k then draw_tool_marks k (SLine (Ln (pl_xy s) p)) (pl_a s) a s else Ok s) (fun s =>
        let s := if pdist (pl_xy s) p >? EPS then draw (ELine PathLayer Feedline (pl_xy s) p) s else s in
        Ok (update_location p z a s)))
    (* plot_arc (219-241) *)
    | PlotArc cx cy x y z a clockwise =>
        rbind (end_point x y) (fun p =>
        let c := P cx cy in
        let radius := pdist c (pl_xy s) in
        rbind (if show_toolmarks k
               then draw_tool_marks k (SArc (mkarc (pl_xy s) p radius (angle2 c (pl_xy s) p) c)) (pl_a s) a s
               else Ok s) (fun s =>
        Ok (update_location p z a (draw (EArc PathLayer Feedarc (pl_xy s) p radius (negb clockwise)) s))))
    (* plot_tool_down (243-249) *)
    | PlotDown => Ok (set_marks [] s)
    (* plot_tool_up (251-262) *)
    | PlotUp => if show_tm_outline k then draw_outline s else Ok s
    end.
  (** A program: the first exception stops the generator. *)
  Fixpoint plot_all (k : plotter_opts N) (es : list (plot_event N)) (s : plotter N) : res (plotter N) :=
    match es with [] => Ok s | e :: r => rbind (plot_call k e s) (plot_all k r) end.

  (** The path attribute of an element (svg.py; [n] is the number of decimals of the context). *)
  Definition element_data (n : nat) (e : element N) : res (option (list Ascii.ascii)) :=
    match e with
    | ELine _ _ a b => Ok (Some (line_data n a b))
    | EArc _ _ a b r f => Ok (Some (circular_arc_data n a b r f))
    | EPath _ _ l => polypath_data n (map (fun x => GeomSvg.GLine x) l) false
    end.
End Preview.
