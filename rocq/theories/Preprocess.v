(** * Preprocess: model of SimpleCAM.preprocess_paths (tcnc/cam/simplecam.py 199-328) with all its passes.

    Simplifications: a drawing path is a list of curves, lines and arcs, so the CAMException for other
    segment types has no counterpart; the passes build new lists as the code does. *)
From Coq Require Import ZArith NArith List Bool.
From Verif Require Import Num Geom Bezier Gcode Cam Offset Fillet.
Import ListNotations.

(** The CAM properties read by preprocess_paths (simplecam.py 65-126). *)
Record prep (N : NumOps) := mkprep {
  biarc_tolerance : N; biarc_max_depth : nat; line_flatness : N;
  path_tool_fillet : bool; pp_tool_width : N; path_close_polygons : bool;
  pp_split_cusps : bool;
  path_tool_offset : bool; pp_trail_offset : N; path_preserve_g1 : bool;
  path_smooth_fillet : bool; path_smooth_radius : N
}.
Arguments mkprep {N}. Arguments biarc_tolerance {N}. Arguments biarc_max_depth {N}. Arguments line_flatness {N}.
Arguments path_tool_fillet {N}. Arguments pp_tool_width {N}. Arguments path_close_polygons {N}.
Arguments pp_split_cusps {N}. Arguments path_tool_offset {N}. Arguments pp_trail_offset {N}.
Arguments path_preserve_g1 {N}. Arguments path_smooth_fillet {N}. Arguments path_smooth_radius {N}.

(** A segment of a drawing path. *)
Inductive dseg (N : NumOps) := DCurve (b : bez N) | DSeg (s : cseg N).
Arguments DCurve {N}. Arguments DSeg {N}.

Section Preprocess.
  Context {N : NumOps} {E : Epsilon N}.
  Local Open Scope num_scope.
  Notation path := (list (cseg N)).

  (** A loop that makes a new list with one new element per element, or extends it by a list per element. *)
  Fixpoint rmapl {A B} (f : A -> res B) (l : list A) : res (list B) :=
    match l with [] => Ok [] | x :: r => rbind (f x) (fun y => rbind (rmapl f r) (fun ys => Ok (y :: ys))) end.
  Definition rflat {A B} (f : A -> res (list B)) (l : list A) : res (list B) := rmap (@concat B) (rmapl f l).

  (** path_biarc_approximation (330-361) *)
  Definition biarc_seg (k : prep N) (s : dseg N) : res path :=
    match s with
    | DCurve b => rmap (map plain) (biarc_approximation b (biarc_tolerance k) (biarc_max_depth k) (line_flatness k))
    | DSeg c => Ok [c]
    end.
  Definition path_biarc_approximation (k : prep N) (p : list (dseg N)) : res path := rflat (biarc_seg k) p.
  (** The body of the first loop (253-273). *)
  Definition first_pass (k : prep N) (p : list (dseg N)) : res (list path) :=
    rbind (path_biarc_approximation k p) (fun p =>
    rbind (if path_tool_fillet k && (pp_tool_width k >? #0)
           then fillet_path p (pp_tool_width k / #2) (path_close_polygons k) false true else Ok p) (fun p =>
    if pp_split_cusps k then split_path_g1 p else Ok [p])).
  (** The later passes (279-311). *)
  Definition offset_pass (k : prep N) (l : list path) : res (list path) :=
    if path_tool_offset k && (pp_trail_offset k >? #0) then
      rbind (rmapl (fun p => offset_path p (pp_trail_offset k) (line_flatness k) None) l) (fun l =>
      if path_preserve_g1 k then rmapl (fun p => fix_G1_path p (biarc_tolerance k) (line_flatness k)) l else Ok l)
    else Ok l.
  Definition smooth_pass (k : prep N) (l : list path) : res (list path) :=
    if path_smooth_fillet k && (path_smooth_radius k >? #0) then
      rmapl (fun p => fillet_path p (path_smooth_radius k) (path_close_polygons k) true false) l
    else Ok l.
  (** preprocess_paths (199-328) *)
  Definition preprocess_paths (k : prep N) (l : list (list (dseg N))) : res (list path) :=
    rbind (rflat (first_pass k) l) (fun l => rbind (offset_pass k l) (smooth_pass k)).
End Preprocess.
