(** * PolyPathExt: model of the extension polypath.py: which layers it adds and what it draws in them.

    Simplifications.
    - Each selected shape is given as its segments, by their ends (only the ends are given to the graph); vertices as in [Graph].
    - A drawn polygon is its list of vertices (what create_polygon writes for it is in [SvgOut]); a layer is its name before the number
      that create_layer may append, with what is drawn in it, in order.
    - polygon.convex_hull is the parameter [hull] (modelled in [Polygon]); the random choices are arbitrary streams, one for each
      of the two builders.
    - Offset polygons (polyoffset-draw) and the functions that run() never calls (rays, convex and concave vertices) are left out. *)
From Coq Require Import ZArith List Bool Arith.
From Verif Require Import Graph GraphSpec.
Import ListNotations.
Set Implicit Arguments.

(** The options that decide what is drawn (37-87) *)
Record pp_opts := mkpp {
  pp_paths : bool;           (* --polysegpath-draw *)
  pp_longest : bool;         (* --polysegpath-longest *)
  pp_min_length : Z;         (* --polysegpath-min-length *)
  pp_max : Z;                (* --polysegpath-max *)
  pp_strategy : strategy;    (* --polysegpath-type *)
  pp_convex_hull : bool;     (* --convex-hull-draw *)
  pp_hull : bool;            (* --hull-draw *)
  pp_inner : bool            (* --hull-inner-draw *)
}.
(** 'q_polypath', 'q_polypath_long_%d_', 'q_convex_hull', 'q_polyhull' *)
Inductive pp_layer := LPaths | LLong (i : Z) | LConvexHull | LHull.

Section PolyPath.
  Context {V : Type} (G : geo V) (hull : list V -> list V).
  Notation drawn := (pp_layer * list (list V))%type.

  (** create_polygon draws nothing for an empty list (svg.py 620-621) *)
  Definition create_polygons (l : list (list V)) : list (list V) := filter (fun p => match p with [] => false | _ => true end) l.
  (** 152-155 *)
  Definition segment_graph (segments : list (V * V)) : @graph V := fold_left (fun g e => fst (add_edge G g e)) segments (@empty V).
  (** _draw_polypaths (180-188) *)
  Definition draw_polypaths (o : pp_opts) (rs : rng) (g : @graph V) : option (list drawn) :=
    match build_paths G g (pp_strategy o) rs None with
    | None => None
    | Some l => Some [(LPaths, create_polygons (filter (fun p => Z.ltb (pp_min_length o) (Z.of_nat (length p))) l))]
    end.
  (** _draw_longest_polypaths (190-201), from 193 *)
  Fixpoint longest_layers (m i : Z) (l : list (list V)) : list drawn :=
    match l with
    | [] => []
    | p :: r => if Z.eqb i m then [] else (LLong i, create_polygons [p]) :: longest_layers m (i + 1) r
    end.
  Definition draw_longest (o : pp_opts) (rs : rng) (perm : list (V * V) -> list (V * V)) (g : @graph V) : option (list drawn) :=
    match build_longest_paths G g (pp_strategy o) rs perm with
    | None => None
    | Some l => Some (longest_layers (pp_max o) 0 l)
    end.
  (** _draw_convex_hull (248-252) *)
  Definition draw_convex_hull (vperm : list V -> list V) (g : @graph V) : list drawn := [(LConvexHull, create_polygons [hull (vperm (vertices g))])].
  (** 172-178 with _draw_polygon_hulls (254-259) *)
  Definition draw_hulls (o : pp_opts) (g : @graph V) : option (list drawn) :=
    let '(g1, b) := boundary_polygon G g in
    match b with
    | BOk outer =>
        let first := (LHull, create_polygons [outer]) in
        if pp_inner o then
          match snd (peel_boundary_polygon G g1 outer) with
          | None => None
          | Some [] => Some [first]
          | Some inner => Some [first; (LHull, create_polygons inner)]
          end
        else Some [first]
    | _ => None
    end.
  Definition both (a b : option (list drawn)) : option (list drawn) :=
    match a, b with Some x, Some y => Some (x ++ y) | _, _ => None end.
  (** run (121-178); None: an exception *)
  Definition polypath (o : pp_opts) (rs1 rs2 : rng) (perm : list (V * V) -> list (V * V)) (vperm : list V -> list V) (shapes : list (list (V * V)))
    : option (list drawn) :=
    match shapes with
    | [] => Some []
    | _ =>
        let g := segment_graph (concat shapes) in
        both (if pp_paths o then draw_polypaths o rs1 g else Some [])
          (both (if pp_longest o then draw_longest o rs2 perm g else Some [])
            (both (Some (if pp_convex_hull o then draw_convex_hull vperm g else []))
              (if pp_hull o then draw_hulls o g else Some [])))
    end.
End PolyPath.
