(** * Quasink: the quasi-periodic tiling extension (tcnc/quasink.py) and the nested offsets of tcnc/polypath.py.
    Modelled: the projections, the plotter that collects, transforms and clips the tiles, the scaling of segments, the chains of
    segments, inset tiles, nested offset polygons.  Not modelled: styles and colours' texts, layers, sorting of the tiles. *)
From Verif Require Import Num Geom Ellipse Quasi.
From Coq Require Import ZArith List Bool.
Import ListNotations.

(** IdentityProjector (quasink.py 36-40), SphericalProjector (43-60) *)
Inductive projector (N : NumOps) := Identity | Sphere (center : pt N) (radius : N) (invert : bool).
Arguments Identity {N}.
Arguments Sphere {N}.
(** the clip region: none, a rectangle or a circle (quasink.py 193-211) *)
Inductive region (N : NumOps) := NoClip | ClipBox (b : box N) | ClipEllipse (e : ellipse N).
Arguments NoClip {N}.
Arguments ClipBox {N}.
Arguments ClipEllipse {N}.
(** _QuasiPlotter.__init__ (660-692): [pl_polys] are polygons and polygon_colors, which grow together, as are [pl_segpolys];
    dictionaries are association lists in the order of insertion *)
Record plotter (N : NumOps) := Plotter {
  pl_polys : list (list (pt N) * N); pl_count : list (N * Z); pl_segs : list (line N);
  pl_segpolys : list (list (pt N) * N); pl_segcount : list (N * Z);
  pl_xmin : N; pl_ymin : N; pl_xmax : N; pl_ymax : N }.
Arguments Plotter {N}.
Arguments pl_polys {N} _.
Arguments pl_count {N} _.
Arguments pl_segs {N} _.
Arguments pl_segpolys {N} _.
Arguments pl_segcount {N} _.
Arguments pl_xmin {N} _.
Arguments pl_ymin {N} _.
Arguments pl_xmax {N} _.
Arguments pl_ymax {N} _.
(** what is fixed: region, matrix, projector, clip_all *)
Record pconf (N : NumOps) := PConf { pc_region : region N; pc_matrix : mat N; pc_proj : projector N; pc_all : bool }.
Arguments PConf {N}.
Arguments pc_region {N} _.
Arguments pc_matrix {N} _.
Arguments pc_proj {N} _.
Arguments pc_all {N} _.

Section Quasink.
  Context {N : NumOps} {E : Epsilon N}.
  Local Open Scope num_scope.
  Local Open Scope res_scope.

  (** project (39-40, 51-60) *)
  Definition project (pr : projector N) (p : pt N) : res (pt N) :=
    match pr with
    | Identity => Ok p
    | Sphere c r invert =>
        let v := psub p c in
        let h := plen v in
        if h >? r then Ok p else
        do q <- pydiv (h * (pi / #2)) r;
        let scale := sin q in
        if invert then Ok (padd (pmul v scale) c) else
        do s <- pydiv (r * scale) h;
        Ok (padd (pmul v s) c)
    end.
  (** point_inside of the region; no region clips nothing *)
  Definition region_inside (rg : region N) (p : pt N) : res bool :=
    match rg with
    | NoClip => Ok true
    | ClipBox b => Ok (point_inside b p)
    | ClipEllipse e => epoint_inside e p
    end.
  (** matrix, then projection (720-721, 782-783) *)
  Definition place (c : pconf N) (p : pt N) : res (pt N) := project (pc_proj c) (apply (pc_matrix c) p).
  (** _transform (773-789): the moved vertices and the number of those outside *)
  Fixpoint transform_loop (c : pconf N) (l : list (pt N)) : res (list (pt N) * Z) :=
    match l with
    | [] => Ok ([], 0%Z)
    | p :: r =>
        do q <- place c p;
        do b <- region_inside (pc_region c) q;
        do (qs, n) <- transform_loop c r;
        Ok (q :: qs, if b then n else (n + 1)%Z)
    end.
  Definition plot_transform (c : pconf N) (l : list (pt N)) : res (list (pt N)) :=
    do (qs, n) <- transform_loop c l;
    Ok (if (pc_all c && (n >? 0)%Z) || (n >? 3)%Z then [] else qs).
  (** _update_bbox (791-797) *)
  Definition update_bbox (pl : plotter N) (l : list (pt N)) : plotter N :=
    fold_left (fun pl p => Plotter (pl_polys pl) (pl_count pl) (pl_segs pl) (pl_segpolys pl) (pl_segcount pl)
      (pymin (pl_xmin pl) (px p)) (pymin (pl_ymin pl) (py p)) (pymax (pl_xmax pl) (px p)) (pymax (pl_ymax pl) (py p))) l pl.
  (** dictionaries with number keys *)
  Fixpoint dget (d : list (N * Z)) (k : N) : option Z :=
    match d with [] => None | (k', v) :: r => if k' =? k then Some v else dget r k end.
  Fixpoint dset (d : list (N * Z)) (k : N) (v : Z) : list (N * Z) :=
    match d with [] => [(k, v)] | (k', v') :: r => if k' =? k then (k', v) :: r else (k', v') :: dset r k v end.
  (** plot_polygon (694-717): the new state and the result *)
  Definition plot_polygon (c : pconf N) (pl : plotter N) (vertices : list (pt N)) (color : N) : res (plotter N * bool) :=
    do xs <- plot_transform c vertices;
    match xs with
    | [] => Ok (pl, false)
    | _ =>
        let pl := update_bbox pl xs in
        let n := match dget (pl_count pl) color with Some n => (n + 1)%Z | None => 1%Z end in
        Ok (Plotter (pl_polys pl ++ [(xs, color)]) (dset (pl_count pl) color n) (pl_segs pl) (pl_segpolys pl) (pl_segcount pl)
              (pl_xmin pl) (pl_ymin pl) (pl_xmax pl) (pl_ymax pl), true)
    end.
  (** plot_segment (719-724) *)
  Definition plot_segment (c : pconf N) (pl : plotter N) (a b : pt N) : res (plotter N) :=
    do a <- place c a;
    do b <- place c b;
    Ok (Plotter (pl_polys pl) (pl_count pl) (pl_segs pl ++ [Ln a b]) (pl_segpolys pl) (pl_segcount pl)
          (pl_xmin pl) (pl_ymin pl) (pl_xmax pl) (pl_ymax pl)).
  (** plot_segpoly (726-738): tests color_count and counts in segpoly_color_count *)
  Definition plot_segpoly (c : pconf N) (pl : plotter N) (vertices : list (pt N)) (color : N) : res (plotter N * bool) :=
    do xs <- plot_transform c vertices;
    match xs with
    | [] => Ok (pl, false)
    | _ =>
        do n <- match dget (pl_count pl) color with
                | Some _ => match dget (pl_segcount pl) color with Some n => Ok (n + 1)%Z | None => Raise KeyError end
                | None => Ok 1%Z
                end;
        Ok (Plotter (pl_polys pl) (pl_count pl) (pl_segs pl) (pl_segpolys pl ++ [(xs, color)]) (dset (pl_segcount pl) color n)
              (pl_xmin pl) (pl_ymin pl) (pl_xmax pl) (pl_ymax pl), true)
    end.
  (** the calls of [Quasi.quasi], which looks at the result of plot_polygon only: [Quasi.visible] *)
  Definition plot_event (c : pconf N) (pl : plotter N) (e : qevent N) : res (plotter N) :=
    match e with
    | QPolygon vs col => rmap fst (plot_polygon c pl vs col)
    | QSegment a b => plot_segment c pl a b
    | QSegpoly vs col => rmap fst (plot_segpoly c pl vs col)
    end.
  Fixpoint plot_events (c : pconf N) (pl : plotter N) (l : list (qevent N)) : res (plotter N) :=
    match l with [] => Ok pl | e :: r => do pl <- plot_event c pl e; plot_events c pl r end.
  (** __init__: sys.float_info.max and .min (the smallest positive normal number) *)
  Definition plotter0 : plotter N :=
    let mx := lit 17976931348623157 292 in let mn := lit 22250738585072014 (-324) in
    Plotter [] [] [] [] [] mx mx mn mn.
  (** recenter (740-765).  The rectangle's [center] is a method: subtracting from it is a TypeError. *)
  Definition recenter (c : pconf N) (pl : plotter N) : res (plotter N) :=
    let cx := (pl_xmax pl - pl_xmin pl) / #2 in
    let cy := (pl_ymax pl - pl_ymin pl) / #2 in
    let bc := P (pl_xmin pl + cx) (pl_ymin pl + cy) in
    match pc_region c with
    | NoClip => Ok pl
    | ClipBox _ => Raise TypeError
    | ClipEllipse e =>
        let o := psub (ec e) bc in
        Ok (Plotter (map (fun '(l, col) => (map (fun p => padd p o) l, col)) (pl_polys pl)) (pl_count pl)
              (map (fun s => Ln (padd (p1 s) o) (padd (p2 s) o)) (pl_segs pl)) (pl_segpolys pl) (pl_segcount pl)
              (pl_xmin pl + px o) (pl_ymin pl + py o) (pl_xmax pl + px o) (pl_ymax pl + py o))
    end.
  (** bbox (767-771) *)
  Definition plot_bbox (pl : plotter N) : box N := mkbox (P (pl_xmin pl) (pl_ymin pl)) (P (pl_xmax pl) (pl_ymax pl)).

  (** _draw_segments (554-563), the scaling of _draw_polygon_segments (541-544) *)
  Definition scaled_segment (k : N) (s : line N) : res (line N) :=
    if negb (k =? lit 1 0) then let len := llen s in extend s ((len * k) - len) true else Ok s.

  (** _inset_polygon (487-506); intersections may be None; IndexError for fewer than four vertices *)
  Definition inset_polygon (vs : list (pt N)) (offset : N) : res (option (list (option (pt N)))) :=
    match vs with
    | v0 :: v1 :: v2 :: v3 :: _ =>
        let l1 := Ln v0 v1 in let l2 := Ln v1 v2 in let l3 := Ln v2 v3 in let l4 := Ln v3 v0 in
        do d1 <- ldist l1 (p1 l3) false;
        do d2 <- ldist l2 (p1 l1) false;
        if (d1 >=? offset * #2) && (d2 >=? offset * #2) then
          let o := offset * of_Z (which_side l1 (p2 l2) false) in
          let o1 := loffset l1 o in let o2 := loffset l2 o in let o3 := loffset l3 o in let o4 := loffset l4 o in
          Ok (Some [intersection o4 o1 false false false; intersection o1 o2 false false false;
                    intersection o2 o3 false false false; intersection o3 o4 false false false])
        else Ok None
    | _ => Raise IndexError
    end.

  (** _SegmentChain.connect_segment (613-629) and its helpers (639-655); chains are never empty lists after the first segment.
      min_corner_angle is 0 in all chains made (584), so every angle is accepted. *)
  Definition connect_segment (chain : list (line N)) (s : line N) : option (list (line N)) :=
    match chain with
    | [] => Some [s]
    | h :: _ =>
        let startp := p1 h in
        let endp := p2 (last chain h) in
        if peq (p1 s) endp then Some (chain ++ [s])
        else if peq (p2 s) endp then Some (chain ++ [lreversed s])
        else if peq (p2 s) startp then Some (s :: chain)
        else if peq (p1 s) startp then Some (lreversed s :: chain)
        else None
    end.
  (** polyline (631-637) *)
  Definition polyline (chain : list (line N)) : list (pt N) :=
    match chain with [] => [] | h :: _ => p1 h :: map p2 chain end.
  (** one round over the remaining segments (586-592): the chain and the segments left over *)
  Fixpoint chain_round (chain : list (line N)) (l : list (line N)) : list (line N) * list (line N) :=
    match l with
    | [] => (chain, [])
    | s :: r =>
        match connect_segment chain s with
        | Some chain' => chain_round chain' r
        | None => let '(c, u) := chain_round chain r in (c, s :: u)
        end
    end.
  (** the loop of one chain (584-592): until a round connects nothing *)
  Fixpoint chain_loop (fuel : nat) (chain l : list (line N)) : res (list (line N) * list (line N)) :=
    match fuel with
    | O => Raise OutOfFuel
    | S fuel =>
        let '(c, u) := chain_round chain l in
        if Nat.eqb (length l) (length u) then Ok (c, u) else chain_loop fuel c u
    end.
  (** _create_chains (581-595) *)
  Fixpoint chains_loop (fuel : nat) (l : list (line N)) : res (list (list (line N))) :=
    match l with
    | [] => Ok []
    | _ =>
        match fuel with
        | O => Raise OutOfFuel
        | S fuel =>
            do (c, u) <- chain_loop (S (length l)) [] l;
            do cs <- chains_loop fuel u;
            Ok (match c with [] => cs | _ => c :: cs end)
        end
    end.
  Definition create_chains (l : list (line N)) : res (list (list (pt N))) :=
    rmap (map polyline) (chains_loop (length l) l).

  (** polypath.py _offset_polys (226-235); [off] is polygon.offset_polygons with the offset and the join type, that is, Clipper *)
  Fixpoint offset_polys (fuel : nat) (off : list (pt N) -> list (list (pt N))) (recurs : bool) (polys : list (list (pt N))) : res (list (list (pt N))) :=
    match fuel with
    | O => Raise OutOfFuel
    | S fuel =>
        (fix each (l : list (list (pt N))) : res (list (list (pt N))) :=
           match l with
           | [] => Ok []
           | poly :: r =>
               let os := off poly in
               do sub <- (if recurs then offset_polys fuel off true os else Ok []);
               do rest <- each r;
               Ok (os ++ sub ++ rest)
           end) polys
    end.
End Quasink.
