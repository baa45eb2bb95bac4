(** * VoronoiExt: the Voronoi extension (tcnc/voronoi.py) and the same functions of geom/voronoiclip.py.
    Modelled: which segments are drawn.  Not modelled: styles, layers' names, the options' texts. *)
From Verif Require Import Num Geom Polygon Voronoi.
From Coq Require Import ZArith List Bool.
Import ListNotations.

Section VoronoiExt.
  Context {N : NumOps} {E : Epsilon N}.
  Local Open Scope num_scope.
  Local Open Scope res_scope.

  (** Voronoi._clipped_voronoi_segments (voronoi.py 190-219): the other end of an edge without one.
      [p] is the end there is, [xclip] the side of the page the edge is taken to run to. *)
  Definition other_end (b : box N) (xclip : N) (p : pt N) (eq : N * N * N) : res (pt N) :=
    let '(a, bb, c) := eq in
    if is_zero bb then
      do x <- pydiv c a;
      let center_y := (ymin b + ymax b) / #2 in
      Ok (P x (if px p >? center_y then ymax b else ymin b))
    else
      do y <- pydiv (c - (xclip * a)) bb;
      Ok (P xclip y).
  (** lines 194-221, one edge.  [None[0]] in point_inside raises TypeError. *)
  Definition clip_open (b : box N) (xclip : N) (p : pt N) (eq : N * N * N) : res (option (line N)) :=
    if negb (point_inside b p) then Ok None else
    do q <- other_end b xclip p eq;
    Ok (clip_line b (Ln p q)).
  Definition clip_edge (b : box N) (o : vout N) : res (option (line N)) :=
    match vo_p1 o, vo_p2 o with
    | Some p, Some q => Ok (clip_line b (Ln p q))
    | Some p, None => clip_open b (xmax b) p (vo_line o)
    | None, Some q => clip_open b (xmin b) q (vo_line o)
    | None, None => Raise TypeError
    end.
  (** _clipped_voronoi_segments (179-222) *)
  Fixpoint voronoi_segments (b : box N) (l : list (vout N)) : res (list (line N)) :=
    match l with
    | [] => Ok []
    | o :: r =>
        do m <- clip_edge b o;
        do ms <- voronoi_segments b r;
        Ok (match m with Some m => m :: ms | None => ms end)
    end.
  (** _clipped_poly_voronoi_segments (224-231) *)
  Fixpoint voronoi_poly_segments (hull : option (list (pt N))) (l : list (line N)) : res (list (line N)) :=
    match hull, l with
    | None, _ | _, [] => Ok []
    | Some h, s :: r =>
        do ms <- poly_intersect_line h s;
        do rest <- voronoi_poly_segments hull r;
        Ok (ms ++ rest)
    end.
  (** _line_inside_hull (243-286): [cyc_pairs] are the pairs (points[i-1], points[i]) *)
  Definition line_inside_hull (h : list (pt N)) (l : line N) (allow_hull : bool) : bool :=
    let on_hull := existsb (fun '(a, b) => leq (Ln b a) l) (cyc_pairs h) in
    if allow_hull && on_hull then true else
    if negb (poly_inside h (midpoint l)) then false else
    if negb allow_hull && on_hull then false else
    if existsb (fun '(a, b) => peq (p1 l) b || peq (p1 l) a || peq (p2 l) b || peq (p2 l) a) (cyc_pairs h) then true else
    poly_inside h (p1 l) || poly_inside h (p2 l).
  (** _clipped_delaunay_segments (233-241) *)
  Definition delaunay_segments (hull : option (list (pt N))) (es : list (pt N * pt N)) : list (line N) :=
    filter (fun l => match hull with None => true | Some h => line_inside_hull h l true end) (map (fun '(a, b) => Ln a b) es).
  (** the lines drawn by _draw_voronoi (126-177), layer by layer: page, hull, Delaunay edges.  The closed layer is
      [Graph.cull_open_edges] of the second. *)
  Definition draw_voronoi (b : box N) (hull : option (list (pt N))) (d : diagram N) : res (list (line N) * list (line N) * list (line N)) :=
    do vs <- voronoi_segments b (d_edges d);
    do cs <- voronoi_poly_segments hull vs;
    Ok (vs, cs, delaunay_segments hull (d_delaunay d)).

  (** geom/voronoiclip.py clip_voronoi_segments (15-53): no check of the start, [b == 0] *)
  Definition module_open (b : box N) (xclip : N) (p : option (pt N)) (eq : N * N * N) : res (option (line N)) :=
    let '(a, bb, c) := eq in
    if bb =? #0 then
      do x <- pydiv c a;
      match p with
      | None => Raise TypeError
      | Some p => Ok (clip_line b (Ln p (P x (if px p >? (ymin b + ymax b) / #2 then ymax b else ymin b))))
      end
    else
      do y <- pydiv (c - (xclip * a)) bb;
      match p with
      | None => Raise TypeError
      | Some p => Ok (clip_line b (Ln p (P xclip y)))
      end.
  Definition module_edge (b : box N) (o : vout N) : res (option (line N)) :=
    match vo_p1 o, vo_p2 o with
    | Some p, Some q => Ok (clip_line b (Ln p q))
    | p, None => module_open b (xmax b) p (vo_line o)
    | None, q => module_open b (xmin b) q (vo_line o)
    end.
End VoronoiExt.
