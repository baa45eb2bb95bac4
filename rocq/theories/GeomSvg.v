(** * GeomSvg: model of tcnc/svg/geomsvg.py, from SVG shape elements to lines, arcs and curves.

    Simplifications: an element is its tag and its attributes; attribute values are ASCII text (see Svg.v, also
    for [float]); arc flags other than 0 and 1 count as 1; the AssertionError of Arc.transform is ValueError. *)
From Coq Require Import String Ascii ZArith NArith List Bool.
From Verif Require Import Num Str Geom Ellipse Bezier Svg SvgDoc.
Import ListNotations.

(** A geometry object of a path. *)
Inductive gseg (N : NumOps) := GLine (l : line N) | GArc (a : arc N) | GCurve (b : bez N) | GEArc (e : @earc N).
Arguments GLine {N}. Arguments GArc {N}. Arguments GCurve {N}. Arguments GEArc {N}.
(** A path: a list of segments; or, for a line element, the bare Line object (see [convert_line]). *)
Inductive gpath (N : NumOps) := Path (l : list (gseg N)) | Bare (l : line N).
Arguments Path {N}. Arguments Bare {N}.

(** An XML element: tag (with namespace) and attributes. *)
Record element := Elem { tag : pystr; attrs : list (pystr * pystr) }.
(** [element.get(name)] *)
Definition get (e : element) (name : string) : option pystr :=
  match find (fun kv => str_eqb (fst kv) (L name)) (attrs e) with Some kv => Some (snd kv) | None => None end.
(** svg.py 53-55: [strip_ns], [tag.rpartition('}')[2]] *)
Fixpoint strip_ns (t : pystr) : pystr :=
  match t with
  | [] => []
  | c :: r => if existsb (Ascii.eqb "}") t then strip_ns r else t
  end.
(** [s.split(',')] *)
Fixpoint split_comma (w s : pystr) : list pystr :=
  match s with
  | [] => [w]
  | c :: r => if Ascii.eqb c "," then w :: split_comma [] r else split_comma (w ++ [c]) r
  end.

Section GeomSvg.
  Context {N : NumOps} {E : Epsilon N}.
  Local Open Scope num_scope.
  Local Open Scope res_scope.

  (** [p1] and [p2] of a segment *)
  Definition g_p1 (s : gseg N) : pt N :=
    match s with GLine l => p1 l | GArc a => ap1 a | GCurve b => z1 b | GEArc e => ea_p1 e end.
  Definition g_p2 (s : gseg N) : pt N :=
    match s with GLine l => p2 l | GArc a => ap2 a | GCurve b => z2 b | GEArc e => ea_p2 e end.
  (** [segment.transform(matrix)]; EllipticalArc.transform raises a plain Exception (ellipse.py 362-367), here NameError *)
  Definition g_transform (s : gseg N) (m : mat N) : res (gseg N) :=
    match s with
    | GLine l => Ok (GLine (ltransform l m))
    | GArc a => rmap GArc (atransform a m)
    | GCurve b => Ok (GCurve (ztransform b m))
    | GEArc _ => Raise NameError
    end.

  (** an arc flag *)
  Definition pflag (v : pval N) : bool :=
    match v with I z => negb (Z.eqb z 0) | F x => negb (x =? #0) end.
  (** bezier.py 800-825 on an elliptical arc; a sweep is at most a full turn, so at most five steps *)
  Definition bezier_earc (e : @earc N) : res (list (bez N)) :=
    bezier_ellipse 5 (mkellipse (ea_c e) (ea_rx e) (ea_ry e) (ea_phi e)) (ea_start e) (ea_sweep e).
  (** 139-165: the segments of one arc command *)
  Definition arc_segments (a b : pt N) (rx ry phi : N) (large flag to_bezier : bool) : res (list (gseg N)) :=
    do oe <- earc_from_endpoints a b rx ry large flag phi;
    match oe with
    | None => Ok [GLine (Ln a b)]
    | Some e =>
        if feq rx ry then Ok [GArc (mkarc a b rx (ea_sweep e) (ea_c e))]
        else if to_bezier then rmap (map GCurve) (bezier_earc e)
        else Ok [GEArc e]
    end.
  (** 128-175: the segments of one command other than M, drawn from [a] *)
  Definition cmd_segments (c : ascii) (ps : list (pval N)) (a b : pt N) (to_bezier : bool) : res (list (gseg N)) :=
    if Ascii.eqb c "L" then Ok [GLine (Ln a b)]
    else if Ascii.eqb c "A" then
      do rx <- pidx ps 0; do ry <- pidx ps 1; do phi <- pidx ps 2;
      match nth_error ps 3, nth_error ps 4 with
      | Some l, Some w => arc_segments a b rx ry phi (pflag l) (pflag w) to_bezier
      | _, _ => Raise IndexError
      end
    else if Ascii.eqb c "C" then
      do x1 <- pidx ps 0; do y1 <- pidx ps 1; do x2 <- pidx ps 2; do y2 <- pidx ps 3;
      Ok [GCurve (Bz a (P x1 y1) (P x2 y2) b)]
    else if Ascii.eqb c "Q" then
      do x1 <- pidx ps 0; do y1 <- pidx ps 1;
      Ok [GCurve (from_quadratic a (P x1 y1) b)]
    else Ok [].
  (** 125-179: the loop of [parse_path_geom]; [sub]: the current subpath, [done]: the finished ones *)
  Fixpoint geom_loop (cmds : list (outp N)) (a : pt N) (sub : list (gseg N)) (done : list (list (gseg N))) (to_bezier : bool)
    : res (list (gseg N) * list (list (gseg N))) :=
    match cmds with
    | [] => Ok (sub, done)
    | (c, ps) :: r =>
        do x <- Svg.pneg ps 2; do y <- Svg.pneg ps 1;
        let b := P x y in
        if Ascii.eqb c "M" then
          match sub with [] => geom_loop r b [] done to_bezier | _ => geom_loop r b [] (done ++ [sub]) to_bezier end
        else do ss <- cmd_segments c ps a b to_bezier; geom_loop r b (sub ++ ss) done to_bezier
    end.
  (** 111-181: [parse_path_geom] *)
  Definition parse_path_geom (d : pystr) (to_bezier : bool) : res (list (list (gseg N))) :=
    let '(cmds, e) := parse_path d in
    do (sub, done) <- geom_loop cmds (P #0 #0) [] [] to_bezier;
    match e with
    | Some x => Raise x
    | None => Ok (match sub with [] => done | _ => done ++ [sub] end)
    end.

  (** [float(element.get(name, 0))] *)
  Definition number (e : element) (name : string) : res N :=
    match get e name with None => Ok #0 | Some s => py_float (strip s) end.
  (** 184-204: [convert_rect] *)
  Definition convert_rect (e : element) : res (list (gseg N)) :=
    do x1 <- number e "x"; do y1 <- number e "y";
    do w <- number e "width"; do h <- number e "height";
    let x2 := x1 + w in let y2 := y1 + h in
    let p1 := P x1 y1 in let p2 := P x1 y2 in let p3 := P x2 y2 in let p4 := P x2 y1 in
    Ok [GLine (Ln p1 p2); GLine (Ln p2 p3); GLine (Ln p3 p4); GLine (Ln p4 p1)].
  (** 207-221: [convert_line]: a Line, not a list *)
  Definition convert_line (e : element) : res (line N) :=
    do x1 <- number e "x1"; do y1 <- number e "y1"; do x2 <- number e "x2"; do y2 <- number e "y2";
    Ok (Ln (P x1 y1) (P x2 y2)).
  (** 224-247: [convert_circle] *)
  Definition convert_circle (e : element) : res (list (gseg N)) :=
    do r <- number e "r"; let r := abs r in
    do cx <- number e "cx"; do cy <- number e "cy";
    let c := P cx cy in
    let p1 := P (cx + r) cy in let p2 := P cx (cy + r) in let p3 := P (cx - r) cy in let p4 := P cx (cy - r) in
    let q := pi / #2 in
    Ok [GArc (mkarc p1 p2 r q c); GArc (mkarc p2 p3 r q c); GArc (mkarc p3 p4 r q c); GArc (mkarc p4 p1 r q c)].
  (** 250-264: [convert_ellipse] *)
  Definition convert_ellipse (e : element) : res (ellipse N) :=
    do rx <- number e "rx"; do ry <- number e "ry"; do cx <- number e "cx"; do cy <- number e "cy";
    Ok (new_ellipse (P cx cy) rx (Some ry) #0).
  (** one 'x,y' of a points attribute (278-283); unpacking another number of parts raises ValueError *)
  Definition point_of (s : pystr) : res (pt N) :=
    match split_comma [] s with
    | [sx; sy] => do x <- py_float sx; do y <- py_float sy; Ok (P x y)
    | _ => Raise ValueError
    end.
  Fixpoint polyline_loop (prev : pt N) (l : list pystr) : res (list (line N)) :=
    match l with
    | [] => Ok []
    | s :: r => do p <- point_of s; do ls <- polyline_loop p r; Ok (Ln prev p :: ls)
    end.
  (** 267-287: [convert_polyline] *)
  Definition convert_polyline (e : element) : res (list (line N)) :=
    match split_ws (match get e "points" with Some s => s | None => [] end) with
    | [] => Raise IndexError
    | s :: r => do p <- point_of s; polyline_loop p r
    end.
  (** 290-304: [convert_polygon].  Line inherits the != of tuples, which compares end points in order;
      [Line(segments[-1], segments[0])] calls float on a point: TypeError. *)
  Definition convert_polygon (e : element) : res (list (line N)) :=
    do ss <- convert_polyline e;
    match ss with
    | f :: _ :: _ =>
        let z := last ss f in
        if peq (p1 z) (p1 f) && peq (p2 z) (p2 f) then Ok ss else Raise TypeError
    | _ => Ok ss
    end.

  Fixpoint place_path (m : mat N) (l : list (gseg N)) : res (list (gseg N)) :=
    match l with
    | [] => Ok []
    | s :: r =>
        if peq (g_p1 s) (g_p2 s) then place_path m r
        else do s' <- g_transform s m; do r' <- place_path m r; Ok (s' :: r')
    end.
  (** [subpath_list = [subpath, ]] if the subpath is not empty *)
  Definition one (l : list (gseg N)) : list (gpath N) := match l with [] => [] | _ => [Path l] end.
  (** 70-91: the subpaths of an element *)
  Definition subpaths_of (e : element) : res (list (gpath N)) :=
    let t := strip_ns (tag e) in
    if str_eqb t (L "path") then
      match get e "d" with
      | Some (c :: d) => rmap (map Path) (parse_path_geom (c :: d) true)
      | _ => Ok []
      end
    else if str_eqb t (L "line") then do l <- convert_line e; Ok [Bare l]
    else if str_eqb t (L "ellipse") then
      do el <- convert_ellipse e;
      do bs <- bezier_ellipse 5 el #0 (pi * #2);
      Ok (one (map GCurve bs))
    else if str_eqb t (L "rect") then rmap one (convert_rect e)
    else if str_eqb t (L "circle") then rmap one (convert_circle e)
    else if str_eqb t (L "polyline") then do ls <- convert_polyline e; Ok (one (map GLine ls))
    else if str_eqb t (L "polygon") then do ls <- convert_polygon e; Ok (one (map GLine ls))
    else Ok [].
  (** the paths under a transform (98-107); iterating over a bare Line gives points, which have no p1 *)
  Fixpoint place_paths (m : mat N) (l : list (gpath N)) : res (list (gpath N)) :=
    match l with
    | [] => Ok []
    | Path p :: r => do p' <- place_path m p; do r' <- place_paths m r; Ok (Path p' :: r')
    | Bare _ :: _ => Raise AttributeError
    end.
  (** 50-108: [svg_element_to_geometry]; composing with None subscripts None: TypeError *)
  Definition svg_element_to_geometry (e : element) (m parent : option (mat N)) : res (list (gpath N)) :=
    do l <- subpaths_of e;
    match l with
    | [] => Ok []
    | _ =>
        do m <- match parent with
                | None => Ok m
                | Some pm => match m with Some em => Ok (Some (compose pm em)) | None => Raise TypeError end
                end;
        match m with None => Ok l | Some m => place_paths m l end
    end.
  (** 26-47: [svg_to_geometry] *)
  Fixpoint svg_to_geometry (es : list (element * option (mat N))) (parent : option (mat N)) : res (list (gpath N)) :=
    match es with
    | [] => Ok []
    | (e, m) :: r =>
        do l <- svg_element_to_geometry e m parent;
        do ls <- svg_to_geometry r parent;
        Ok (l ++ ls)
    end.
End GeomSvg.
