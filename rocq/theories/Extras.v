(** * Extras: the smaller extensions (tcnc/polysmooth.py, repeater.py, pipelines.py, colorcount.py) and
    tcnc/cam/toolpath.py.

    Modelled: the geometry and the bookkeeping of these programs.  Not modelled: styles, layer names, text
    positions of the colour key, and the drawing of the debug layer. *)
From Coq Require Import String Ascii ZArith NArith List Bool.
From Verif Require Import Num Str Geom Polygon Bezier Ellipse Svg SvgDoc GeomSvg Css Preprocess.
Import ListNotations.

Section Extras.
  Context {N : NumOps} {E : Epsilon N}.
  Local Open Scope num_scope.
  Local Open Scope res_scope.

  (** list.sort(key=...): a stable sort with respect to '<' on the keys *)
  Fixpoint insert_key {A} (key : A -> N) (x : A) (l : list A) : list A :=
    match l with
    | [] => [x]
    | y :: r => if key y <? key x then y :: insert_key key x r else x :: y :: r
    end.
  Definition sort_key {A} (key : A -> N) (l : list A) : list A := fold_right (insert_key key) [] l.

  (** ** polysmooth.py *)
  (** 154-158: the lines joining consecutive points *)
  Fixpoint lines_through (p : pt N) (l : list (pt N)) : list (line N) :=
    match l with
    | [] => []
    | q :: r => Ln p q :: lines_through q r
    end.
  (** _simplify_polyline (146-159) *)
  Definition simplify_lines (ls : list (line N)) (tol : N) : res (list (gseg N)) :=
    match rev ls with
    | [] => Raise ValueError
    | l :: _ =>
        do pts <- simplify_rdp (map p1 ls ++ [p2 l]) tol;
        match pts with
        | [] => Raise IndexError
        | p :: r => Ok (map GLine (lines_through p r))
        end
    end.
  (** simplify_polylines (124-144); [pending] is the local variable polyline *)
  Fixpoint simplify_loop (new : list (gseg N)) (pending : list (line N)) (path : list (gseg N)) (tol : N)
    : res (list (gseg N)) :=
    match path with
    | [] =>
        match pending with
        | [] => Ok new
        | _ => do s <- simplify_lines pending tol; Ok (new ++ s)
        end
    | GLine l :: r => simplify_loop new (pending ++ [l]) r tol
    | s :: r =>
        match pending with
        | _ :: _ :: _ => do q <- simplify_lines pending tol; simplify_loop (new ++ q) [] r tol
        | _ => simplify_loop (new ++ [s]) pending r tol
        end
    end.
  Definition simplify_polylines (path : list (gseg N)) (tol : N) : res (list (gseg N)) :=
    simplify_loop [] [] path tol.

  (** ** repeater.py *)
  (** 68-72: the transform of copy number [n] of an element with the matrix [m] *)
  Definition copy_matrix (m : mat N) (interval angle : N) (n : nat) : mat N :=
    let v := from_polar (interval * of_Z (Z.of_nat n + 1)) (- angle) in
    compose m (translate (px v) (py v)).
  (** 67-75: one element: its copy is the same element, with this transform attribute *)
  Definition repeat_one {A} (transform : A -> option pystr) (interval angle : N) (n : nat) (e : A) : res (A * pystr) :=
    do m <- parse_transform_attr (N:=N) (transform e);
    Ok (e, L (transform_attr (copy_matrix m interval angle n))).
  (** 66-77: the copies in the order in which they are added; a negative count makes none *)
  Definition repeat_elements {A} (transform : A -> option pystr) (copies : Z) (interval angle : N) (es : list A)
    : res (list (A * pystr)) :=
    rflat (fun n => rmapl (repeat_one transform interval angle n) es) (seq 0 (Z.to_nat copies)).

  (** ** pipelines.py, for two paths of lines *)
  (** _pline_distance (258-278) *)
  Fixpoint pline_distance (d : N) (p : pt N) (path : list (line N)) : N :=
    match path with
    | [] => d
    | s :: r => if point_on_line s p true then d + pdist (p1 s) p else pline_distance (d + llen s) p r
    end.
  (** _linex_segment (211-240): the lines from the start of the ray to the path, sorted by length, then
      the first one longer than 0.001; when there is none the loop ends with the last one *)
  Fixpoint first_longer (last : line N) (l : list (line N)) : line N :=
    match l with
    | [] => last
    | x :: r => if llen x >? lit 1 (-3) then x else first_longer x r
    end.
  Definition ray_lines (ray : line N) (path : list (line N)) : list (line N) :=
    flat_map (fun s => match intersection ray s true false false with
                       | Some q => [Ln (p1 ray) q]
                       | None => [] end) path.
  Definition linex_segment (ray : line N) (path : list (line N)) : option (line N) :=
    match sort_key llen (ray_lines ray path) with
    | [] => None
    | x :: r => Some (first_longer x (x :: r))
    end.
  (** 130-135, 145-149: the bisector of a corner, turned to the side of the other path and made longer *)
  Definition corner_ray (p0 p q : pt N) (side : Z) (diagonal : N) : res (line N) :=
    let b := Ln p (pbisector p p0 q) in
    let b := if Z.eqb (which_side (Ln p0 p) (p2 b) false) side then b else flipped b in
    extend b diagonal false.
  (** 126-140: the rays of the corners of the first path *)
  Fixpoint rays_first (p0 : pt N) (rest : list (line N)) (side : Z) (diagonal : N) (other : list (line N))
    : res (list (line N)) :=
    match rest with
    | [] => Ok []
    | l :: r =>
        do a <- (if abs (angle2 (p1 l) p0 (p2 l)) >? EPS then
                   do b <- corner_ray p0 (p1 l) (p2 l) side diagonal;
                   Ok (match linex_segment b other with Some x => [x] | None => [] end)
                 else Ok []);
        do b <- rays_first (p1 l) r side diagonal other;
        Ok (a ++ b)
    end.
  (** 142-153: those of the second path, with their ends exchanged; here there is no test of the angle *)
  Fixpoint rays_second (p0 : pt N) (rest : list (line N)) (side : Z) (diagonal : N) (other : list (line N))
    : res (list (line N)) :=
    match rest with
    | [] => Ok []
    | l :: r =>
        do b <- corner_ray p0 (p1 l) (p2 l) side diagonal;
        do c <- rays_second (p1 l) r side diagonal other;
        Ok (match linex_segment b other with Some x => lreversed x :: c | None => c end)
    end.
  (** geom.util.reverse_path (util.py 103-109) on lines *)
  Definition reverse_lines (l : list (line N)) : list (line N) := map lreversed (rev l).
  (** _get_segments (111-174); [last] of an empty path raises IndexError *)
  Definition get_segments (path1 path2 : list (line N)) : res (list (line N)) :=
    match path1, path2 with
    | a1 :: _, b1 :: _ =>
        let a9 := last path1 a1 in
        let bbox := bounding_box (map p1 path1 ++ map p1 path2) in
        let path2 := if pdist (p1 a1) (p1 b1) >? pdist (p1 a1) (p2 (last path2 b1)) then reverse_lines path2 else path2 in
        let b1 := hd b1 path2 in
        let b9 := last path2 b1 in
        let diagonal := plen (psub (b2 bbox) (Geom.b1 bbox)) in
        let side := which_side a1 (p1 b1) false in
        do r1 <- rays_first (p1 a1) (tl path1) side diagonal path2;
        do r2 <- rays_second (p1 b1) (tl path2) (- side)%Z diagonal path1;
        let rays := [Ln (p1 a1) (p1 b1)] ++ r1 ++ r2 ++ [Ln (p2 a9) (p2 b9)] in
        let q1 := sort_key (fun p => pline_distance #0 p path1) (map p1 rays) in
        let q2 := sort_key (fun p => pline_distance #0 p path2) (map p2 rays) in
        Ok (map (fun '(a, b) => Ln a b) (combine q1 q2))
    | _, _ => Raise IndexError
    end.
  (** _num_polylines (176-187); for the non-negative quotient int(round(x)) is int(x + 1/2) *)
  Definition num_polylines (maxspacing : N) (count : Z) (segs : list (line N)) : res Z :=
    if maxspacing >? #0 then
      let maxlen := fold_left (fun m s => if llen s >? m then llen s else m) segs #0 in
      do q <- pydiv maxlen maxspacing; Ok (trunc (q + lit 5 (-1)))
    else Ok count.
  (** _get_polylines (189-209): polyline [n] gets one point of every segment *)
  Definition pipe_point (s : line N) (count : Z) (n : nat) : res (pt N) :=
    let len := llen s in
    do a <- pydiv len (of_Z (count + 1));
    do mu <- pydiv a len;
    Ok (lpoint_at s (mu * of_Z (Z.of_nat n + 1))).
  (** The same loop, one polyline at a time; the quotient is taken for every segment, also when no line is asked for. *)
  Definition get_polylines (maxspacing : N) (count : Z) (segs : list (line N)) : res (list (list (pt N))) :=
    do count <- num_polylines maxspacing count segs;
    do _ <- rmapl (fun s => do a <- pydiv (llen s) (of_Z (count + 1)); pydiv a (llen s)) segs;
    match segs with
    | [] => Ok []
    | _ => rmapl (fun n => rmapl (fun s => pipe_point s count n) segs) (seq 0 (Z.to_nat count))
    end.

  (** ** colorcount.py *)
  (** 93-112: counting: the colour of each shape with a fill, and the dictionary color_count (in the order
      of first use; Python's dict.keys() lists the keys in some fixed order) *)
  Fixpoint count_color (c : pystr) (d : list (pystr * Z)) : list (pystr * Z) :=
    match d with
    | [] => [(c, 1%Z)]
    | (k, n) :: r => if str_eqb k c then (k, (n + 1)%Z) :: r else (k, n) :: count_color c r
    end.
  (** 95-99: the fill of an element; an element without style or without fill is not counted *)
  Definition fill_of (style : option pystr) : res (option pystr) :=
    match style with
    | None => Ok None
    | Some s => do d <- inline_style_to_dict (Some s); Ok (dict_get (L "fill") d)
    end.
  Fixpoint color_counts (d : list (pystr * Z)) (styles : list (option pystr)) : res (list (pystr * Z)) :=
    match styles with
    | [] => Ok d
    | s :: r =>
        do f <- fill_of s;
        color_counts (match f with Some c => count_color c d | None => d end) r
    end.
  (** 130-161: the number of 'Total:' *)
  Definition total_count (d : list (pystr * Z)) : Z := fold_left (fun t kv => (t + snd kv)%Z) d 0%Z.

  (** ** cam/toolpath.py *)
  (** verify_continuity (61-69): P.__ne__ is not almost_equal *)
  Fixpoint continuous_from (prev : gseg N) (l : list (gseg N)) : bool :=
    match l with
    | [] => true
    | s :: r => if negb (peq (g_p2 prev) (g_p1 s)) then false else continuous_from s r
    end.
  Definition verify_continuity (path : list (gseg N)) : res bool :=
    match path with [] => Raise IndexError | s :: r => Ok (continuous_from s r) end.
  (** is_closed (71-73) *)
  Definition toolpath_is_closed (path : list (gseg N)) : bool :=
    match path with
    | s :: _ :: _ :: _ => peq (g_p1 s) (g_p2 (last path s))
    | _ => false
    end.
End Extras.
