(** * ClipperOffset: polygon offsetting (tcnc/geom/polygon.py 407-465) on the Clipper library (tcnc/contrib/clipper.py).
    Modelled: conversion to and from the integer grid, Area, Orientation, duplicate removal, the raw outline made of the
    polygon before it is united.  The union itself (class Clipper, 1785-1870) is a parameter. *)
From Coq Require Import ZArith List Bool.
From Verif Require Import Num Geom.
Import ListNotations.

(** JoinType (clipper.py 42) *)
Inductive jointype := JSquare | JRound | JMiter.

Section ClipperOffset.
  Context {N : NumOps}.
  Local Open Scope num_scope.
  Local Open Scope res_scope.

  (** round(x) of Python 2: a float, halves away from zero *)
  Definition pyround (x : N) : N := if x <? #0 then opp (floor (lit 5 (-1) - x)) else floor (x + lit 5 (-1)).
  Definition roundpt (x y : N) : pt N := P (pyround x) (pyround y).

  (** _PointsEqual (227-228) *)
  Definition points_equal (p q : pt N) : bool := (px p =? px q) && (py p =? py q).
  Definition pt0 : pt N := P #0 #0.
  (** Area (116-122); polygon[highI] of an empty list is an IndexError *)
  Definition area_term (p q : pt N) : N := (px p + px q) * (py q - py p).
  Fixpoint area_loop (a : N) (p : pt N) (l : list (pt N)) : N :=
    match l with [] => a | q :: r => area_loop (a + area_term p q) q r end.
  Definition cl_area (l : list (pt N)) : res N :=
    match l with
    | [] => Raise IndexError
    | p :: r => Ok (area_loop (area_term (last l p) p) p r / #2)
    end.
  (** Orientation (124-125) *)
  Definition orientation (l : list (pt N)) : res bool := rmap (fun a => a >? #0) (cl_area l).

  (** _StripDupPts (1940-1948): the length is taken before the removals *)
  Fixpoint remove_nth {A} (i : nat) (l : list A) : list A :=
    match l, i with [], _ => [] | _ :: r, O => r | x :: r, S i => x :: remove_nth i r end.
  Fixpoint strip_loop (count i : nat) (l : list (pt N)) : res (list (pt N)) :=
    match count with
    | O => Ok l
    | S count =>
        if Nat.leb (length l) i then Raise IndexError else
        strip_loop count (S i) (if points_equal (nth (i - 1) l pt0) (nth i l pt0) then remove_nth i l else l)
    end.
  (** the points at the end that equal the first: on the reversed list *)
  Fixpoint strip_end (p0 : pt N) (rev : list (pt N)) : list (pt N) :=
    match rev with
    | p :: r => match r with [] => rev | _ => if points_equal p p0 then strip_end p0 r else rev end
    | [] => rev
    end.
  Definition strip_dup (l : list (pt N)) : res (list (pt N)) :=
    match l with
    | [] => Ok []
    | p :: _ => do l <- strip_loop (length l - 1) 1 l; Ok (rev (strip_end p (rev l)))
    end.

  (** _GetUnitNormal (1902-1910) *)
  Definition unit_normal (p q : pt N) : pt N :=
    if (px q =? px p) && (py q =? py p) then P (lit 0 0) (lit 0 0) else
    let dx := px q - px p in
    let dy := py q - py p in
    let f := lit 10 (-1) / hypot dx dy in
    P (dy * f) (opp (dx * f)).
  (** _DoSquare (1952-1962), _DoMiter (1964-1969): [p] the vertex, [nk] and [nj] the normals before and after it *)
  Definition cosine (nk nj : pt N) : N := px nk * px nj + py nk * py nj.
  Definition do_square (delta sina : N) (p nk nj : pt N) : list (pt N) :=
    let dx := tan (atan2 sina (cosine nk nj) / #4) in
    [roundpt (px p + delta * (px nk - py nk * dx)) (py p + delta * (py nk + px nk * dx));
     roundpt (px p + delta * (px nj + py nj * dx)) (py p + delta * (py nj - px nj * dx))].
  Definition do_miter (delta r : N) (p nk nj : pt N) : res (list (pt N)) :=
    do q <- pydiv delta r;
    Ok [roundpt (px p + (px nk + px nj) * q) (py p + (py nk + py nj) * q)].
  (** GetSin (1987-1991) *)
  Definition get_sin (nk nj : pt N) : N :=
    let s := px nk * py nj - px nj * py nk in
    if s >? lit 10 (-1) then lit 10 (-1) else if s <? opp (lit 10 (-1)) then opp (lit 10 (-1)) else s.
  (** _OffsetPoint (1993-2007).  [delta] is a float, so the divisions are float divisions.  _DoRound (1972-1984) calls range with the float that round returns in Python 2: TypeError. *)
  Definition offset_point (jt : jointype) (delta miterlim : N) (p nk nj : pt N) : res (list (pt N)) :=
    let sina := get_sin nk nj in
    if sina * delta <? #0 then
      Ok [roundpt (px p + px nk * delta) (py p + py nk * delta); p; roundpt (px p + px nj * delta) (py p + py nj * delta)]
    else match jt with
    | JMiter =>
        let r := lit 10 (-1) + (px nj * px nk + py nj * py nk) in
        if r >=? miterlim then do_miter delta r p nk nj else Ok (do_square delta sina p nk nj)
    | JSquare => Ok (do_square delta sina p nk nj)
    | JRound => Raise TypeError
    end.
  (** 2012-2016 *)
  Definition miter_limit (limit : N) : N := if limit >? #2 then #2 / (limit * limit) else lit 5 (-1).
  (** 2065-2080: the corners in order, each with the normals before and after it *)
  Fixpoint normals (first : pt N) (l : list (pt N)) : list (pt N) :=
    match l with
    | [] => []
    | p :: r => unit_normal p (match r with [] => first | q :: _ => q end) :: normals first r
    end.
  Fixpoint corners (jt : jointype) (delta miterlim : N) (nk : pt N) (l : list (pt N * pt N)) : res (list (pt N)) :=
    match l with
    | [] => Ok []
    | (p, nj) :: r =>
        do qs <- offset_point jt delta miterlim p nk nj;
        do rest <- corners jt delta miterlim nj r;
        Ok (qs ++ rest)
    end.
  (** one polygon (2033-2080) with isPolygon set: None for those that are passed over.  A polygon of one point is passed over
      too, after an outline that is not used has been made; with round joins that fails (2042). *)
  Definition outline (jt : jointype) (delta limit : N) (pts : list (pt N)) : res (option (list (pt N))) :=
    match pts with
    | [] => Ok None
    | p :: r =>
        if Nat.ltb (length pts) 3 && (delta <=? #0) then Ok None else
        match r with
        | [] => match jt with JRound => Raise TypeError | _ => Ok None end
        | _ =>
            let pts := if points_equal p (last pts p) then removelast pts else pts in
            let ns := normals p pts in
            do out <- corners jt delta (miter_limit limit) (last ns pt0) (combine pts ns);
            Ok (Some out)
        end
    end.
  Fixpoint outlines (jt : jointype) (delta limit : N) (polys : list (list (pt N))) : res (list (list (pt N))) :=
    match polys with
    | [] => Ok []
    | pts :: r =>
        do o <- outline jt delta limit pts;
        do rest <- outlines jt delta limit r;
        Ok (match o with Some o => o :: rest | None => rest end)
    end.
  (** the step of round joins (2018-2026): math.acos is defined from -1 to 1 *)
  Definition round_limit (delta limit : N) : res N :=
    let limit := if limit <=? #0 then lit 25 (-2) else if limit >? abs delta * lit 25 (-2) then abs delta * lit 25 (-2) else limit in
    do q <- pydiv limit (abs delta);
    let x := #1 - q in
    if (x <? opp #1) || (x >? #1) then Raise ValueError else pydiv pi (acos x).
  (** _OffsetInternal (1950-2148) for polygons; [union delta] is the rest (2131-2147), with the Clipper class *)
  Definition offset_internal (union : N -> list (list (pt N)) -> res (list (list (pt N)))) (polys : list (list (pt N))) (delta : N) (jt : jointype) (limit : N)
      : res (list (list (pt N))) :=
    if delta =? #0 then Ok polys else
    do _ <- (match jt with JRound => rmap (fun _ => tt) (round_limit delta limit) | _ => Ok tt end);
    do res <- outlines jt delta limit polys;
    union delta res.
  (** _GetLowestPt (1932-1938) *)
  Definition lower (p q : pt N) : bool := (py p >? py q) || ((py p =? py q) && (px p <? px q)).
  Definition lowest (p : pt N) (l : list (pt N)) : pt N := fold_left (fun q x => if lower x q then x else q) l p.
  (** 2154-2162: the polygon with the lowest point; all are stripped *)
  Fixpoint find_lowest (best : option (pt N * list (pt N))) (polys : list (list (pt N))) : res (option (pt N * list (pt N)) * list (list (pt N))) :=
    match polys with
    | [] => Ok (best, [])
    | poly :: r =>
        do poly <- strip_dup poly;
        let best' := match poly with
          | p :: _ :: _ :: _ =>
              let bot := lowest p poly in
              match best with
              | None => Some (bot, poly)
              | Some (b, _) => if lower bot b then Some (bot, poly) else best
              end
          | _ => best
          end in
        do (best, rest) <- find_lowest best' r;
        Ok (best, poly :: rest)
    end.
  (** OffsetPolygons (2150-2170) with autoFix.  [tuple]: the polygons were passed as a tuple, which cannot be assigned to. *)
  Definition offset_polygons_cl (union : N -> list (list (pt N)) -> res (list (list (pt N)))) (tuple : bool) (polys : list (list (pt N))) (delta : N) (jt : jointype) (limit : N)
      : res (list (list (pt N))) :=
    do (best, pts) <- find_lowest None polys;
    match best with
    | None => Ok []
    | Some (_, poly) =>
        do a <- cl_area poly;
        if a <? lit 0 0 then (if tuple then Raise TypeError else offset_internal union (map (@rev _) pts) delta jt limit)
        else offset_internal union pts delta jt limit
    end.

  (** polygon.py poly2clipper (436-447), clipper2poly (450-465); [mult] is 10 ** EPSILON_PRECISION *)
  Definition poly2clipper (mult : N) (l : list (pt N)) : list (pt N) :=
    map (fun p => P (of_Z (trunc (px p * mult))) (of_Z (trunc (py p * mult)))) l.
  Definition clipper2poly {E : Epsilon N} (mult : N) (l : list (pt N)) : list (pt N) :=
    let poly := map (fun p => P (px p / mult) (py p / mult)) l in
    match poly with
    | p :: _ :: _ :: _ => if negb (peq p (last poly p)) then poly ++ [p] else poly
    | _ => poly
    end.
  (** offset_polygons (407-433) *)
  Definition poly_offset {E : Epsilon N} (union : N -> list (list (pt N)) -> res (list (list (pt N)))) (mult : N) (poly : list (pt N)) (offset : N) (jt : jointype) (limit : N)
      : res (list (list (pt N))) :=
    rmap (map (clipper2poly mult)) (offset_polygons_cl union true [poly2clipper mult poly] (offset * mult) jt (limit * mult)).
End ClipperOffset.
