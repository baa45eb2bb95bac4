(** * Polygon: model of tcnc/geom/polygon.py.

    Not modelled: convex_hull_chan, offset_polygons (third-party clipper),
    simplify_polyline_vw (unfinished: the function has no return value).
    Points are pairs; `sorted(points)` is Python's lexicographic tuple order, a stable sort. *)
From Coq Require Import ZArith List Bool.
From Verif Require Import Num Geom.
Import ListNotations.

Section Polygon.
  Context {N : NumOps} {E : Epsilon N}.
  Local Open Scope num_scope.

  (** turn (40-48): sign of the cross product (Python 2 cmp with 0) *)
  Definition turn (p q r : pt N) : Z :=
    let d := (px q - px p) * (py r - py p) - (px r - px p) * (py q - py p) in
    if d <? #0 then (-1)%Z else if d >? #0 then 1%Z else 0%Z.
  (** tuple order used by sorted(): first differing component decides *)
  Definition lex_lt (a b : pt N) : bool :=
    if px a =? px b then py a <? py b else px a <? px b.
  (** sorted (stable): insertion after all elements that are not greater *)
  Fixpoint insert_pt (p : pt N) (l : list (pt N)) : list (pt N) :=
    match l with
    | [] => [p]
    | q :: r => if lex_lt p q then p :: l else q :: insert_pt p r
    end.
  Definition sort_pts (l : list (pt N)) : list (pt N) := fold_left (fun acc p => insert_pt p acc) l [].
  (** _keep_left (67-72).  The hull is kept with its last element first. *)
  Fixpoint pop_right (h : list (pt N)) (r : pt N) : list (pt N) :=
    match h with
    | b :: t => match t with
                | a :: _ => if Z.eqb (turn a b r) 1 then h else pop_right t r
                | [] => h
                end
    | [] => []
    end.
  Definition keep_left (h : list (pt N)) (r : pt N) : list (pt N) :=
    match pop_right h r with
    | [] => [r]
    | b :: t => if negb (peq b r) then r :: b :: t else b :: t
    end.
  (** reduce(_keep_left, points, []) in list order *)
  Definition half_hull (l : list (pt N)) : list (pt N) := rev (fold_left keep_left l []).
  (** Python's l[1:-1] *)
  Definition inner {A} (l : list A) : list A := removelast (tl l).
  (** convex_hull (51-64) *)
  Definition convex_hull (l : list (pt N)) : list (pt N) :=
    let s := sort_pts l in
    half_hull s ++ inner (half_hull (rev s)).

  (** sys.float_info.max, sys.float_info.min *)
  Definition FLT_MAX : N := lit 17976931348623157 292.
  Definition FLT_MIN : N := lit 22250738585072014 (-324).
  (** bounding_box (161-177) *)
  Definition bounding_box (l : list (pt N)) : box N :=
    let '(x0, y0, x9, y9) :=
      fold_left (fun '(x0, y0, x9, y9) p => (pymin x0 (px p), pymin y0 (py p), pymax x9 (px p), pymax y9 (py p)))
                l (FLT_MAX, FLT_MAX, FLT_MIN, FLT_MIN) in
    mkbox (P x0 y0) (P x9 y9).

  (** The pairs (vertices[n], vertices[n+1]) for n = -1 .. len-2 *)
  Fixpoint pairs_from (prev : pt N) (l : list (pt N)) : list (pt N * pt N) :=
    match l with
    | [] => []
    | q :: r => (prev, q) :: pairs_from q r
    end.
  Definition cyc_pairs (l : list (pt N)) : list (pt N * pt N) :=
    match l with
    | [] => []
    | p :: _ => pairs_from (last l p) l
    end.
  (** area (184-200); (p2, p1) is the pair of consecutive vertices *)
  Definition area (l : list (pt N)) : N :=
    fold_left (fun s '(q2, q1) => s + ((px q1 * py q2) - (px q2 * py q1))) (cyc_pairs l) #0 / #2.
  (** area_triangle (203-225) *)
  Definition area_triangle (a b c : pt N) : N :=
    let ux := px b - px a in let uy := py b - py a in
    let vx := px c - px a in let vy := py c - py a in
    abs ((ux * vy) - (uy * vx)) / #2.
  (** centroid (228-256) *)
  Definition centroid (l : list (pt N)) : res (pt N) :=
    match l with
    | [p] => Ok p
    | [p; q] => Ok (midpoint (Ln p q))
    | _ =>
        let '(x, y, ar) :=
          fold_left (fun '(x, y, ar) '(q2, q1) =>
            let c := (px q1 * py q2) - (px q2 * py q1) in
            (x + (px q1 + px q2) * c, y + (py q1 + py q2) * c, ar + c)) (cyc_pairs l) (#0, #0, #0) in
        let t := ar * #3 in
        rbind (pydiv x t) (fun cx => rbind (pydiv y t) (fun cy => Ok (P cx cy)))
    end.
  (** point_inside (285-316); the divisor y2 - y1 is non-zero when the ordinates straddle y,
      except where a float difference of distinct numbers underflows (never in IEEE arithmetic) *)
  Definition poly_inside (l : list (pt N)) (p : pt N) : bool :=
    fold_left (fun inside '(q2, q1) =>
      if negb (Bool.eqb (py q1 >? py p) (py q2 >? py p)) &&
         (px p <? ((px q2 - px q1) * (py p - py q1) / (py q2 - py q1)) + px q1)
      then negb inside else inside) (cyc_pairs l) false.
  (** intersect_line (319-370).  Raises IndexError on an empty polygon. *)
  Fixpoint insert_num (x : N) (l : list N) : list N :=
    match l with
    | [] => [x]
    | y :: r => if x <? y then x :: l else y :: insert_num x r
    end.
  Definition sort_nums (l : list N) : list N := fold_left (fun acc x => insert_num x acc) l [].
  (** the while loop: [s] is the current start point, [l] the remaining intersections *)
  Fixpoint poly_segments (ln : line N) (s : pt N) (l : list N) : list (line N) :=
    match l with
    | [] => []
    | m :: r =>
        let e := lpoint_at ln m in
        let out := if negb (peq s e) then [Ln s e] else [] in
        match r with
        | [] => out
        | m' :: r' => out ++ poly_segments ln (lpoint_at ln m') r'
        end
    end.
  Definition poly_intersect_line (l : list (pt N)) (ln : line N) : res (list (line N)) :=
    match l with
    | [] => Raise IndexError
    | v0 :: r =>
        let edges := if peq v0 (last r v0) then pairs_from v0 r else cyc_pairs l in
        let mus := flat_map (fun '(a, b) =>
                     match intersection_mu ln (Ln a b) true false false with Some m => [m] | None => [] end) edges in
        let in1 := poly_inside l (p1 ln) in
        let in2 := poly_inside l (p2 ln) in
        match mus with
        | [] => Ok (if in1 && in2 then [ln] else [])
        | _ =>
            let s := sort_nums mus in
            Ok (if in1 then poly_segments ln (p1 ln) s
                else if in2 then poly_segments ln (p2 ln) (rev s)
                else match s with
                     | [] => []
                     | m :: r => poly_segments ln (lpoint_at ln m) r
                     end)
        end
    end.
  (** is_closed (373-378) *)
  Definition is_closed (l : list (pt N)) : res bool :=
    match l with
    | [] => Raise IndexError
    | p :: r => let q := last r p in Ok (feq (px p) (px q) && feq (py p) (py q))
    end.
  (** poly2clipper, clipper2poly (436-464); [prec] is const.EPSILON_PRECISION *)
  Definition poly2clipper (prec : nat) (l : list (pt N)) : list (Z * Z) :=
    map (fun p => (trunc (px p * of_Z (10 ^ Z.of_nat prec)), trunc (py p * of_Z (10 ^ Z.of_nat prec)))) l.
  Definition clipper2poly (prec : nat) (l : list (Z * Z)) : list (pt N) :=
    let poly := map (fun '(x, y) => P (of_Z x / of_Z (10 ^ Z.of_nat prec)) (of_Z y / of_Z (10 ^ Z.of_nat prec))) l in
    match poly with
    | p :: _ :: _ :: _ => if negb (peq p (last poly p)) then poly ++ [p] else poly
    | _ => poly
    end.

  (** simplify_polyline_rdp (467-510).  [far] is the scan for the farthest inner point:
      (dmax, dmax_index), strict comparison so the first maximum wins. *)
  Fixpoint far (chord : line N) (i : nat) (l : list (pt N)) (dmax : N) (idx : nat) : res (N * nat) :=
    match l with
    | [] => Ok (dmax, idx)
    | p :: r =>
        rbind (ldist chord p true) (fun d =>
          if d >? dmax then far chord (S i) r d (S i) else far chord (S i) r dmax idx)
    end.
  Fixpoint rdp (fuel : nat) (l : list (pt N)) (tol : N) : res (list (pt N)) :=
    match l with
    | a :: ((_ :: _ :: _) as r) =>
        match fuel with
        | O => Raise OutOfFuel
        | S f =>
            let chord := Ln a (last r a) in
            rbind (far chord 0 (removelast (tl l)) #0 0) (fun '(dmax, idx) =>
            if dmax >? tol then
              if Nat.eqb (length l) 3 then Ok l else
              rbind (rdp f (firstn (S idx) l) tol) (fun s1 =>
              rbind (rdp f (skipn idx l) tol) (fun s2 => Ok (s1 ++ tl s2)))
            else Ok [p1 chord; p2 chord])
        end
    | _ => Ok l
    end.
  Definition simplify_rdp (l : list (pt N)) (tol : N) : res (list (pt N)) := rdp (length l) l tol.
End Polygon.
