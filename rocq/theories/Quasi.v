(** * Quasi: the quasi-periodic tilings of tcnc/geom/quasi.py.

    Modelled: _QVector, Quasi.quasi, Quasi._init_vectors and Quasi._plot, as the list of the calls made to
    the plotter.  Simplifications: the colours are not rounded (Quasi._round, quasi.py 308-310); if an exception is
    raised the calls made before it are not returned.  The list [index], which is reused for all tiles, is
    complete whenever a tile is plotted (every entry other than t and r is assigned in the loop over i,
    t and r themselves before the call), so it is a new list for each tile here. *)
From Coq Require Import ZArith List Bool.
From Verif Require Import Num Geom.
Import ListNotations.

(** The calls of the plotter (quasi.py 30-69) *)
Inductive qevent (N : NumOps) :=
| QPolygon (vertices : list (pt N)) (color : N)
| QSegment (a b : pt N)
| QSegpoly (vertices : list (pt N)) (color : N).
Arguments QPolygon {N}.
Arguments QSegment {N}.
Arguments QSegpoly {N}.

(** The segment types (quasi.py 100-116) *)
Inductive segtype := SegNone | MidpAcute | MidpObtuse | MidpCross | MidpRect | VertAcute | VertObtuse | VertCross.

(** The settings (quasi.py 123-163) *)
Record qopts (N : NumOps) := QOpts {
  symmetry : nat; q_skinny : segtype; q_fat : segtype; q_tolerance : N; split_cross : bool; salt_x : N; salt_y : N;
  segment_ratio : N; skinnyfat_ratio : N; numlines : nat; visible : list (pt N) -> bool }.
Arguments QOpts {N}.
Arguments symmetry {N} _.
Arguments q_skinny {N} _.
Arguments q_fat {N} _.
Arguments q_tolerance {N} _.
Arguments split_cross {N} _.
Arguments salt_x {N} _.
Arguments salt_y {N} _.
Arguments segment_ratio {N} _.
Arguments skinnyfat_ratio {N} _.
Arguments numlines {N} _.
Arguments visible {N} _ _.

(** _QVector (quasi.py 72-96): direction, slope, intercepts *)
Record qvec (N : NumOps) := QV { q_dir : pt N; q_slope : N; q_b : list N }.
Arguments QV {N}.
Arguments q_dir {N} _.
Arguments q_slope {N} _.
Arguments q_b {N} _.

Section Quasi.
  Context {N : NumOps}.
  Local Open Scope num_scope.
  Definition of_nat (n : nat) : N := of_Z (Z.of_nat n).

  (** quasi.py 76-96 *)
  Definition mk_qvec (o : qopts N) (angle : N) (slot : nat) : res (qvec N) :=
    let x := cos angle in let y := sin angle in
    rmap (fun m =>
      QV (P x y) m (map (fun r =>
        let y1 := (y * (of_nat slot * salt_y o)) - (x * (of_nat r - of_nat (numlines o) / #2)) in
        let x1 := (x * (of_nat slot * salt_x o)) + (y * (of_nat r - of_nat (numlines o) / #2)) in
        y1 - m * x1) (seq 0 (numlines o))))
      (pydiv y x).
  (** _init_vectors (quasi.py 207-224); a symmetry of 0 divides by zero *)
  Fixpoint init_loop (o : qopts N) (phi angle : N) (t count : nat) : res (list (qvec N)) :=
    match count with
    | O => Ok []
    | S c => rbind (mk_qvec o angle t) (fun v => rmap (cons v) (init_loop o phi (angle + phi) (S t) c))
    end.
  Definition init_vectors (o : qopts N) : res (list (qvec N)) :=
    rbind (pydiv (#2 * pi) (of_nat (symmetry o))) (fun phi =>
      init_loop o phi (if Nat.even (symmetry o) then q_tolerance o * #10 else lit 0 0) 0 (symmetry o)).

  (** quasi.py 165-182: the pairs (n, m) of line numbers in the order in which they are considered.
      _RAD_INCR = 0.4 *)
  Definition radius2 (o : qopts N) (n m : nat) : N :=
    let minline := of_nat (numlines o - 1) / #2 in
    (of_nat n - minline) * (of_nat n - minline) + (of_nat m - minline) * (of_nat m - minline).
  Definition ring (o : qopts N) (rad1 rad2 : N) : list (nat * nat) :=
    filter (fun p => (rad1 <=? radius2 o (fst p) (snd p)) && (radius2 o (fst p) (snd p) <? rad2))
      (list_prod (seq 1 (numlines o - 2)) (seq 1 (numlines o - 2))).
  Fixpoint rings (fuel : nat) (o : qopts N) (minrad : N) : res (list (nat * nat)) :=
    if negb (minrad <=? of_nat (numlines o - 1)) then Ok [] else
    match fuel with
    | O => Raise OutOfFuel
    | S fuel =>
        let next := minrad + lit 4 (-1) in
        rmap (app (ring o (minrad * minrad) (next * next))) (rings fuel o next)
    end.

  Definition nthv (vs : list (qvec N)) (i : nat) : qvec N := nth i vs (QV (P #0 #0) #0 []).
  Definition nthb (v : qvec N) (i : nat) : N := nth i (q_b v) #0.
  (** quasi.py 191-200: the index of the tile in the direction i, None if the tile is not plotted *)
  Definition index_of (o : qopts N) (vs : list (qvec N)) (x0 y0 : N) (i : nat) : option Z :=
    let v := nthv vs i in
    let dx := - x0 * py (q_dir v) + (y0 - nthb v 0) * px (q_dir v) in
    let k := trunc (- dx) in
    if (k >? Z.of_nat (numlines o) - 3)%Z || (k <? 1)%Z then None else Some k.
  Fixpoint indices (o : qopts N) (vs : list (qvec N)) (x0 y0 : N) (t r n m : nat) (i count : nat) : option (list Z) :=
    match count with
    | O => Some []
    | S c =>
        match (if Nat.eqb i t then Some (Z.of_nat n - 1)%Z
               else if Nat.eqb i r then Some (Z.of_nat m - 1)%Z
               else index_of o vs x0 y0 i) with
        | None => None
        | Some k => option_map (cons k) (indices o vs x0 y0 t r n m (S i) c)
        end
    end.

  (** _plot (quasi.py 226-306; _distance2: 317-323) *)
  Definition base (o : qopts N) (vs : list (qvec N)) (index : list Z) : pt N :=
    fold_left (fun p i => P (px p + px (q_dir (nthv vs i)) * of_Z (nth i index 0%Z))
                            (py p + py (q_dir (nthv vs i)) * of_Z (nth i index 0%Z)))
      (seq 0 (symmetry o)) (P (lit 0 0) (lit 0 0)).
  Definition distance2 (a b : pt N) : N :=
    let d := px a - px b in let e := py a - py b in d * d + e * e.
  Definition middle (a b : pt N) : pt N := P ((px a + px b) * lit 5 (-1)) ((py a + py b) * lit 5 (-1)).
  Definition midp (s : segtype) : bool :=
    match s with MidpAcute | MidpObtuse | MidpCross | MidpRect => true | _ => false end.
  Definition tile_segments (o : qopts N) (s : segtype) (p : pt N) (v1 v2 : pt N) (dotp : N) : res (list (qevent N)) :=
    let a0 := p in
    let a1 := P (px p + px v1) (py p + py v1) in
    let a2 := P (px p + px v1 + px v2) (py p + py v1 + py v2) in
    let a3 := P (px p + px v2) (py p + py v2) in
    let x1 := px v1 * segment_ratio o in let y1 := py v1 * segment_ratio o in
    let x2 := px v2 * segment_ratio o in let y2 := py v2 * segment_ratio o in
    let e01 := P (px p + x1) (py p + y1) in
    let e12 := P (px p + px v1 + x2) (py p + py v1 + y2) in
    let e32 := P (px p + px v2 + x1) (py p + py v2 + y1) in
    let e03 := P (px p + x2) (py p + y2) in
    let '(s0, s1, s2, s3) := if dotp >? #0 then (e12, e32, e03, e01) else (e01, e12, e32, e03) in
    match s with
    | SegNone => Ok []
    | MidpAcute => Ok [QSegment s0 s1; QSegment s2 s3]
    | MidpObtuse => Ok [QSegment s0 s3; QSegment s1 s2]
    | MidpCross =>
        if split_cross o && (segment_ratio o =? lit 5 (-1)) then
          let c := middle s0 s2 in Ok [QSegment s0 c; QSegment c s2; QSegment s1 c; QSegment c s3]
        else Ok [QSegment s0 s2; QSegment s1 s3]
    | MidpRect =>
        let d1 := distance2 s0 s1 in let d2 := distance2 s1 s2 in
        rmap (fun q => [QSegment s0 s1; QSegment s2 s3; QSegment s0 s3; QSegment s1 s2; QSegpoly [s0; s1; s2; s3] q])
             (pydiv (pymin d1 d2) (pymax d1 d2))
    | VertAcute => Ok [QSegment a1 a3]
    | VertObtuse => Ok [QSegment a0 a2]
    | VertCross =>
        if split_cross o then
          let c := middle a0 a2 in Ok [QSegment a0 c; QSegment c a2; QSegment a1 c; QSegment c a3]
        else Ok [QSegment a0 a2; QSegment a1 a3]
    end.
  Definition seg_on (s : segtype) : bool := match s with SegNone => false | _ => true end.
  Definition plot_tile (o : qopts N) (p v1 v2 : pt N) : res (list (qevent N)) :=
    let vertices := [p; P (px p + px v1) (py p + py v1); P (px p + px v1 + px v2) (py p + py v1 + py v2);
                     P (px p + px v2) (py p + py v2)] in
    let dotp := px v1 * px v2 + py v1 * py v2 in
    let poly := QPolygon vertices (abs dotp) in
    if negb (visible o vertices) then Ok [poly] else
    if seg_on (q_skinny o) || seg_on (q_fat o) then
      rmap (cons poly) (tile_segments o (if abs dotp >? skinnyfat_ratio o then q_skinny o else q_fat o) p v1 v2 dotp)
    else Ok [poly].

  (** quasi.py 183-205: the tile of line n of direction t and line m of direction r *)
  Definition tile (o : qopts N) (vs : list (qvec N)) (n m t r : nat) : res (list (qevent N)) :=
    let v1 := nthv vs t in let v2 := nthv vs r in
    rbind (pydiv (nthb v1 n - nthb v2 m) (q_slope v2 - q_slope v1)) (fun x0 =>
      let y0 := q_slope v1 * x0 + nthb v1 n in
      match indices o vs x0 y0 t r n m 0 (symmetry o) with
      | None => Ok []
      | Some index => plot_tile o (base o vs index) (q_dir v1) (q_dir v2)
      end).
  Fixpoint collect {A B} (f : A -> res (list B)) (l : list A) : res (list B) :=
    match l with [] => Ok [] | a :: l => rbind (f a) (fun b => rmap (app b) (collect f l)) end.
  (** The pairs t < r of directions *)
  Definition direction_pairs (o : qopts N) : list (nat * nat) :=
    flat_map (fun t => map (pair t) (seq (S t) (symmetry o - S t))) (seq 0 (symmetry o - 1)).
  (** quasi (quasi.py 165-205) *)
  Definition quasi (fuel : nat) (o : qopts N) : res (list (qevent N)) :=
    rbind (init_vectors o) (fun vs =>
    rbind (rings fuel o (lit 0 0)) (fun pairs =>
      collect (fun '(n, m) => collect (fun '(t, r) => tile o vs n m t r) (direction_pairs o)) pairs)).
End Quasi.
