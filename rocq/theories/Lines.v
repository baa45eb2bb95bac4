(** * Lines: the grid line extension (tcnc/lines.py).

    Modelled: LineSet (the generated lines) and the functions of Lines that order, double, connect and group
    them, up to the list of paths that are drawn.  Not modelled: the styles, the layers, the fillets of
    connected lines (geom/fillet.py is modelled in [Fillet]).  The random numbers are given by functions of
    the number of the line. *)
From Coq Require Import ZArith List Bool.
From Verif Require Import Num Geom.
Import ListNotations.

(** The value of spacing_formula (lines.py 549-556): 'linear', 'sine', 'log' (the value of
    math.log(t * (math.e - 1) + 1) is given by [f]) or anything else. *)
Inductive formula (N : NumOps) := FNone | FLinear | FSine | FLog (f : N -> N).
Arguments FNone {N}.
Arguments FLinear {N}.
Arguments FSine {N}.
Arguments FLog {N} f.

(** The arguments of LineSet (lines.py 421-441).  [angle_draw k] is the value of
    random.vonmisesvariate(math.pi, kappa) - math.pi drawn for line k, [spacing_draw k] that of
    random.normalvariate(0, 0.4). *)
Record lineset (N : NumOps) := LS {
  cliprect : box N; ls_spacing : N; ls_angle : N; spacing_jitter : N; angle_jitter : N;
  spacing_formula : formula N; varspace_min : N; varspace_max : N; varspace_cycles : N; varspace_invert : bool;
  angle_draw : nat -> N; spacing_draw : nat -> N }.
Arguments LS {N}.
Arguments cliprect {N} _.
Arguments ls_spacing {N} _.
Arguments ls_angle {N} _.
Arguments spacing_jitter {N} _.
Arguments angle_jitter {N} _.
Arguments spacing_formula {N} _.
Arguments varspace_min {N} _.
Arguments varspace_max {N} _.
Arguments varspace_cycles {N} _.
Arguments varspace_invert {N} _.
Arguments angle_draw {N} _ _.
Arguments spacing_draw {N} _ _.

Section Lines.
  Context {N : NumOps} {E : Epsilon N}.
  Local Open Scope num_scope.

  (** box.py 116-122 *)
  Definition bheight (b : box N) : N := py (b2 b) - py (b1 b).
  Definition bwidth (b : box N) : N := px (b2 b) - px (b1 b).

  (** lines.py 442-448: the angle of the lines *)
  Definition line_angle (a : N) : N :=
    let a := normalize_angle a #0 in
    if a >? pi / #2 then a - pi else if a <? - (pi / #2) then a + pi else a.
  (** lines.py 449-454 *)
  Definition is_vertical (a : N) : bool := (a >? pi * lit 25 (-2)) && (a <? pi * lit 75 (-2)).
  (** lines.py 457-463 *)
  Definition axis_spacing (s a : N) : res N :=
    if is_zero a then Ok s else pydiv s (if is_vertical a then sin a else cos a).
  (** lines.py 465-469 *)
  Definition spacing_min (m : N) : N := if is_zero m then lit 1 (-1) else m.
  Definition spacing_max (m axis : N) : N := if is_zero m then axis else m.

  (** x % y of floats *)
  Definition pymod (x y : N) : N := x - y * floor (x / y).
  (** lines.py 541-565 *)
  Definition scaled_spacing (l : lineset N) (axis offset extent : N) : res N :=
    rbind (pydiv extent (varspace_cycles l)) (fun interval =>
    rbind (pydiv (pymod offset interval) interval) (fun t =>
      let scale := match spacing_formula l with
                   | FNone => #1
                   | FLinear => t
                   | FSine => abs (sin (t * pi * #2))
                   | FLog f => f t
                   end in
      let scale := if varspace_invert l then #1 - scale else scale in
      Ok (pymin (pymax (axis * scale) (spacing_min (varspace_min l))) (spacing_max (varspace_max l) axis)))).
  (** lines.py 526-539 *)
  Definition angle_jittered (l : lineset N) (k : nat) (s : line N) : line N :=
    if is_zero (angle_jitter l) then s else
    let a := angle_draw l k * angle_jitter l / pi in
    if is_zero a then s else ltransform s (mrotate a (midpoint s)).
  (** lines.py 567-573 *)
  Definition spacing_jitter_scale (l : lineset N) (k : nat) : N := spacing_draw l k * spacing_jitter l.

  (** lines.py 476-495: start line and extent *)
  Definition start_line (b : box N) (a : N) : line N * N :=
    if is_vertical a then
      let dx := abs (cos a * bheight b) in
      let x1 := px (b1 b) - dx in let x2 := px (b1 b) in
      (if a <? #0 then Ln (P x2 (ymin b)) (P x1 (ymax b)) else Ln (P x1 (ymin b)) (P x2 (ymax b)),
       bwidth b + dx)
    else
      let dy := abs (sin a * bwidth b) in
      let y1 := py (b1 b) - dy in let y2 := py (b1 b) in
      (if a <? #0 then Ln (P (xmin b) y2) (P (xmax b) y1) else Ln (P (xmin b) y1) (P (xmax b) y2),
       bheight b + dy).
  (** lines.py 506-524: the loop; [fuel] bounds the number of passes (the extent with spacing jitter, 503-505, is computed in [make_lines]) *)
  Fixpoint lines_loop (fuel k : nat) (l : lineset N) (a axis extent : N) (start : line N) (offset jitter : N)
    : res (list (line N)) :=
    if negb (offset <? extent) then Ok [] else
    match fuel with
    | O => Raise OutOfFuel
    | S fuel =>
        let v := if is_vertical a then P (offset + jitter) #0 else P #0 (offset + jitter) in
        let seg := clip_line (cliprect l) (angle_jittered l k (ladd start v)) in
        rbind (scaled_spacing l axis offset extent) (fun s =>
        rbind (lines_loop fuel (S k) l a axis extent start (offset + s)
                 (if spacing_jitter l >? #0 then s * spacing_jitter_scale l k else jitter)) (fun r =>
        Ok (match seg with
            | Some m => if is_zero (llen m) then r else m :: r
            | None => r
            end)))
    end.
  (** LineSet(...).lines (lines.py 421-524) *)
  Definition make_lines (fuel : nat) (l : lineset N) : res (list (line N)) :=
    let a := line_angle (ls_angle l) in
    rbind (axis_spacing (ls_spacing l) a) (fun axis =>
      let '(start, extent) := start_line (cliprect l) a in
      let extent := if spacing_jitter l >? #0 then extent + axis * (#1 + spacing_jitter l) else extent in
      lines_loop fuel 0 l a axis extent start #0 #0).

  (** insert_reversed_lines (lines.py 382-402) *)
  Fixpoint reversed_loop (lines : list (line N)) (doubled reverse alternate is_odd : bool) : list (line N) :=
    match lines with
    | [] => []
    | l :: r =>
        (if (negb reverse && alternate && is_odd) || (reverse && (negb alternate || negb is_odd))
         then lreversed l :: (if doubled then [l] else [])
         else l :: (if doubled then [lreversed l] else [])) ++
        reversed_loop r doubled reverse alternate (negb is_odd)
    end.
  Definition insert_reversed_lines (lines : list (line N)) (doubled reverse alternate : bool) : list (line N) :=
    if negb doubled && negb reverse && negb alternate then lines
    else reversed_loop lines doubled reverse alternate false.
  (** insert_connectors (lines.py 404-414) *)
  Fixpoint connectors_loop (prev : option (line N)) (lines : list (line N)) : list (line N) :=
    match lines with
    | [] => []
    | l :: r =>
        (match prev with
         | Some q => if negb (peq (p2 q) (p1 l)) then [Ln (p2 q) (p1 l)] else []
         | None => []
         end) ++ l :: connectors_loop (Some l) r
    end.
  Definition insert_connectors (lines : list (line N)) : list (line N) := connectors_loop None lines.
  (** connected_paths (lines.py 350-366).  [path] is not empty; its last line is [q]. *)
  Fixpoint paths_loop (path : list (line N)) (q : line N) (lines : list (line N)) : list (list (line N)) :=
    match lines with
    | [] => [path]
    | l :: r => if peq (p2 q) (p1 l) then paths_loop (path ++ [l]) l r else path :: paths_loop [l] l r
    end.
  Definition connected_paths (lines : list (line N)) : list (list (line N)) :=
    match lines with [] => [] | l :: r => paths_loop [l] l r end.

  (** The options of one direction (lines.py 34-119) *)
  Record direction := Dir { d_draw : bool; d_set : lineset N; d_reverse_path : bool; d_reverse_order : bool;
    d_double : bool; d_alt : bool; d_connect : bool }.
  (** lines.py 259-299: the lines of one direction.  The vertical ones are turned by a quarter turn (284). *)
  Definition quarter (l : lineset N) : lineset N :=
    LS (cliprect l) (ls_spacing l) (ls_angle l + pi / #2) (spacing_jitter l) (angle_jitter l) (spacing_formula l)
       (varspace_min l) (varspace_max l) (varspace_cycles l) (varspace_invert l) (angle_draw l) (spacing_draw l).
  Definition direction_lines (fuel : nat) (vertical : bool) (d : direction) : res (list (line N)) :=
    if d_draw d then
      rmap (fun ls => insert_reversed_lines (if d_reverse_order d then rev ls else ls)
                        (d_double d) (d_reverse_path d) (d_alt d))
           (make_lines fuel (if vertical then quarter (d_set d) else d_set d))
    else Ok [].
  (** itertools.izip_longest *)
  Fixpoint interleave {A} (h v : list A) : list A :=
    match h, v with
    | [], _ => v
    | _, [] => h
    | a :: h, b :: v => a :: b :: interleave h v
    end.
  (** lines.py 301-348: the paths in the order in which they are drawn, horizontal ones marked [true].
      [hs], [vs]: random.shuffle *)
  Definition grid_paths (fuel : nat) (h v : direction) (hline_vline hv_shuffle : bool)
      (hs vs : list (bool * list (line N)) -> list (bool * list (line N))) : res (list (bool * list (line N))) :=
    rbind (direction_lines fuel false h) (fun hl =>
    rbind (direction_lines fuel true v) (fun vl =>
      let hl := if negb hline_vline && d_connect h then insert_connectors hl else hl in
      let vl := if negb hline_vline && d_connect v then insert_connectors vl else vl in
      let hp := map (pair true) (connected_paths hl) in
      let vp := map (pair false) (connected_paths vl) in
      Ok (if hline_vline && negb (match hl with [] => true | _ => false end) && negb (match vl with [] => true | _ => false end)
          then if hv_shuffle then interleave (hs hp) (vs vp) else interleave hp vp
          else hp ++ vp))).
End Lines.
