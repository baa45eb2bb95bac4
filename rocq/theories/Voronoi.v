(** * Voronoi: the sweep of tcnc/geom/voronoi.py (class VoronoiDiagram and its helpers).

    Modelled: everything that decides the diagram.  The doubly linked list of half edges is a list of
    their numbers from the left end (number 0) to the right end (number 1); the buckets of the priority
    queue are lists of numbers; objects compared with 'is' are compared by their numbers.  [_lines] and
    [_delaunay_edges], to which [_add_bisector] appends one entry for every edge made, are read off the list of
    edges, in the same order. *)
From Coq Require Import ZArith NArith List Bool PeanoNat.
From Verif Require Import Num Geom.
Import ListNotations.

Section Voronoi.
  Context {N : NumOps}.
  Local Open Scope num_scope.
  Local Open Scope res_scope.

  (** class _Site (398-417); [vnum] is sitenum *)
  Record vsite := VSite { vx : N; vy : N; vnum : nat }.
  Definition site_pt (s : vsite) : pt N := P (vx s) (vy s).
  (** __lt__ (409-413) *)
  Definition site_lt (x1 y1 x2 y2 : N) : bool := if y1 =? y2 then x1 <? x2 else y1 <? y2.
  (** distance (415-417) *)
  Definition site_dist (s : vsite) (p : pt N) : N := hypot (vx s - px p) (vy s - py p).

  (** _float_eq (751-758), with the module's own EPSILON (60) *)
  Definition veps : N := lit 1 (-9).
  Definition vfeq (a b : N) : bool :=
    let norm := pymax (abs a) (abs b) in (norm <? veps) || (abs (a - b) <? veps * norm).

  (** class _Edge (439-477): equation a*x + b*y = c, the two sites, the end points as indices of vertices *)
  Record vedge := VEdge { ea : N; eb : N; ec : N; es1 : vsite; es2 : vsite; ep1 : option nat; ep2 : option nat }.
  (** __init__ (448-471) *)
  Definition new_edge (s1 s2 : vsite) : res vedge :=
    let dx := vx s2 - vx s1 in
    let dy := vy s2 - vy s1 in
    let slope := vx s1 * dx + vy s1 * dy + (dx * dx + dy * dy) / #2 in
    if abs dx >? abs dy then
      do b <- pydiv dy dx; do c <- pydiv slope dx; Ok (VEdge (lit 10 (-1)) b c s1 s2 None None)
    else
      do a <- pydiv dx dy; do c <- pydiv slope dy; Ok (VEdge a (lit 10 (-1)) c s1 s2 None None).
  (** set_endpoint (473-477); [right] is index = RIGHT.  The flag tells whether the other end is known *)
  Definition set_endpoint (e : vedge) (right : bool) (v : nat) : vedge * bool :=
    if right then (VEdge (ea e) (eb e) (ec e) (es1 e) (es2 e) (ep1 e) (Some v), match ep1 e with Some _ => true | None => false end)
    else (VEdge (ea e) (eb e) (ec e) (es1 e) (es2 e) (Some v) (ep2 e), match ep2 e with Some _ => true | None => false end).

  (** class _HalfEdge (480-494): the edge it belongs to (None at the two ends of the list, DELETED when removed) *)
  Inductive heref := NoEdge | Deleted | OfEdge (n : nat).
  Record hedge := HEdge { he_edge : heref; he_right : bool; he_vertex : option (pt N); he_ystar : N }.
  (** VoronoiEdge (62-105) *)
  Record vout := VOut { vo_p1 : option (pt N); vo_p2 : option (pt N); vo_line : N * N * N; vo_dual : option (pt N * pt N) }.

  Record vstate := VSt {
    v_edges : list vedge; v_hes : list hedge; v_chain : list nat; v_hash : list (option nat);
    v_queue : list (list nat); v_count : Z; v_min : nat;
    v_verts : list (pt N); v_out : list vout; v_tris : list (pt N * pt N * pt N) }.
  (** what is fixed during a sweep: the input, the first site and the scales of the two tables *)
  Record vconf := VConf {
    c_in : list (pt N); c_bottom : vsite; c_delaunay : bool;
    c_xmin : N; c_hashsize : Z; c_hashscale : N;
    c_ymin : N; c_deltay : N; c_qsize : Z }.

  Definition LEFTEND : nat := 0.
  Definition RIGHTEND : nat := 1.

  (** lists indexed by number *)
  Fixpoint upd {A} (i : nat) (f : A -> A) (l : list A) : list A :=
    match l, i with
    | [], _ => []
    | x :: r, O => f x :: r
    | x :: r, S i => x :: upd i f r
    end.
  Definition fetch {A} (e : exn) (i : nat) (l : list A) : res A :=
    match nth_error l i with Some x => Ok x | None => Raise e end.
  Fixpoint after (i : nat) (l : list nat) : list nat :=
    match l with [] => [] | x :: r => if Nat.eqb x i then r else after i r end.
  Fixpoint before (i : nat) (l : list nat) (acc : list nat) : list nat :=
    match l with [] => [] | x :: r => if Nat.eqb x i then acc else before i r (x :: acc) end.
  Definition first {A} (l : list A) : res A := match l with x :: _ => Ok x | [] => Raise AttributeError end.
  (** half_edge.right, half_edge.left *)
  Definition right_of (i : nat) (chain : list nat) : res nat := first (after i chain).
  Definition left_of (i : nat) (chain : list nat) : res nat := first (before i chain []).
  (** _EdgeList.insert (619-624), delete (626-630) *)
  Fixpoint insert_after (i x : nat) (l : list nat) : list nat :=
    match l with [] => [] | y :: r => if Nat.eqb y i then y :: x :: r else y :: insert_after i x r end.
  Definition unlink (i : nat) (l : list nat) : list nat := filter (fun x => negb (Nat.eqb x i)) l.

  (** changes of one part of the state *)
  Definition with_edges (st : vstate) l := VSt l (v_hes st) (v_chain st) (v_hash st) (v_queue st) (v_count st) (v_min st) (v_verts st) (v_out st) (v_tris st).
  Definition with_hes (st : vstate) l := VSt (v_edges st) l (v_chain st) (v_hash st) (v_queue st) (v_count st) (v_min st) (v_verts st) (v_out st) (v_tris st).
  Definition with_chain (st : vstate) l := VSt (v_edges st) (v_hes st) l (v_hash st) (v_queue st) (v_count st) (v_min st) (v_verts st) (v_out st) (v_tris st).
  Definition with_hash (st : vstate) l := VSt (v_edges st) (v_hes st) (v_chain st) l (v_queue st) (v_count st) (v_min st) (v_verts st) (v_out st) (v_tris st).
  Definition with_queue (st : vstate) q c := VSt (v_edges st) (v_hes st) (v_chain st) (v_hash st) q c (v_min st) (v_verts st) (v_out st) (v_tris st).
  Definition with_min (st : vstate) m := VSt (v_edges st) (v_hes st) (v_chain st) (v_hash st) (v_queue st) (v_count st) m (v_verts st) (v_out st) (v_tris st).
  Definition with_verts (st : vstate) l := VSt (v_edges st) (v_hes st) (v_chain st) (v_hash st) (v_queue st) (v_count st) (v_min st) l (v_out st) (v_tris st).
  Definition with_out (st : vstate) l := VSt (v_edges st) (v_hes st) (v_chain st) (v_hash st) (v_queue st) (v_count st) (v_min st) (v_verts st) l (v_tris st).
  Definition with_tris (st : vstate) l := VSt (v_edges st) (v_hes st) (v_chain st) (v_hash st) (v_queue st) (v_count st) (v_min st) (v_verts st) (v_out st) l.

  Definition the_he (st : vstate) (i : nat) : res hedge := fetch AttributeError i (v_hes st).
  Definition edge_of (st : vstate) (h : hedge) : res vedge :=
    match he_edge h with OfEdge n => fetch AttributeError n (v_edges st) | _ => Raise AttributeError end.
  (** left_site (508-515), right_site (517-524): [not self.edge] holds for None and for the empty dictionary DELETED *)
  Definition left_site (st : vstate) (dflt : vsite) (i : nat) : res vsite :=
    do h <- the_he st i;
    match he_edge h with
    | OfEdge _ => do e <- edge_of st h; Ok (if he_right h then es2 e else es1 e)
    | _ => Ok dflt
    end.
  Definition right_site (st : vstate) (dflt : vsite) (i : nat) : res vsite :=
    do h <- the_he st i;
    match he_edge h with
    | OfEdge _ => do e <- edge_of st h; Ok (if he_right h then es1 e else es2 e)
    | _ => Ok dflt
    end.

  (** is_left_of_site (526-568) *)
  Definition above_vertical (e : vedge) (s : vsite) (right_of_site : bool) : res bool :=
    let top := es2 e in
    let dyp := vy s - vy top in
    let dxp := vx s - vx top in
    let '(above, fast) :=
      if (negb right_of_site && (eb e <? #0)) || (right_of_site && (eb e >=? #0)) then
        let a := dyp >=? eb e * dxp in (a, a)
      else
        let a := vx s + vy s * eb e >? ec e in
        let a := if eb e <? #0 then negb a else a in
        (a, negb a) in
    if fast then Ok above else
    let dxs := vx top - vx (es1 e) in
    do q <- pydiv (lit 20 (-1) * dxp) dxs;
    let a := eb e * (dxp * dxp - dyp * dyp) <? dxs * dyp * (lit 10 (-1) + q + eb e * eb e) in
    Ok (if eb e <? #0 then negb a else a).
  Definition above_other (e : vedge) (s : vsite) : bool :=
    let top := es2 e in
    let y_int := ec e - ea e * vx s in
    let t1 := vy s - y_int in
    let t2 := vx s - vx top in
    let t3 := y_int - vy top in
    t1 * t1 >? t2 * t2 + t3 * t3.
  Definition is_left_of_site (st : vstate) (i : nat) (s : vsite) : res bool :=
    do h <- the_he st i;
    do e <- edge_of st h;
    let right_of_site := vx s >? vx (es2 e) in
    if right_of_site && negb (he_right h) then Ok true
    else if negb right_of_site && he_right h then Ok false
    else
      do above <- (if vfeq (ea e) (lit 10 (-1)) then above_vertical e s right_of_site else Ok (above_other e s));
      Ok (if he_right h then negb above else above).

  (** intersect (570-602) *)
  Definition intersect (st : vstate) (i j : nat) : res (option (pt N)) :=
    do h1 <- the_he st i;
    do h2 <- the_he st j;
    match he_edge h1, he_edge h2 with
    | NoEdge, _ | _, NoEdge => Ok None
    | _, _ =>
        do e1 <- edge_of st h1;
        do e2 <- edge_of st h2;
        if Nat.eqb (vnum (es2 e1)) (vnum (es2 e2)) then Ok None else
        let dst := ea e1 * eb e2 - eb e1 * ea e2 in
        if vfeq dst (lit 0 0) then Ok None else
        do xint <- pydiv (ec e1 * eb e2 - ec e2 * eb e1) dst;
        do yint <- pydiv (ec e2 * ea e1 - ec e1 * ea e2) dst;
        let '(h, e) := if site_lt (vx (es2 e1)) (vy (es2 e1)) (vx (es2 e2)) (vy (es2 e2)) then (h1, e1) else (h2, e2) in
        let right_of_site := xint >=? vx (es2 e) in
        if (right_of_site && negb (he_right h)) || (negb right_of_site && he_right h) then Ok None
        else Ok (Some (P xint yint))
    end.

  (** ** class _EdgeList *)
  (** _get_bucket_entry (673-678) *)
  Definition bucket_entry (st : vstate) (b : Z) : res (vstate * option nat) :=
    do o <- fetch IndexError (Z.to_nat b) (v_hash st);
    match o with
    | None => Ok (st, None)
    | Some i =>
        do h <- the_he st i;
        match he_edge h with
        | Deleted => Ok (with_hash st (upd (Z.to_nat b) (fun _ => None) (v_hash st)), None)
        | _ => Ok (st, Some i)
        end
    end.
  (** 643-651: nearer and nearer entries on both sides *)
  Fixpoint probe (fuel : nat) (c : vconf) (st : vstate) (bucket i : Z) : res (vstate * option nat) :=
    match fuel with
    | O => Ok (st, None)
    | S fuel =>
        do (st, r) <- bucket_entry st (bucket - i)%Z;
        do (st, r) <- (match r with Some _ => Ok (st, r) | None => bucket_entry st (bucket + i)%Z end);
        match r with
        | Some _ => Ok (st, r)
        | None => if (bucket - (i + 1) <? 0)%Z || (bucket + (i + 1) >=? c_hashsize c)%Z then Ok (st, None) else probe fuel c st bucket (i + 1)%Z
        end
    end.
  (** 654-665: along the list to the right, to the left *)
  Fixpoint scan_right (st : vstate) (s : vsite) (prev : nat) (l : list nat) : res nat :=
    match l with
    | [] => Raise AttributeError
    | h :: r =>
        if Nat.eqb h RIGHTEND then Ok prev else
        do b <- is_left_of_site st h s;
        if b then scan_right st s h r else Ok prev
    end.
  Fixpoint scan_left (st : vstate) (s : vsite) (l : list nat) : res nat :=
    match l with
    | [] => Raise AttributeError
    | h :: r =>
        if Nat.eqb h LEFTEND then Ok h else
        do b <- is_left_of_site st h s;
        if b then Ok h else scan_left st s r
    end.
  (** pop_leftbnd (632-670) *)
  Definition pop_leftbnd (c : vconf) (st : vstate) (s : vsite) : res (vstate * nat) :=
    do q <- pydiv (vx s - c_xmin c) (c_hashscale c);
    let bucket := trunc q in
    let bucket := if (bucket <? 0)%Z then 0%Z else if (bucket >=? c_hashsize c)%Z then (c_hashsize c - 1)%Z else bucket in
    do (st, r) <- bucket_entry st bucket;
    do (st, r) <- (match r with Some _ => Ok (st, r) | None => probe (Z.to_nat (c_hashsize c)) c st bucket 1 end);
    do h <- (match r with
             | None => Raise AttributeError
             | Some h =>
                 do goright <- (if Nat.eqb h LEFTEND then Ok true else if Nat.eqb h RIGHTEND then Ok false else is_left_of_site st h s);
                 if goright then scan_right st s h (after h (v_chain st)) else scan_left st s (before h (v_chain st) [])
             end);
    Ok (if (0 <? bucket)%Z && (bucket <? c_hashsize c - 1)%Z then with_hash st (upd (Z.to_nat bucket) (fun _ => Some h) (v_hash st)) else st, h).

  (** ** class _PriorityQueue *)
  (** _get_bucket (738-748); also lowers minidx *)
  Definition get_bucket (c : vconf) (st : vstate) (ystar : N) : res (vstate * nat) :=
    do hashval <- pydiv (ystar - c_ymin c) (c_deltay c);
    let b := trunc (hashval * of_Z (c_qsize c)) in
    let b := if (b <? 0)%Z then 0%Z else b in
    let b := if (b >=? c_qsize c)%Z then (c_qsize c - 1)%Z else b in
    let b := Z.to_nat b in
    Ok (if Nat.ltb b (v_min st) then with_min st b else st, b).
  (** _HalfEdge.__cmp__ (496-506): [a > b] *)
  Definition he_gt (a b : N * pt N) : bool :=
    let '(ya, va) := a in let '(yb, vb) := b in
    if ya >? yb then true else if ya <? yb then false else px va >? px vb.
  Definition he_key (st : vstate) (i : nat) : res (N * pt N) :=
    do h <- the_he st i;
    match he_vertex h with Some v => Ok (he_ystar h, v) | None => Raise AttributeError end.
  (** 706-709: before the first entry that is not smaller *)
  Fixpoint enqueue (st : vstate) (key : N * pt N) (i : nat) (l : list nat) : res (list nat) :=
    match l with
    | [] => Ok [i]
    | j :: r =>
        do k <- he_key st j;
        if he_gt key k then do r <- enqueue st key i r; Ok (j :: r) else Ok (i :: j :: r)
    end.
  (** insert (701-712) *)
  Definition pq_insert (c : vconf) (st : vstate) (i : nat) (p : pt N) (offset : N) : res vstate :=
    let ystar := py p + offset in
    let st := with_hes st (upd i (fun h => HEdge (he_edge h) (he_right h) (Some p) ystar) (v_hes st)) in
    do (st, b) <- get_bucket c st ystar;
    do old <- fetch IndexError b (v_queue st);
    do new <- enqueue st (ystar, p) i old;
    Ok (with_queue st (upd b (fun _ => new) (v_queue st)) (v_count st + 1)%Z).
  (** delete (714-722) *)
  Definition pq_delete (c : vconf) (st : vstate) (i : nat) : res vstate :=
    do h <- the_he st i;
    match he_vertex h with
    | None => Ok st
    | Some _ =>
        do (st, b) <- get_bucket c st (he_ystar h);
        do old <- fetch IndexError b (v_queue st);
        if existsb (Nat.eqb i) old then
          let st := with_queue st (upd b (unlink i) (v_queue st)) (v_count st - 1)%Z in
          Ok (with_hes st (upd i (fun h => HEdge (he_edge h) (he_right h) None (he_ystar h)) (v_hes st)))
        else Raise AttributeError
    end.
  (** get_min_point (724-729): the first bucket from minidx on with an entry *)
  Fixpoint skip_empty (q : list (list nat)) (m : nat) : res (nat * nat) :=
    match q with
    | [] => Raise IndexError
    | [] :: r => skip_empty r (S m)
    | (i :: _) :: _ => Ok (m, i)
    end.
  Definition get_min_point (st : vstate) : res (vstate * (N * N)) :=
    do (m, i) <- skip_empty (skipn (v_min st) (v_queue st)) (v_min st);
    do (y, v) <- he_key st i;
    Ok (with_min st m, (px v, y)).
  (** pop_min_halfedge (731-736) *)
  Definition pop_min (st : vstate) : res (vstate * nat) :=
    do l <- fetch IndexError (v_min st) (v_queue st);
    match l with
    | [] => Raise AttributeError
    | i :: _ => Ok (with_queue st (upd (v_min st) (@tl nat) (v_queue st)) (v_count st - 1)%Z, i)
    end.

  (** ** class VoronoiDiagram *)
  Definition dual (e : vedge) : pt N * pt N := (site_pt (es1 e), site_pt (es2 e)).
  (** _add_edge (230-244) *)
  Definition add_edge (c : vconf) (st : vstate) (n : nat) : res vstate :=
    do e <- fetch AttributeError n (v_edges st);
    do p1 <- (match ep1 e with Some v => do p <- fetch IndexError v (v_verts st); Ok (Some p) | None => Ok None end);
    do p2 <- (match ep2 e with Some v => do p <- fetch IndexError v (v_verts st); Ok (Some p) | None => Ok None end);
    Ok (with_out st (v_out st ++ [VOut p1 p2 (ea e, eb e, ec e) (if c_delaunay c then Some (dual e) else None)])).
  (** edge.set_endpoint(...) followed by _add_edge if the edge is complete (354-357, 381-382) *)
  Definition end_edge (c : vconf) (st : vstate) (r : heref) (right : bool) (v : nat) : res vstate :=
    match r with
    | OfEdge n =>
        do e <- fetch AttributeError n (v_edges st);
        let '(e', full) := set_endpoint e right v in
        let st := with_edges st (upd n (fun _ => e') (v_edges st)) in
        if full then add_edge c st n else Ok st
    | _ => Raise AttributeError
    end.
  (** a new half edge of edge [n] put behind [left] *)
  Definition add_he (st : vstate) (left n : nat) (right : bool) : vstate * nat :=
    let i := length (v_hes st) in
    let st := with_hes st (v_hes st ++ [HEdge (OfEdge n) right None #0]) in
    (with_chain st (insert_after left i (v_chain st)), i).
  (** _Edge(bot, top) and _add_bisector (222-228) *)
  Definition add_bisector (st : vstate) (s1 s2 : vsite) : res (vstate * nat) :=
    do e <- new_edge s1 s2;
    Ok (with_edges st (v_edges st ++ [e]), length (v_edges st)).
  (** a site found by intersect is queued, in place of what the half edge waited for *)
  Definition requeue (c : vconf) (st : vstate) (i j target : nat) (s : vsite) (drop : bool) : res vstate :=
    do o <- intersect st i j;
    match o with
    | None => Ok st
    | Some p =>
        do st <- (if drop then pq_delete c st target else Ok st);
        pq_insert c st target p (site_dist s p)
    end.
  (** _handle_event1 (283-318) *)
  Definition handle_site (c : vconf) (st : vstate) (s : vsite) : res vstate :=
    do (st, lbnd) <- pop_leftbnd c st s;
    do rbnd <- right_of lbnd (v_chain st);
    do bot <- right_site st (c_bottom c) lbnd;
    do (st, n) <- add_bisector st bot s;
    let '(st, b1) := add_he st lbnd n false in
    do st <- requeue c st lbnd b1 lbnd s true;
    let '(st, b2) := add_he st b1 n true in
    requeue c st b2 rbnd b2 s false.
  (** edges.delete (626-630) *)
  Definition delete_he (st : vstate) (i : nat) : vstate :=
    with_chain (with_hes st (upd i (fun h => HEdge Deleted (he_right h) (he_vertex h) (he_ystar h)) (v_hes st))) (unlink i (v_chain st)).
  (** _handle_event2 (320-395) *)
  Definition handle_circle (c : vconf) (st : vstate) : res vstate :=
    do (st, lbnd) <- pop_min st;
    do llbnd <- left_of lbnd (v_chain st);
    do rbnd <- right_of lbnd (v_chain st);
    do rrbnd <- right_of rbnd (v_chain st);
    do bot <- left_site st (c_bottom c) lbnd;
    do top <- right_site st (c_bottom c) rbnd;
    let '(bot, top, orientation) := if vy bot >? vy top then (top, bot, true) else (bot, top, false) in
    do st <- (if c_delaunay c then
                do mid <- right_site st (c_bottom c) lbnd;
                do t1 <- fetch IndexError (vnum bot) (c_in c);
                do t2 <- fetch IndexError (vnum top) (c_in c);
                do t3 <- fetch IndexError (vnum mid) (c_in c);
                Ok (with_tris st (v_tris st ++ [(t1, t2, t3)]))
              else Ok st);
    do hl <- the_he st lbnd;
    do hr <- the_he st rbnd;
    do vertex <- (match he_vertex hl with Some v => Ok v | None => Raise AttributeError end);
    let v := length (v_verts st) in
    let st := with_verts st (v_verts st ++ [vertex]) in
    do st <- end_edge c st (he_edge hl) (he_right hl) v;
    do st <- end_edge c st (he_edge hr) (he_right hr) v;
    let st := delete_he st lbnd in
    do st <- pq_delete c st rbnd;
    let st := delete_he st rbnd in
    do (st, n) <- add_bisector st bot top;
    let '(st, b) := add_he st llbnd n orientation in
    do st <- end_edge c st (OfEdge n) (negb orientation) v;
    do st <- requeue c st llbnd b llbnd bot true;
    requeue c st b rrbnd b bot false.

  (** the loop of _compute_voronoi (263-276); [fuel] is not part of the code, see the theorem on termination *)
  Fixpoint sweep (fuel : nat) (c : vconf) (sites : list vsite) (st : vstate) : res vstate :=
    match fuel with
    | O => Raise OutOfFuel
    | S fuel =>
        let empty := (v_count st =? 0)%Z in
        do (st, m) <- (if empty then Ok (st, (#0, #0)) else get_min_point st);
        match sites with
        | s :: r =>
            if empty || site_lt (vx s) (vy s) (fst m) (snd m) then
              do st <- handle_site c st s; sweep fuel c r st
            else do st <- handle_circle c st; sweep fuel c sites st
        | [] => if empty then Ok st else do st <- handle_circle c st; sweep fuel c [] st
        end
    end.
  (** 278-281 *)
  Fixpoint add_open (c : vconf) (st : vstate) (l : list nat) : res vstate :=
    match l with
    | [] => Raise AttributeError
    | i :: r =>
        if Nat.eqb i RIGHTEND then Ok st else
        do h <- the_he st i;
        match he_edge h with
        | OfEdge n => do st <- add_edge c st n; add_open c st r
        | _ => Raise AttributeError
        end
    end.

  (** class _SiteList (420-436): numbered in the order given, sorted by (y, x) *)
  Definition key_lt (a b : vsite) : bool :=
    if vy a =? vy b then vx a <? vx b else vy a <? vy b.
  Fixpoint insert_site (s : vsite) (l : list vsite) : list vsite :=
    match l with [] => [s] | t :: r => if key_lt t s then t :: insert_site s r else s :: t :: r end.
  Fixpoint number (i : nat) (l : list (pt N)) : list vsite :=
    match l with [] => [] | p :: r => VSite (px p) (py p) i :: number (S i) r end.
  Definition site_list (l : list (pt N)) : list vsite := fold_right insert_site [] (number 0 l).
  Definition extent (f : N -> N -> N) (g : pt N -> N) (p : pt N) (l : list (pt N)) : N :=
    fold_left (fun m q => f (g q) m) l (g p).
  (** _EdgeList.__init__ (607-617), _PriorityQueue.__init__ (683-692) *)
  Definition start (hashsize qsize : Z) : vstate :=
    let h := HEdge NoEdge false None #0 in
    VSt [] [h; h] [LEFTEND; RIGHTEND]
      (upd (Z.to_nat (hashsize - 1)) (fun _ => Some RIGHTEND) (upd 0 (fun _ => Some LEFTEND) (repeat None (Z.to_nat hashsize))))
      (repeat [] (Z.to_nat qsize)) 0 0 [] [] [].
  (** _compute_voronoi (246-281) *)
  Definition compute_voronoi (delaunay : bool) (pts : list (pt N)) : res vstate :=
    match pts, site_list pts with
    | p :: _, bottom :: sites =>
        let n : N := of_Z (Z.of_nat (length pts)) in
        let xmin := extent pymin px p pts in
        let xmax := extent pymax px p pts in
        let ymin := extent pymin py p pts in
        let ymax := extent pymax py p pts in
        let hs := trunc (#2 * sqrt (n + #4)) in
        let qs := trunc (#4 * sqrt n) in
        let c := VConf pts bottom delaunay xmin hs ((xmax - xmin) * of_Z hs) ymin (ymax - ymin) qs in
        do st <- sweep (3 * length pts + 3) c sites (start hs qs);
        add_open c st (after LEFTEND (v_chain st))
    | _, _ => Raise IndexError
    end.
  (** the diagram: vertices, edges, triangles, Delaunay edges *)
  Record diagram := Diagram { d_vertices : list (pt N); d_edges : list vout; d_triangles : list (pt N * pt N * pt N); d_delaunay : list (pt N * pt N) }.
  (** jiggle (762-781): [r1], [r2] stand for random.random() in random.uniform(a, b) = a + (b - a) * random(), [sign] for random.choice((-1, 1)) *)
  Definition uniform (a b r : N) : N := a + (b - a) * r.
  Definition jiggle (sign r1 r2 : N) (p : pt N) : pt N :=
    let nx := veps * abs (px p) in
    let ny := veps * abs (py p) in
    P (px p + uniform (nx * #10) (nx * #100) r1 * sign) (py p + uniform (ny * #10) (ny * #100) r2 * sign).
  (** VoronoiDiagram.__init__ (161-181); [jiggled] are the points after jiggling, or the points themselves *)
  Definition voronoi_diagram (delaunay : bool) (jiggled : list (pt N)) : res diagram :=
    if Nat.ltb 4 (length jiggled) then
      do st <- compute_voronoi delaunay jiggled;
      Ok (Diagram (v_verts st) (v_out st) (v_tris st) (if delaunay then map dual (v_edges st) else []))
    else Ok (Diagram [] [] [] []).
  (** DelaunayTriangle (134-155): [p3] returns self[1] *)
  Definition tri_p1 (t : pt N * pt N * pt N) : pt N := fst (fst t).
  Definition tri_p2 (t : pt N * pt N * pt N) : pt N := snd (fst t).
  Definition tri_p3 (t : pt N * pt N * pt N) : pt N := snd (fst t).
End Voronoi.
Arguments vsite : clear implicits.
Arguments vedge : clear implicits.
Arguments hedge : clear implicits.
Arguments vout : clear implicits.
Arguments vstate : clear implicits.
Arguments vconf : clear implicits.
Arguments diagram : clear implicits.
