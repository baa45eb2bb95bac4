(** * Graph: model of tcnc/geom/planargraph.py (Graph, GraphPathBuilder, face and boundary walks).

    Simplifications.
    - Vertices: an arbitrary type with decidable Leibniz equality.  The code uses points compared with
      tolerance and hashed by rounding; the model is exact whenever equal points are identical
      (all distinct points at least EPSILON apart).  Line equality is equality of unordered end points
      (line.py 570-583).
    - Everything numeric enters through the record [geo]: comparison of ordinates, comparison of sort keys
      (angles), sign of a polygon's area, point-in-polygon.  The theorems hold for every such record; [GraphR]
      instantiates it with the model of point.py/polygon.py over the reals.
    - A dict (nodemap) is an association list; a set (edges) a list without duplicates.  Iteration orders of
      sets and dicts are arbitrary: loops take an order function [perm].
    - The dict value (GraphNode) is its adjacency list of vertices: node objects are shared in the code, and
      equal iff their vertices are.
    - random.choice(l) is the element of index (r mod len l) where r comes from an arbitrary stream.
    - Not modelled: __str__/debug, _dedupe_paths' min_difference argument is fixed to its default. *)
From Coq Require Import List Bool Arith Lia.
Import ListNotations.
Set Implicit Arguments.

Record geo (V : Type) := mkgeo {
  veq : forall a b : V, {a = b} + {a <> b};
  ylt : V -> V -> bool;                   (* a.y < b.y *)
  ccw_le : V -> V -> V -> bool;           (* ccw_le o a b: sort_edges' key of a <= that of b, seen from o *)
  turn_lt : V -> V -> V -> V -> bool;     (* turn_lt p c a b: |angle2(c;p,a)| < |angle2(c;p,b)| *)
  area_pos : list V -> bool;              (* polygon.area(l) > 0 *)
  inside : list V -> V -> bool            (* polygon.point_inside(l, v) *)
}.

(** list.sort(key=...) : a stable sort (insertion; an element goes after all that are not greater) *)
Section Sort.
  Context {A : Type} (gt : A -> A -> bool).
  Fixpoint insert (x : A) (l : list A) : list A :=
    match l with
    | [] => [x]
    | y :: r => if gt y x then x :: l else y :: insert x r
    end.
  Definition sort (l : list A) : list A := fold_left (fun acc x => insert x acc) l [].
End Sort.

Section Graph.
  Context {V : Type} (G : geo V).
  Definition eqv (a b : V) : bool := if veq G a b then true else false.
  (** Line.__eq__ (line.py 570-583): either direction *)
  Definition eqe (e f : V * V) : bool :=
    (eqv (fst e) (fst f) && eqv (snd e) (snd f)) || (eqv (fst e) (snd f) && eqv (snd e) (fst f)).
  Definition mem_e (e : V * V) (l : list (V * V)) : bool := existsb (eqe e) l.
  Definition mem_v (v : V) (l : list V) : bool := existsb (eqv v) l.

  (** _bottom_node: the initial GraphNode(P.max_point()), a node, or None (_find_bottom_node of nothing) *)
  Inductive bot := BMax | BNode (v : V) | BNone.
  Definition nodemap := list (V * list V).
  (** Graph.__init__ (108-129) *)
  Record graph := mkg { edges : list (V * V); nodes : nodemap; bottom : bot; modified : bool }.
  Definition empty : graph := mkg [] [] BMax false.

  (** dict get / set (new keys at the end) / del *)
  Fixpoint get (m : nodemap) (v : V) : option (list V) :=
    match m with
    | [] => None
    | (k, x) :: r => if veq G k v then Some x else get r v
    end.
  Fixpoint set (m : nodemap) (v : V) (x : list V) : nodemap :=
    match m with
    | [] => [(v, x)]
    | (k, y) :: r => if veq G k v then (k, x) :: r else (k, y) :: set r v x
    end.
  Definition del (m : nodemap) (v : V) : nodemap := filter (fun p => negb (eqv (fst p) v)) m.
  (** node of a vertex as a list; [] if absent *)
  Definition adj (m : nodemap) (v : V) : list V := match get m v with Some l => l | None => [] end.
  (** GraphNode.degree (43-50) *)
  Definition degree (m : nodemap) (v : V) : nat := length (adj m v).

  (** list.remove(x): drops the first equal element; None is the ValueError *)
  Fixpoint lremove (x : V) (l : list V) : option (list V) :=
    match l with
    | [] => None
    | y :: r => if veq G y x then Some r else option_map (cons y) (lremove x r)
    end.

  (** nodemap.get(v) or _create_node (289-293) *)
  Definition ensure (m : nodemap) (v : V) : nodemap :=
    match get m v with Some _ => m | None => set m v [] end.
  (** GraphNode.add_edge_node (52-55): append *)
  Definition link (m : nodemap) (u v : V) : nodemap := set m u (adj m u ++ [v]).
  (** `if p.y < self._bottom_node.vertex.y: self._bottom_node = node` (152-155);
      None is the AttributeError on `None.vertex`.  (P.max_point has the largest ordinate there is.) *)
  Definition lower (b : bot) (v : V) : option bot :=
    match b with
    | BMax => Some (BNode v)
    | BNode w => Some (if ylt G v w then BNode v else b)
    | BNone => None
    end.
  (** Graph.add_edge (131-155): the new graph and whether the call returns normally *)
  Definition add_edge (g : graph) (e : V * V) : graph * bool :=
    let '(p1, p2) := e in
    if veq G p1 p2 then (g, true)
    else if mem_e (p1, p2) (edges g) then (g, true)
    else
      let es := edges g ++ [(p1, p2)] in
      let m := ensure (ensure (nodes g) p1) p2 in
      let m := link (link m p1 p2) p2 p1 in
      match lower (bottom g) p1 with
      | None => (mkg es m (bottom g) true, false)
      | Some b1 => match lower b1 p2 with
                   | None => (mkg es m b1 true, false)
                   | Some b2 => (mkg es m b2 true, true)
                   end
      end.

  (** Graph.remove_edge (157-175).  On a missing node (KeyError) or link (ValueError) only [modified] changes. *)
  Definition drop_if_isolated (m : nodemap) (v : V) : nodemap :=
    match adj m v with [] => del m v | _ => m end.
  Definition remove_edge (g : graph) (e : V * V) : graph * bool :=
    let '(p1, p2) := e in
    let fail := (mkg (edges g) (nodes g) (bottom g) true, false) in
    match get (nodes g) p1, get (nodes g) p2 with
    | Some l1, Some l2 =>
        match lremove p2 l1, lremove p1 l2 with
        | Some l1', Some l2' =>
            let m := set (set (nodes g) p1 l1') p2 l2' in
            let m := drop_if_isolated (drop_if_isolated m p1) p2 in
            if mem_e e (edges g)
            then (mkg (filter (fun f => negb (eqe e f)) (edges g)) m (bottom g) true, true)
            else (mkg (edges g) m (bottom g) true, false)
        | _, _ => fail
        end
    | _, _ => fail
    end.

  (** a sequence of calls, stopped by the first exception *)
  Fixpoint fold_op (f : graph -> V * V -> graph * bool) (g : graph) (l : list (V * V)) : graph * bool :=
    match l with
    | [] => (g, true)
    | e :: r => let '(g', ok) := f g e in if ok then fold_op f g' r else (g', false)
    end.
  (** Graph.add_poly (177-193): the segments, then the closing one; vertices[0] of an empty list raises *)
  Fixpoint segs (p : V) (l : list V) : list (V * V) :=
    match l with [] => [] | q :: r => (p, q) :: segs q r end.
  Definition add_poly (g : graph) (vs : list V) (close : bool) : graph * bool :=
    match vs with
    | [] => (g, false)
    | p :: r =>
        let closing := if close && negb (eqv p (last vs p)) then [(last vs p, p)] else [] in
        fold_op add_edge g (segs p r ++ closing)
    end.

  (** Graph.order (195-197), size (199-201), vertices (203-205) *)
  Definition order (g : graph) : nat := length (nodes g).
  Definition size (g : graph) : nat := length (edges g).
  Definition vertices (g : graph) : list V := map fst (nodes g).

  (** _find_bottom_node (306-324): first node of minimum ordinate in iteration order *)
  Definition find_bottom (vs : list V) : bot :=
    match vs with
    | [] => BNone
    | v :: r => BNode (fold_left (fun b w => if ylt G w b then w else b) r v)
    end.

  (** cull_open_edges (244-257).  [perm] orders the iteration over the edge set, [vperm] over the nodes.
      The fuel is the number of edges plus one; [C51_terminates] shows it is never used up. *)
  Definition is_open (m : nodemap) (e : V * V) : bool :=
    Nat.eqb (degree m (fst e)) 1 || Nat.eqb (degree m (snd e)) 1.
  Fixpoint cull_loop (perm : list (V * V) -> list (V * V)) (fuel : nat) (g : graph) : option (graph * bool) :=
    match fuel with
    | O => None
    | S n =>
        match filter (is_open (nodes g)) (perm (edges g)) with
        | [] => Some (g, true)
        | op => let '(g', ok) := fold_op remove_edge g op in
                if ok then cull_loop perm n g' else Some (g', false)
        end
    end.
  Definition cull_open_edges (perm : list (V * V) -> list (V * V)) (vperm : list V -> list V) (g : graph) : option (graph * bool) :=
    match cull_loop perm (S (size g)) g with
    | None => None
    | Some (g', true) => Some (mkg (edges g') (nodes g') (find_bottom (vperm (vertices g'))) (modified g'), true)
    | Some (g', false) => Some (g', false)
    end.

  (** GraphNode.sort_edges (62-70) and Graph._check_modified(modify=False) (295-304) *)
  Definition sort_edges (v : V) (l : list V) : list V := sort (fun a b => negb (ccw_le G v a b)) l.
  Definition check_modified (g : graph) : graph :=
    if modified g then mkg (edges g) (map (fun p => (fst p, sort_edges (fst p) (snd p))) (nodes g)) (bottom g) false else g.

  (** ** GraphPathBuilder *)
  (** random source: an arbitrary stream of naturals, consumed one at a time *)
  Definition rng := nat -> nat.
  (** random.choice(l) (index modulo length) *)
  Definition choice {A} (rs : rng) (k : nat) (l : list A) (d : A) : A := nth (rs k mod length l) l d.
  Inductive strategy := STRAIGHTEST | SQUIGGLY | RANDOM | RANDOM2.
  (** _get_exit_edge_node (467-507): chosen exit and the advanced random index.
      exit_node_list.sort(key, reverse=True) keeps the order of equal keys. *)
  Definition exits (m : nodemap) (prev curr : V) (visited : list (V * V)) : list V :=
    filter (fun x => negb (eqv x prev) && negb (mem_e (curr, x) visited)) (adj m curr).
  Definition exit_node (m : nodemap) (st : strategy) (rs : rng) (k : nat) (prev curr : V) (visited : list (V * V)) : option V * nat :=
    if Nat.eqb (degree m curr) 1 then (None, k)
    else
      match sort (turn_lt G prev curr) (exits m prev curr visited) with
      | [] => (None, k)
      | x :: r =>
          match st with
          | SQUIGGLY => (Some (last (x :: r) x), k)
          | RANDOM => (Some (choice rs k (x :: r) x), S k)
          | RANDOM2 => (Some (choice rs k (firstn 3 (x :: x :: r)) x), S k)
          | STRAIGHTEST => (Some x, k)
          end
      end.
  (** _build_path_forward (449-465): path without its first vertex, visited edges, random index.
      Out of fuel: None ([C52_terminates]). *)
  Definition add_set (e : V * V) (s : list (V * V)) : list (V * V) := if mem_e e s then s else s ++ [e].
  Fixpoint forward (m : nodemap) (st : strategy) (rs : rng) (fuel : nat) (k : nat) (prev curr : V) (visited : list (V * V))
    : option (list V * list (V * V) * nat) :=
    match fuel with
    | O => None
    | S n =>
        let '(nx, k') := exit_node m st rs k prev curr visited in
        let visited' := add_set (prev, curr) visited in
        match nx with
        | None => Some ([curr], visited', k')
        | Some x => match forward m st rs n k' curr x visited' with
                    | None => None
                    | Some (p, vis, k'') => Some (curr :: p, vis, k'')
                    end
        end
    end.
  (** _build_path (433-447); KeyError if an end of the start edge is not in the graph is outside the model
      (the walk then starts at a vertex without neighbours) *)
  Definition build_path (g : graph) (st : strategy) (rs : rng) (k : nat) (start : V * V) (visited : list (V * V))
    : option (list V * list (V * V) * nat) :=
    let '(a, b) := start in
    let fuel := S (size g) in
    match forward (nodes g) st rs fuel k a b visited with
    | None => None
    | Some (f, vis, k1) =>
        match forward (nodes g) st rs fuel k1 b a vis with
        | None => None
        | Some (r, vis2, k2) =>
            let path := a :: f in
            let path_rev := b :: r in
            Some (if Nat.ltb 2 (length path_rev) then rev path ++ skipn 2 path_rev else path, vis2, k2)
        end
    end.
  (** build_paths (388-419), the while loop: `free_edges -= visited_edges` *)
  Fixpoint paths_loop (g : graph) (st : strategy) (rs : rng) (fuel k : nat) (start : V * V) (free visited : list (V * V)) : option (list (list V)) :=
    match fuel with
    | O => None
    | S n =>
        match free with
        | [] => Some []
        | _ =>
            match build_path g st rs k start visited with
            | None => None
            | Some (p, vis, k') =>
                let free' := filter (fun e => negb (mem_e e vis)) free in
                match free' with
                | [] => Some [p]
                | e :: r => option_map (cons p) (paths_loop g st rs n (S k') (choice rs k' (e :: r) e) free' vis)
                end
            end
        end
    end.
  (** build_paths (388-419).  paths.sort(key=len, reverse=True).  Without a start edge one is drawn at random
      (IndexError for an empty graph: None). *)
  Definition build_paths (g : graph) (st : strategy) (rs : rng) (start : option (V * V)) : option (list (list V)) :=
    let go k s := option_map (sort (fun p q => Nat.ltb (length p) (length q)))
                    (paths_loop g st rs (S (size g)) k s (edges g) []) in
    match start with
    | Some s => go 0 s
    | None => match edges g with
              | [] => None
              | e :: r => go 1 (choice rs 0 (e :: r) e)
              end
    end.

  (** _dedupe_paths (509-520) with min_difference = 2; build_longest_paths (421-431) *)
  Definition vset (l : list V) : list V := nodup (veq G) l.
  Definition differ (p q : list V) : bool := Nat.ltb 2 (length (filter (fun v => negb (mem_v v q)) (vset p))).
  Fixpoint dedupe_from (prev : list V) (l : list (list V)) : list (list V) :=
    match l with
    | [] => []
    | p :: r => if differ prev p then p :: dedupe_from p r else dedupe_from p r
    end.
  Definition dedupe (l : list (list V)) : option (list (list V)) :=
    match l with [] => None | p :: r => Some (p :: dedupe_from p r) end.
  Fixpoint longest_loop (g : graph) (st : strategy) (rs : rng) (k : nat) (es : list (V * V)) : option (list (list V)) :=
    match es with
    | [] => Some []
    | e :: r => match build_path g st rs k e [] with
                | None => None
                | Some (p, _, k') => option_map (cons p) (longest_loop g st rs k' r)
                end
    end.
  Definition build_longest_paths (g : graph) (st : strategy) (rs : rng) (perm : list (V * V) -> list (V * V)) : option (list (list V)) :=
    match longest_loop g st rs 0 (perm (edges g)) with
    | None => None
    | Some l => dedupe (sort (fun p q => Nat.ltb (length p) (length q)) l)
    end.

  (** ** Walks around faces *)
  (** list index; None is the ValueError *)
  Fixpoint index (x : V) (l : list V) : option nat :=
    match l with
    | [] => None
    | y :: r => if veq G y x then Some 0 else option_map S (index x r)
    end.
  (** l[i-1], l[i-2], ... with Python's negative indices: the elements before position i, backwards,
      then the rest backwards, ending with l[i] itself *)
  Definition before (i : nat) (l : list V) : list V := rev (firstn i l) ++ rev (skipn i l).
  (** GraphNode.ccw_edge_node (72-92) *)
  Definition ccw_edge_node (m : nodemap) (v ref : V) (skip_spikes : bool) : option V :=
    match index ref (adj m v) with
    | None => None
    | Some i =>
        let c := before i (adj m v) in
        if skip_spikes
        then find (fun x => negb (Nat.eqb (degree m x) 1 && negb (eqv x ref))) c
        else hd_error c
    end.

  (** MarkedEdge / MarkedEdgeMap (523-570): the set of directed edges walked (visited_p1/visited_p2) *)
  Definition marks := list (V * V).
  Definition eqd (d f : V * V) : bool := eqv (fst d) (fst f) && eqv (snd d) (snd f).
  Definition marked (mk : marks) (d : V * V) : bool := existsb (eqd d) mk.
  Definition mark (mk : marks) (d : V * V) : marks := d :: mk.
  (** find_free_edge_node (621-630): visited_left marks every edge it looks at *)
  Fixpoint find_free (m : nodemap) (s : V) (l : list V) (mk : marks) : option V * marks :=
    match l with
    | [] => (None, mk)
    | x :: r =>
        let free := negb (marked mk (s, x)) in
        let mk' := mark mk (s, x) in
        if free && negb (Nat.leb (degree m x) 1) then (Some x, mk') else find_free m s r mk'
    end.
  (** make_face (600-619): the face as walked (or None if discarded) and the marks; None outside: out of fuel or exception *)
  Fixpoint face_walk (m : nodemap) (fuel : nat) (s prev curr : V) (mk : marks) : option (list V * V * marks) :=
    match fuel with
    | O => None
    | S n =>
        if negb (eqv curr s) && negb (Nat.leb (degree m curr) 1) then
          match ccw_edge_node m curr prev false with
          | None => None
          | Some x =>
              match face_walk m n s curr x (mark mk (curr, x)) with
              | None => None
              | Some (f, z, mk') => Some (if Nat.eqb (degree m x) 1 then f else x :: f, z, mk')
              end
          end
        else Some ([], curr, mk)
    end.
  Definition dart_count (m : nodemap) : nat := fold_right (fun p n => length (snd p) + n) 0 m.
  Definition make_face (m : nodemap) (s x : V) (mk : marks) : option (option (list V) * marks) :=
    match face_walk m (S (dart_count m)) s s x mk with
    | None => None
    | Some (f, z, mk') =>
        let face := s :: x :: f in
        Some (if negb (eqv z s) || area_pos G face then None else Some face, mk')
    end.
  (** make_face_polygons (573-597) *)
  Fixpoint faces_at (m : nodemap) (fuel : nat) (s : V) (mk : marks) : option (list (list V) * marks) :=
    match fuel with
    | O => None
    | S n =>
        match find_free m s (adj m s) mk with
        | (None, mk') => Some ([], mk')
        | (Some x, mk') =>
            match make_face m s x mk' with
            | None => None
            | Some (f, mk2) =>
                match faces_at m n s mk2 with
                | None => None
                | Some (fs, mk3) =>
                    Some (match f with
                          | Some p => if Nat.ltb 2 (length p) then p :: fs else fs
                          | None => fs
                          end, mk3)
                end
            end
        end
    end.
  Fixpoint faces_from (m : nodemap) (vs : list V) (mk : marks) : option (list (list V) * marks) :=
    match vs with
    | [] => Some ([], mk)
    | v :: r =>
        match faces_at m (S (degree m v)) v mk with
        | None => None
        | Some (fs, mk') =>
            match faces_from m r mk' with
            | None => None
            | Some (fs', mk2) => Some (fs ++ fs', mk2)
            end
        end
    end.
  (** get_face_polygons (259-266), nodes visited in the order vperm *)
  Definition get_face_polygons (vperm : list V -> list V) (g : graph) : graph * option (list (list V)) :=
    let g' := check_modified g in
    (g', option_map fst (faces_from (nodes g') (vperm (vertices g')) [])).

  (** _build_boundary_polygon (360-376): leaving a dead end.  ccw_edge_node() without its argument is a TypeError,
      so the while loop at 364 never runs its body successfully. *)
  Inductive bres := BOk (l : list V) | BTypeError | BFail.
  Fixpoint boundary_walk (m : nodemap) (n : nat) (s prev curr : V) : option (list V) :=
    match n with
    | O => Some []
    | S n' =>
        match ccw_edge_node m curr prev true with
        | None => None
        | Some x =>
            let out := if Nat.leb (degree m x) 1 then [] else [x] in
            if eqv x s then Some out
            else option_map (app out) (boundary_walk m n' s curr x)
        end
    end.
  Definition build_boundary (m : nodemap) (start : V) (n : nat) : bres :=
    let go s k :=
      match adj m s with
      | [] => BFail
      | p :: _ => match boundary_walk m k s p s with Some l => BOk (s :: l) | None => BFail end
      end in
    if Nat.eqb (degree m start) 1 then
      match adj m start with
      | [] => BFail
      | s :: _ =>
          if Nat.eqb (degree m s) 2 then BTypeError
          else if Nat.eqb (degree m s) 1 then BOk []
          else go s (n - 1)
      end
    else go start n.
  (** boundary_polygon (207-211); a graph that never had an edge has the P.max_point node: start_node[0] raises *)
  Definition boundary_polygon (g : graph) : graph * bres :=
    let g' := check_modified g in
    (g', match bottom g' with
         | BNode b => build_boundary (nodes g') b (order g')
         | _ => BFail
         end).
  (** _remove_node (268-287) *)
  Definition unlink_one (v : V) (m : nodemap) (w : V) : option nodemap :=
    match get m w with
    | None => Some m
    | Some l => match lremove v l with
                | None => None
                | Some [] => Some (del m w)
                | Some l' => Some (set m w l')
                end
    end.
  Fixpoint unlink_all (v : V) (ws : list V) (m : nodemap) : option nodemap :=
    match ws with
    | [] => Some m
    | w :: r => match unlink_one v m w with Some m' => unlink_all v r m' | None => None end
    end.
  Definition remove_node (m : nodemap) (v : V) : option nodemap :=
    match get m v with
    | None => Some m
    | Some l => option_map (fun m' => del m' v) (unlink_all v l m)
    end.
  Fixpoint remove_nodes (m : nodemap) (vs : list V) : option nodemap :=
    match vs with
    | [] => Some m
    | v :: r => match remove_node m v with Some m' => remove_nodes m' r | None => None end
    end.
  (** _prune_nodes (331-358) *)
  Fixpoint prune_spikes (fuel : nat) (m : nodemap) : option nodemap :=
    match fuel with
    | O => None
    | S n =>
        match filter (fun v => Nat.ltb (degree m v) 2) (map fst m) with
        | [] => Some m
        | vs => match remove_nodes m vs with Some m' => prune_spikes n m' | None => None end
        end
    end.
  Definition prune_nodes (m : nodemap) (poly : list V) : option nodemap :=
    let m1 := match poly with
              | [] => Some m
              | _ => match remove_nodes m (filter (fun v => negb (inside G poly v)) (map fst m)) with
                     | Some m' => remove_nodes m' poly
                     | None => None
                     end
              end in
    match m1 with Some m' => prune_spikes (S (length m')) m' | None => None end.
  (** peel_boundary_polygon (213-242) *)
  Fixpoint peel_loop (fuel : nat) (m : nodemap) (poly : list V) : option (list (list V)) :=
    match fuel with
    | O => None
    | S n =>
        if Nat.ltb 3 (length m) && Nat.ltb 3 (length poly) then
          match find_bottom (map fst m) with
          | BNode b =>
              match build_boundary m b (length m) with
              | BOk p =>
                  match prune_nodes m p with
                  | Some m' => option_map (fun l => if Nat.ltb 2 (length p) then p :: l else l) (peel_loop n m' p)
                  | None => None
                  end
              | _ => None
              end
          | _ => None
          end
        else Some []
    end.
  Definition peel_boundary_polygon (g : graph) (poly : list V) : graph * option (list (list V)) :=
    let g' := check_modified g in
    (g', match prune_nodes (nodes g') poly with
         | Some m => peel_loop (S (length m)) m poly
         | None => None
         end).
End Graph.
