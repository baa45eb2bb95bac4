(** * GraphSpec: what a user of planargraph.py relies on, stated without the model's walks and loops.
    Uses only the observable components of a graph: its edge set, vertices, adjacency lists. *)
From Coq Require Import List Bool Arith Permutation.
From Verif Require Import Graph.
Import ListNotations.

Section Spec.
  Context {V : Type} (G : geo V).
  Notation E := (V * V)%type.

  (** u and v are the ends of an edge in the set es (edges have no direction) *)
  Definition joins (es : list E) (u v : V) : Prop := In (u, v) es \/ In (v, u) es.
  Definition same_edge (e f : E) : Prop := f = e \/ f = (snd e, fst e).
  (** an edge has u as one of its ends *)
  Definition touches (u : V) (e : E) : Prop := fst e = u \/ snd e = u.
  Definition touches_dec (u : V) (e : E) : {touches u e} + {~ touches u e}.
  Proof.
    unfold touches. destruct (veq G (fst e) u); [left; auto|]. destruct (veq G (snd e) u); [left; auto|right; tauto].
  Defined.
  Definition incident (es : list E) (u : V) : list E := filter (fun e => if touches_dec u e then true else false) es.

  (** the bookkeeping is consistent *)
  Record consistent (g : @graph V) : Prop := {
    c_sym : forall u v, In v (adj G (nodes g) u) <-> joins (edges g) u v;   (* adjacency = edge set *)
    c_noloop : forall u, ~ joins (edges g) u u;
    c_nodup_adj : forall u, NoDup (adj G (nodes g) u);
    c_nodup_edges : NoDup (edges g);
    c_one_dir : forall u v, In (u, v) (edges g) -> ~ In (v, u) (edges g);   (* an edge is stored once *)
    c_nodup_vertices : NoDup (vertices g);
    c_vertices : forall u, In u (vertices g) <-> exists v, joins (edges g) u v
  }.

  (** API calls.  Iteration orders of sets and dicts are part of the call. *)
  Inductive op :=
  | Add (e : E) | AddPoly (vs : list V) (close : bool) | Remove (e : E)
  | Cull (pe : list E -> list E) (pv : list V -> list V)
  | Faces (pv : list V -> list V) | Boundary | Peel (poly : list V).
  Definition orders_ok (o : op) : Prop :=
    match o with
    | Cull pe pv => (forall l, Permutation (pe l) l) /\ (forall l, Permutation (pv l) l)
    | Faces pv => forall l, Permutation (pv l) l
    | _ => True
    end.
  (** the graph after a call, whether it returned or raised *)
  Definition step (g : graph) (o : op) : graph :=
    match o with
    | Add e => fst (add_edge G g e)
    | AddPoly vs c => fst (add_poly G g vs c)
    | Remove e => fst (remove_edge G g e)
    | Cull pe pv => match cull_open_edges G pe pv g with Some (g', _) => g' | None => g end
    | Faces pv => fst (get_face_polygons G pv g)
    | Boundary => fst (boundary_polygon G g)
    | Peel p => fst (peel_boundary_polygon G g p)
    end.
  Definition run (h : list op) : graph := fold_left step h (@empty V).
  Definition reachable (g : graph) : Prop := exists h, Forall orders_ok h /\ run h = g.

  (** a set of edges without dead ends: no vertex is the end of exactly one edge *)
  Definition no_dead_ends (es : list E) : Prop := forall u, length (incident es u) <> 1.

  (** consecutive vertices of a path, as edges *)
  Fixpoint steps (p : list V) : list E :=
    match p with
    | a :: r => match r with b :: _ => (a, b) :: steps r | [] => [] end
    | [] => []
    end.
  (** number of times the edge e (in either direction) occurs in a list of steps *)
  Definition same_edge_dec (e f : E) : {same_edge e f} + {~ same_edge e f}.
  Proof.
    assert (D : forall x y : E, {x = y} + {x <> y}) by (decide equality; apply (veq G)).
    unfold same_edge. destruct (D f e); [left; auto|]. destruct (D f (snd e, fst e)); [left; auto|right; tauto].
  Defined.
  Definition uses (e : E) (l : list E) : nat := length (filter (fun f => if same_edge_dec e f then true else false) l).
End Spec.

Section FaceSpec.
  Context {V : Type} (G : geo V).
  Notation E := (V * V)%type.
  (** w stands just before u in the cyclic list l *)
  Definition just_before (l : list V) (w u : V) : Prop :=
    (exists a b, l = a ++ w :: u :: b) \/ (exists a, l = u :: a ++ [w]) \/ (l = [u] /\ w = u).
  (** arriving at v from u, a face walk leaves along the edge listed just before the one it came from *)
  Definition turn_rule (m : nodemap) (d d' : E) : Prop :=
    snd d = fst d' /\ just_before (adj G m (snd d)) (snd d') (fst d).
  Fixpoint chained (m : nodemap) (l : list E) : Prop :=
    match l with
    | d :: r => match r with d' :: _ => turn_rule m d d' /\ chained m r | [] => True end
    | [] => True
    end.
  (** a closed walk along edges that obeys the turn rule at every vertex but (possibly) its first one *)
  Definition face_circuit (m : nodemap) (p : list V) : Prop :=
    3 < length p /\ (exists s q, p = s :: q ++ [s] /\ ~ In s q) /\ chained m (steps p).
  (** both directions of every edge *)
  Definition sides (es : list E) : list E := es ++ map (fun e => (snd e, fst e)) es.
End FaceSpec.
