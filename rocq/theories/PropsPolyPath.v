(** * PropsPolyPath: what the extension polypath.py draws (C178).  For every geometry. *)
From Coq Require Import ZArith List Bool Arith Lia Permutation.
From Verif Require Import Graph GraphSpec GraphProofs GraphProofs2 GraphZ PropsGraph PolyPathExt.
Import ListNotations.

Section C178.
  Context {V : Type} (G : geo V) (hull : list V -> list V).
  Notation E := (V * V)%type.
  (** The edges of the drawing: the given segments that have two different ends. *)
  Definition proper (segments : list E) (u v : V) : Prop := u <> v /\ joins segments u v.

  Lemma segment_graph_run l : segment_graph G l = run G (map Add l).
  Proof. unfold segment_graph, run. rewrite <- fold_left_rev_right. generalize (@empty V). intros g. rewrite fold_left_rev_right. revert g. induction l as [|e l IH]; intros g; cbn; auto. Qed.
  Lemma segment_reachable l : reachable G (segment_graph G l).
  Proof. exists (map Add l). split; [|symmetry; apply segment_graph_run]. induction l; cbn; constructor; cbn; auto. Qed.
  Lemma segment_edges l u v : joins (edges (segment_graph G l)) u v <-> proper l u v.
  Proof.
    induction l as [|[a b] l IH] using rev_ind.
    - unfold proper, joins. cbn. tauto.
    - unfold segment_graph in *. rewrite fold_left_app. cbn [fold_left].
      assert (R : reachable G (fold_left (fun g e => fst (add_edge G g e)) l (@empty V))) by apply segment_reachable.
      rewrite (C50_add_edge G _ a b u v R), IH. unfold proper, joins. rewrite !in_app_iff. cbn [In].
      split.
      + intros [(N & J)|(N & [(-> & ->)|(-> & ->)])]; [tauto|split; auto|split; auto].
      + intros (N & [[J|[J|[]]]|[J|[J|[]]]]); try (injection J as <- <-); auto 6.
  Qed.
  Lemma segment_none l : edges (segment_graph G l) = [] <-> forall u v, ~ proper l u v.
  Proof.
    split.
    - intros Q u v P. apply segment_edges in P. rewrite Q in P. destruct P as [[]|[]].
    - intros H. destruct (edges (segment_graph G l)) as [|[a b] r] eqn:Q; [reflexivity|]. exfalso. apply (H a b), segment_edges. rewrite Q. left. now left.
  Qed.
  Lemma create_nonempty (l : list (list V)) : (forall p, In p l -> p <> []) -> create_polygons l = l.
  Proof.
    unfold create_polygons. induction l as [|p l IH]; intros H; cbn [filter]; auto. destruct p; [exfalso; apply (H []); [now left|reflexivity]|].
    f_equal. apply IH. intros q I. apply H. now right.
  Qed.
  Lemma proper_edge l u v : proper l u v -> exists e, In e (edges (segment_graph G l)) /\ (forall x, uses G (u, v) x = uses G e x).
  Proof.
    intros P. apply segment_edges in P. destruct P as [P|P]; [exists (u, v)|exists (v, u)]; (split; [exact P|]); intros x; [reflexivity|].
    induction x as [|[a b] x IH]; [reflexivity|]. change ((a, b) :: x) with ([(a, b)] ++ x). rewrite !uses_app, IH. f_equal.
    rewrite !uses_one. destruct (same_edge_dec G (u, v) (a, b)) as [S|S], (same_edge_dec G (v, u) (a, b)) as [S'|S']; try reflexivity; exfalso;
      [apply S'|apply S]; unfold same_edge in *; cbn in *; destruct S as [S|S] || destruct S' as [S'|S']; injection S || injection S'; intros; subst; auto.
  Qed.

  (** the drawing of the paths: every step is a side of the drawing; what is left out are the paths with fewer than the least
      number of segments; with a least number of at most 1 every side is drawn exactly once *)
  Theorem C178_paths o rs segments u0 v0 : proper segments u0 v0 ->
    exists all, draw_polypaths G o rs (segment_graph G segments) = Some [(LPaths, filter (fun p => Z.ltb (pp_min_length o) (Z.of_nat (length p))) all)] /\
      (forall p, In p all -> 2 <= length p /\ forall u v, In (u, v) (steps p) -> proper segments u v) /\
      (forall u v, proper segments u v -> uses G (u, v) (flat_map steps all) = 1) /\
      ((pp_min_length o <= 1)%Z -> filter (fun p => Z.ltb (pp_min_length o) (Z.of_nat (length p))) all = all).
  Proof.
    intros P. assert (NE : edges (segment_graph G segments) <> []).
    { intros Q. apply (proj1 (segment_none segments) Q u0 v0 P). }
    destruct (C52_paths G (segment_graph G segments) (pp_strategy o) rs None (segment_reachable segments) NE) as (all & Q & S & U).
    exists all. unfold draw_polypaths. rewrite Q. split; [|split; [intros p I; split|split]].
    - do 3 f_equal. rewrite create_nonempty; [reflexivity|]. intros p I. apply filter_In in I. destruct (S p (proj1 I)) as [L _]. destruct p; [cbn in L; lia|discriminate].
    - apply S; auto.
    - intros u v X. apply segment_edges, (S p I), X.
    - intros u v Pu. destruct (proper_edge segments u v Pu) as (e & I & X). rewrite X. apply U, I.
    - intros M. clear Q U. induction all as [|p r IH]; [reflexivity|]. cbn [filter].
      destruct (S p (or_introl eq_refl)) as [L _]. replace (Z.ltb _ _) with true by (symmetry; apply Z.ltb_lt; lia).
      f_equal. apply IH. intros q I. apply S. now right.
  Qed.

  (** the longest paths: numbered layers with one path each, at most the given number (all of them if it is negative) *)
  Lemma longest_layers_spec m (l : list (list V)) : forall i, (m < 0 \/ i <= m)%Z -> (0 <= i)%Z -> (forall p, In p l -> p <> []) ->
    longest_layers m i l = map (fun k => (LLong (i + Z.of_nat k), [nth k l []])) (seq 0 (if Z.ltb m 0 then length l else Nat.min (length l) (Z.to_nat (m - i)))).
  Proof.
    induction l as [|p r IH]; intros i M Hi NE; cbn [longest_layers].
    - cbn [length]. rewrite Nat.min_0_l. destruct (Z.ltb m 0); reflexivity.
    - assert (Np : p <> []) by (apply NE; now left).
      destruct (Z.eqb_spec i m) as [->|Ne].
      + destruct (Z.ltb_spec m 0) as [H|H]; [lia|]. rewrite Z.sub_diag. cbn [Z.to_nat]. rewrite Nat.min_0_r. reflexivity.
      + rewrite (IH (i + 1)%Z); [|lia|lia|intros q I; apply NE; now right].
        set (c := if Z.ltb m 0 then length r else Nat.min (length r) (Z.to_nat (m - (i + 1)))).
        replace (if Z.ltb m 0 then length (p :: r) else Nat.min (length (p :: r)) (Z.to_nat (m - i))) with (S c).
        * cbn [seq map]. f_equal.
          -- rewrite Z.add_0_r. f_equal. unfold create_polygons. cbn [filter]. destruct p; [congruence|reflexivity].
          -- rewrite <- seq_shift, map_map. apply map_ext. intros k. cbn [nth]. do 2 f_equal. lia.
        * unfold c. destruct (Z.ltb_spec m 0); [reflexivity|]. cbn [length]. replace (Z.to_nat (m - i)) with (S (Z.to_nat (m - (i + 1)))) by lia. reflexivity.
  Qed.
  Theorem C178_longest o rs perm segments u0 v0 : (forall l, Permutation (perm l) l) -> proper segments u0 v0 ->
    exists all, all <> [] /\
      draw_longest G o rs perm (segment_graph G segments) =
        Some (map (fun k => (LLong (Z.of_nat k), [nth k all []]))
                  (seq 0 (if Z.ltb (pp_max o) 0 then length all else Nat.min (length all) (Z.to_nat (pp_max o))))) /\
      forall p, In p all -> 2 <= length p /\ length p <= length (hd [] all) /\
        (forall u v, In (u, v) (steps p) -> proper segments u v) /\ (forall u v, proper segments u v -> uses G (u, v) (steps p) <= 1).
  Proof.
    intros PP P. assert (NE : edges (segment_graph G segments) <> []).
    { intros Q. apply (proj1 (segment_none segments) Q u0 v0 P). }
    destruct (C81_longest_paths G (segment_graph G segments) (pp_strategy o) rs perm (segment_reachable segments) PP NE) as (p0 & r & Q & A).
    exists (p0 :: r). split; [discriminate|]. split.
    - unfold draw_longest. rewrite Q. f_equal. rewrite longest_layers_spec.
      + rewrite Z.sub_0_r. reflexivity.
      + lia.
      + lia.
      + intros q I. destruct (A q I) as ((L & _) & _). destruct q; [cbn in L; lia|discriminate].
    - intros q I. destruct (A q I) as ((L & S) & U & D). split; [exact L|]. split; [exact D|]. split.
      + intros u v X. apply segment_edges, S, X.
      + intros u v Pu. destruct (proper_edge segments u v Pu) as (e & _ & X). rewrite X. apply U.
  Qed.

  (** the layers of a run, in order, and the only failure: the hull *)
  Theorem C178_layers o rs1 rs2 perm vperm shapes u0 v0 : (forall l, Permutation (perm l) l) -> proper (concat shapes) u0 v0 ->
    let g := segment_graph G (concat shapes) in
    exists paths longest,
      draw_polypaths G o rs1 g = Some paths /\ draw_longest G o rs2 perm g = Some longest /\
      forall l, polypath G hull o rs1 rs2 perm vperm shapes = Some l <->
        exists hulls, (if pp_hull o then draw_hulls G o g = Some hulls else hulls = []) /\
        l = (if pp_paths o then paths else []) ++ (if pp_longest o then longest else []) ++
            (if pp_convex_hull o then [(LConvexHull, create_polygons [hull (vperm (vertices g))])] else []) ++ hulls.
  Proof.
    intros PP P. cbn zeta. destruct (C178_paths o rs1 _ _ _ P) as (a & Qa & _). destruct (C178_longest o rs2 perm _ _ _ PP P) as (b & _ & Qb & _).
    eexists; eexists. split; [exact Qa|]. split; [exact Qb|]. intros l. unfold polypath.
    assert (Ns : shapes <> []) by (intros ->; destruct P as (_ & [[]|[]])). destruct shapes as [|s r]; [congruence|].
    set (g := segment_graph G (concat (s :: r))) in *. rewrite Qa, Qb. unfold draw_convex_hull.
    destruct (pp_hull o), (pp_paths o), (pp_longest o), (pp_convex_hull o); cbn [both];
      try destruct (draw_hulls G o g) as [h|]; cbn [both app];
      (split; [intros H; first [discriminate|injection H as <-; eexists; split; [reflexivity|]; cbn [app]; rewrite ?app_nil_r; reflexivity]
              |intros (hs & X & ->); first [discriminate|injection X as <-; reflexivity|subst hs; cbn [app]; rewrite ?app_nil_r; reflexivity]]).
  Qed.

  (** the hulls: one layer with the boundary; with the inner hulls a second one, if there are any, whose polygons have no vertex of
      the boundary, lie inside of it and have no vertex in common, along sides of the drawing *)
  Theorem C178_hulls o segments hulls : draw_hulls G o (segment_graph G segments) = Some hulls ->
    exists outer, snd (boundary_polygon G (segment_graph G segments)) = BOk outer /\
      (pp_inner o = false -> hulls = [(LHull, match outer with [] => [] | _ => [outer] end)]) /\
      (pp_inner o = true -> exists inner, hulls = (LHull, match outer with [] => [] | _ => [outer] end) :: (match inner with [] => [] | _ => [(LHull, inner)] end) /\
         vertex_disjoint inner /\
         forall p, In p inner -> 2 < length p /\ (forall v, In v p -> ~ In v outer) /\
           (outer <> [] -> forall v, In v p -> inside G outer v = true) /\ forall u v, In (u, v) (steps p) -> proper segments u v).
  Proof.
    unfold draw_hulls. intros H. destruct (boundary_polygon G (segment_graph G segments)) as [g1 b] eqn:Q. destruct b as [outer| |] eqn:Qb; try discriminate; [].
    exists outer. split; [reflexivity|]. replace (create_polygons [outer]) with (match outer with [] => [] | _ => [outer] end) in H by (destruct outer; reflexivity).
    destruct (pp_inner o); [|injection H as <-; split; [reflexivity|discriminate]].
    split; [discriminate|]. intros _.
    assert (R : reachable G g1).
    { replace g1 with (fst (boundary_polygon G (segment_graph G segments))) by (rewrite Q; reflexivity).
      destruct (segment_reachable segments) as (h & O & E). exists (h ++ [Boundary]). split.
      - apply Forall_app; split; [exact O|]. repeat constructor.
      - unfold run in *. rewrite fold_left_app, E. reflexivity. }
    assert (EQ : edges g1 = edges (segment_graph G segments)).
    { replace g1 with (fst (boundary_polygon G (segment_graph G segments))) by (rewrite Q; reflexivity). apply check_modified_edges. }
    destruct (C80_peel G g1 outer R) as (_ & ps & X & D & F). rewrite X in H. exists ps. split; [|split; [exact D|]].
    - destruct ps as [|p r]; injection H as <-; [reflexivity|]. f_equal. apply (f_equal (fun x => [(LHull, x)])). refine (create_nonempty (p :: r) _).
      intros q I. destruct (F q I) as (L & _). destruct q; [cbn in L; lia|discriminate].
    - intros p I. destruct (F p I) as (A & B & C & S). split; [exact A|]. split; [exact B|]. split; [exact C|]. intros u v Y. apply segment_edges. rewrite <- EQ. apply S, Y.
  Qed.

  (** the points given to the convex hull are the ends of the sides, each once *)
  Theorem C178_corners segments : NoDup (vertices (segment_graph G segments)) /\
    forall u, In u (vertices (segment_graph G segments)) <-> exists v, proper segments u v.
  Proof.
    pose proof (C50_consistent G _ (segment_reachable segments)) as C. split; [apply (c_nodup_vertices _ _ C)|].
    intros u. rewrite (c_vertices _ _ C). split; intros (v & X); exists v; apply segment_edges, X.
  Qed.
  (** a drawing of points only: an exception, whichever paths are asked for *)
  Theorem C178_points o rs1 rs2 perm vperm shapes : (forall l, Permutation (perm l) l) -> shapes <> [] -> (forall u v, ~ proper (concat shapes) u v) ->
    pp_paths o = true \/ pp_longest o = true -> polypath G hull o rs1 rs2 perm vperm shapes = None.
  Proof.
    intros PP N P H. apply (proj2 (segment_none _)) in P. unfold polypath. destruct shapes as [|s r]; [congruence|].
    set (g := segment_graph G (concat (s :: r))) in *.
    assert (A : draw_polypaths G o rs1 g = None) by (unfold draw_polypaths; rewrite (C52_empty_raises G); auto).
    assert (B : draw_longest G o rs2 perm g = None).
    { unfold draw_longest. rewrite (C81_empty_raises G); auto. apply Permutation_nil, Permutation_sym, PP. }
    rewrite A, B. destruct (pp_paths o); [reflexivity|]. destruct H as [H|H]; [discriminate|]. rewrite H. reflexivity.
  Qed.
  (** nothing selected, nothing drawn *)
  Theorem C178_nothing o rs1 rs2 perm vperm : polypath G hull o rs1 rs2 perm vperm [] = Some [].
  Proof. reflexivity. Qed.
End C178.

(** a drawing of points only *)
Definition opts_paths : pp_opts := mkpp true true 1 2 STRAIGHTEST true false false.
Definition opts_hull : pp_opts := mkpp false false 1 2 STRAIGHTEST false true true.
Theorem C178_points_refuted : exists shapes, shapes <> [] /\
  polypath zgeo (fun l => l) opts_paths (fun n => n) (fun n => n) (fun l => l) (fun l => l) shapes = None.
Proof. exists [[((1,1),(1,1))]]%Z. split; [discriminate|vm_compute; reflexivity]. Qed.
(** a drawing with a loose end at the bottom *)
Theorem C178_hull_refuted : exists shapes u v, proper (concat shapes) u v /\
  polypath zgeo (fun l => l) opts_hull (fun n => n) (fun n => n) (fun l => l) (fun l => l) shapes = None.
Proof. exists [lollipop], (0,0)%Z, (0,1)%Z. split; [split; [discriminate|left; cbn; auto]|vm_compute; reflexivity]. Qed.
Theorem C178_example :
  proper (concat [sq_diag0]) (0,0)%Z (0,2)%Z /\
  polypath zgeo (fun l => l) opts_hull (fun n => n) (fun n => n) (fun l => l) (fun l => l) [sq_diag0] = Some [(LHull, [[(0,0);(0,2);(2,2);(2,0);(0,0)]])]%Z /\
  (exists paths, polypath zgeo (fun l => l) opts_paths (fun n => n) (fun n => n) (fun l => l) (fun l => l) [sq_diag0] = Some paths /\
    paths = [(LPaths, [[(0,0);(2,0);(2,2);(0,2);(0,0);(2,2)]]); (LLong 0, [[(0,0);(2,0);(2,2);(0,2);(0,0);(2,2)]]); (LConvexHull, [[(0,0);(2,0);(2,2);(0,2)]])]%Z).
Proof.
  split; [split; [discriminate|]|split; [vm_compute; reflexivity|]].
  - cbn. first [left; cbn; tauto|right; cbn; tauto].
  - eexists. split; [vm_compute; reflexivity|reflexivity].
Qed.
