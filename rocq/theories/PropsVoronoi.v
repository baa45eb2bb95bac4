(** * PropsVoronoi: Voronoi diagrams and Delaunay triangulations (C156 - C162). *)
From Verif Require Import Num NumR NumF64 Geom GeomSpec GeomProofs Voronoi VoronoiSpec VoronoiProofs VoronoiProofs2 VoronoiProofs3 VoronoiProofs4 VoronoiExact.
From Coq Require Import ZArith QArith Qreals Reals Lra Lia Bool List Permutation.
Import ListNotations.
Local Open Scope R_scope.

Ltac inv_bind H := let a := fresh "x" in let E := fresh "E" in apply bind_ok in H; destruct H as (a & E & H).
(** an example's diagram, computed *)
Ltac computed := match goal with |- exists d, ?x = Ok d /\ _ => let v := eval vm_compute in x in match v with Ok ?d => exists d; split; [vm_cast_no_check (eq_refl v)|] end end.
Lemma diagram_some {N : NumOps} delaunay (pts : list (pt N)) d : voronoi_diagram delaunay pts = Ok d ->
  (4 < length pts)%nat /\ (exists st, compute_voronoi delaunay pts = Ok st /\
     d = Diagram (v_verts st) (v_out st) (v_tris st) (if delaunay then map dual (v_edges st) else [])) \/
  (length pts <= 4)%nat /\ d = Diagram [] [] [] [].
Proof.
  unfold voronoi_diagram. destruct (Nat.ltb_spec 4 (length pts)) as [L|L]; intros H.
  - left. split; [exact L|]. inv_bind H. injection H as <-. exists x. auto.
  - right. injection H as <-. auto.
Qed.
Lemma in_pts {N : NumOps} (D : list (vsite N)) pts s : Permutation (map site_pt D) pts -> In s D -> In (site_pt s) pts.
Proof. intros P H. eapply Permutation_in; [exact P|]. now apply in_map. Qed.

(** ** C156: edges lie on perpendicular bisectors *)
(** exact arithmetic of any kind (the real numbers, or the rational numbers with rounded square roots) *)
Theorem C156_exact (N : NumOps) val (X : exact N val) delaunay pts d o a b c :
  voronoi_diagram delaunay pts = Ok d -> In o (d_edges d) -> vo_line o = (a, b, c) ->
  exists p q : pt N, In p pts /\ In q pts /\ real N val p <> real N val q /\
    (forall z : Pt, val a * px z + val b * py z = val c <-> euclid z (real N val p) = euclid z (real N val q)) /\
    (if delaunay then vo_dual o = Some (p, q) /\ In (p, q) (d_delaunay d) else vo_dual o = None).
Proof.
  intros H Ho Hl. destruct (diagram_some _ _ _ H) as [(_ & st & E & ->)|(_ & ->)]; [|destruct Ho]. cbn [d_edges d_delaunay] in *.
  destruct (compute_inv _ _ _ E) as (cf & D & _ & Hd & I & P). pose proof (s_out _ _ _ I) as F. rewrite Forall_forall in F. destruct (F _ Ho) as ((k & K & L & Du) & _).
  pose proof (s_cinv _ _ _ I) as C. destruct (i_made _ _ _ _ _ C _ K) as (e & M & Q). destruct (i_sites _ _ _ _ _ C _ K) as (S1 & S2).
  destruct (bisector_exact N val X _ _ _ M) as (Ne & B).
  assert (LL : kline k = (ea e, eb e, ec e)) by (rewrite <- Q; reflexivity). rewrite L, LL in Hl. injection Hl as <- <- <-.
  exists (site_pt (ks1 k)), (site_pt (ks2 k)). split; [eapply in_pts; eauto|]. split; [eapply in_pts; eauto|]. split; [exact Ne|]. split; [exact B|].
  rewrite Hd in Du. destruct delaunay; [|exact Du]. split; [exact Du|]. rewrite dual_kdual. change (In (kdual k) (map kdual (map ecore (v_edges st)))). now apply in_map.
Qed.
(** with real numbers *)
Theorem C156_bisector delaunay (pts : list Pt) d o (a b c : R) :
  voronoi_diagram (N:=ROps) delaunay pts = Ok d -> In o (d_edges d) -> vo_line o = (a, b, c) ->
  exists p q : Pt, In p pts /\ In q pts /\ p <> q /\
    (forall z : Pt, a * px z + b * py z = c <-> euclid z p = euclid z q) /\
    (if delaunay then vo_dual o = Some (p, q) /\ In (p, q) (d_delaunay d) else vo_dual o = None).
Proof.
  intros H Ho Hl. destruct (C156_exact ROps (fun x => x) exact_R delaunay pts d o a b c H Ho Hl) as (p & q & A & B & K & Q & R0).
  assert (Z : forall p : Pt, real ROps (fun x => x) p = p) by (intros []; reflexivity). rewrite !Z in *. exists p, q. repeat split; auto; apply Q.
Qed.
(** and the bisector of every Delaunay edge is one of the reported lines, see C159 *)
Definition qp (x y : Z) : pt QOps := P (inject_Z x : QOps) (inject_Z y : QOps).
Definition six : list (pt QOps) := [qp 0 0; qp 4 1; qp 1 5; qp 6 6; qp 3 3; qp 9 2].
Example C156_example : exists d, voronoi_diagram (N:=QOps) true six = Ok d /\ length (d_edges d) = 11%nat /\
  nth_error (map vo_line (d_edges d)) 2 = Some ((Qmake (-1) 2, Qmake 1 1, Qmake 1 4) : QOps * QOps * QOps) /\
  nth_error (map vo_dual (d_edges d)) 2 = Some (Some (qp 4 1, qp 3 3)).
Proof. computed. split; [reflexivity|]. split; reflexivity. Qed.

(** ** C157: vertices *)
Theorem C157_exact (N : NumOps) val (X : exact N val) delaunay pts d v :
  voronoi_diagram delaunay pts = Ok d -> In v (d_vertices d) ->
  exists p q r : pt N, In p pts /\ In q pts /\ In r pts /\
    real N val p <> real N val q /\ real N val q <> real N val r /\ real N val p <> real N val r /\
    euclid (real N val v) (real N val p) = euclid (real N val v) (real N val q) /\
    euclid (real N val v) (real N val q) = euclid (real N val v) (real N val r).
Proof.
  intros H Hv. destruct (diagram_some _ _ _ H) as [(_ & st & E & ->)|(_ & ->)]; [|destruct Hv]. cbn [d_vertices] in *.
  destruct (compute_inv _ _ _ E) as (cf & D & _ & _ & I & P). pose proof (s_vert _ _ _ I) as F. rewrite Forall_forall in F.
  destruct (crossed_exact N val X _ _ _ _ _ _ (s_cinv _ _ _ I) (F _ Hv)) as (p & q & r & A & B & C & R0).
  exists (site_pt p), (site_pt q), (site_pt r). repeat (split; [eapply in_pts; eauto|]). exact R0.
Qed.
Theorem C157_vertex delaunay (pts : list Pt) d v :
  voronoi_diagram (N:=ROps) delaunay pts = Ok d -> In v (d_vertices d) ->
  exists p q r : Pt, In p pts /\ In q pts /\ In r pts /\ p <> q /\ q <> r /\ p <> r /\
    euclid v p = euclid v q /\ euclid v q = euclid v r.
Proof.
  intros H Hv. destruct (C157_exact ROps (fun x => x) exact_R delaunay pts d v H Hv) as (p & q & r & R0).
  assert (Z : forall p : Pt, real ROps (fun x => x) p = p) by (intros []; reflexivity). rewrite !Z in R0. exists p, q, r. exact R0.
Qed.
(** the end points of edges are vertices (every number type) *)
Theorem C157_ends {N : NumOps} delaunay (pts : list (pt N)) d o v :
  voronoi_diagram delaunay pts = Ok d -> In o (d_edges d) -> vo_p1 o = Some v \/ vo_p2 o = Some v -> In v (d_vertices d).
Proof.
  intros H Ho Hv. destruct (diagram_some _ _ _ H) as [(_ & st & E & ->)|(_ & ->)]; [|destruct Ho]. cbn [d_edges d_vertices] in *.
  destruct (compute_inv _ _ _ E) as (cf & D & _ & _ & I & P). pose proof (s_out _ _ _ I) as F. rewrite Forall_forall in F. destruct (F _ Ho) as (_ & K). auto.
Qed.
Example C157_example : exists d, voronoi_diagram (N:=QOps) true six = Ok d /\ length (d_vertices d) = 6%nat /\
  In (P (Qmake 11 6 : QOps) (Qmake 7 6 : QOps)) (d_vertices d) /\
  (exists o, In o (d_edges d) /\ vo_p1 o = Some (P (Qmake 35 6 : QOps) (Qmake 19 6 : QOps)) /\ vo_p2 o = Some (P (Qmake 285 46 : QOps) (Qmake 139 46 : QOps))).
Proof.
  computed. split; [reflexivity|]. split; [left; reflexivity|].
  eexists. split; [do 3 right; left; reflexivity|]. split; reflexivity.
Qed.
(** Fourteen points: the vertices are nearest to three of them. *)
Definition fourteen : list (pt QOps) := [qp 3 1; qp 17 2; qp 9 4; qp 28 5; qp 1 8; qp 14 9; qp 22 11; qp 6 13; qp 30 14; qp 11 16; qp 19 18; qp 2 20; qp 25 21; qp 8 23].
Definition nearer (v p q : pt QOps) : bool :=
  negb (Qle_bool ((px v - px q) * (px v - px q) + (py v - py q) * (py v - py q)) ((px v - px p) * (px v - px p) + (py v - py p) * (py v - py p)))%Q.
Definition nearest3 (v : pt QOps) (ps : list (pt QOps)) : bool :=
  Nat.leb 3 (length (filter (fun p => forallb (fun q => negb (nearer v q p)) ps) ps)).
Example C157_nearest_example : exists d, voronoi_diagram (N:=QOps) true fourteen = Ok d /\ length (d_vertices d) = 18%nat /\
  forallb (fun v => nearest3 v fourteen) (d_vertices d) = true.
Proof. computed. split; [reflexivity|]. vm_compute. reflexivity. Qed.
(** Even with exact arithmetic: an edge whose end point lies off the edge's own line, and a vertex with a single nearest input point.
    Edges whose directions differ by less than 1e-9 are taken for parallel, so a crossing that has become obsolete stays in the queue. *)
Definition flat : list (pt QOps) :=
  [qp 0 0; P (lit 1 0 : QOps) (lit (-9) (-10) : QOps); P (lit 2 0 : QOps) (lit (-2) (-10) : QOps); P (lit 5 (-1) : QOps) (lit 0 0 : QOps); qp 1 5].
Definition dist2 (p q : pt QOps) : Q := Qred ((px p - px q) * (px p - px q) + (py p - py q) * (py p - py q))%Q.
Theorem C157_on_line_refuted : exists d, voronoi_diagram (N:=QOps) true flat = Ok d /\ exists o v a b c, In o (d_edges d) /\ vo_p1 o = Some v /\
  vo_line o = (a, b, c) /\ (a * px v + b * py v + Qmake 8 10 < c)%Q.
Proof.
  computed. eexists _, _, _, _, _. cbn [d_edges]. split; [right; left; reflexivity|]. split; [reflexivity|]. split; [reflexivity|].
  vm_compute. reflexivity.
Qed.
Theorem C157_nearest_refuted : exists d, voronoi_diagram (N:=QOps) true flat = Ok d /\ exists v q, In v (d_vertices d) /\ In q flat /\
  forall p, In p flat -> p <> q -> (dist2 v q < dist2 v p)%Q.
Proof.
  computed. eexists _, (qp 1 5). cbn [d_vertices]. split; [right; right; left; reflexivity|].
  split; [unfold flat; cbn [In]; tauto|]. intros p Hp Ne. unfold flat in Hp. cbn [In] in Hp.
  destruct Hp as [<-|[<-|[<-|[<-|[<-|[]]]]]]; [vm_compute; reflexivity|vm_compute; reflexivity|vm_compute; reflexivity|vm_compute; reflexivity|exfalso; now apply Ne].
Qed.

(** ** C158: the Delaunay triangulation (every number type) *)
Theorem C158_counts {N : NumOps} (pts : list (pt N)) d : (4 < length pts)%nat -> voronoi_diagram true pts = Ok d ->
  S (length (d_delaunay d)) = (length pts + length (d_vertices d))%nat /\ length (d_triangles d) = length (d_vertices d).
Proof.
  intros L H. destruct (diagram_some _ _ _ H) as [(_ & st & E & ->)|(L' & ->)]; [|lia]. cbn [d_delaunay d_vertices d_triangles].
  destruct (compute_inv _ _ _ E) as (cf & D & _ & Hd & I & P). pose proof (s_cnt _ _ _ I) as A. pose proof (s_tri _ _ _ I) as B.
  apply Permutation_length in P. rewrite map_length in P. rewrite map_length. rewrite Hd in B. split; [lia|exact B].
Qed.
Theorem C158_triangles {N : NumOps} (pts : list (pt N)) d a b c : voronoi_diagram true pts = Ok d -> In (a, b, c) (d_triangles d) ->
  side_of (d_delaunay d) a b /\ side_of (d_delaunay d) b c /\ side_of (d_delaunay d) a c.
Proof.
  intros H Ht. destruct (diagram_some _ _ _ H) as [(_ & st & E & ->)|(_ & ->)]; [|destruct Ht]. cbn [d_delaunay d_triangles] in *.
  destruct (compute_inv _ _ _ E) as (cf & D & _ & _ & I & _). pose proof (s_sides _ _ _ I) as F. rewrite Forall_forall in F. specialize (F _ Ht). cbn in F.
  rewrite dual_kdual. exact F.
Qed.
(** every input point is joined to every other one, and Delaunay edges join input points only *)
Theorem C158_connected {N : NumOps} (pts : list (pt N)) d : (4 < length pts)%nat -> voronoi_diagram true pts = Ok d ->
  (forall p q, In p pts -> In q pts -> reach (d_delaunay d) p q) /\ (forall p q, In (p, q) (d_delaunay d) -> In p pts /\ In q pts).
Proof.
  intros L H. destruct (diagram_some _ _ _ H) as [(_ & st & E & ->)|(L' & ->)]; [|lia]. cbn [d_delaunay].
  destruct (compute_inv _ _ _ E) as (cf & D & _ & _ & I & P). split.
  - rewrite dual_kdual. set (G := map kdual (map ecore (v_edges st))).
    assert (B : forall p, In p pts -> reach G (site_pt (c_bottom cf)) p).
    { intros p Hp. apply (Permutation_in _ (Permutation_sym P)) in Hp. apply in_map_iff in Hp. destruct Hp as (s & <- & Hs). now apply (s_conn _ _ _ I). }
    assert (T : forall a b c, reach G a b -> reach G b c -> reach G a c).
    { intros a b c Hab Hbc. induction Hbc as [|b' c' _ IH K]; [exact Hab|]. eapply reach_step; eauto. }
    assert (S : forall a b, reach G a b -> reach G b a).
    { intros a b Hab. induction Hab as [|b' c' _ IH K]; [constructor|]. apply (T c' b' a); [|exact IH]. eapply reach_step; [constructor|]. tauto. }
    intros p q Hp Hq. apply (T p (site_pt (c_bottom cf)) q); auto.
  - intros p q Hpq. rewrite dual_kdual in Hpq. apply in_map_iff in Hpq. destruct Hpq as (k & Q & K).
    destruct (i_sites _ _ _ _ _ (s_cinv _ _ _ I) _ K) as (S1 & S2). unfold kdual in Q. injection Q as <- <-. split; eapply in_pts; eauto.
Qed.
(** without Delaunay output there are no triangles and no Delaunay edges, and as many edges as there would be *)
Theorem C158_off {N : NumOps} (pts : list (pt N)) d : voronoi_diagram false pts = Ok d -> d_triangles d = [] /\ d_delaunay d = [].
Proof.
  intros H. destruct (diagram_some _ _ _ H) as [(_ & st & E & ->)|(_ & ->)]; [|auto]. cbn [d_delaunay d_triangles].
  destruct (compute_inv _ _ _ E) as (cf & D & _ & Hd & I & _). pose proof (s_tri _ _ _ I) as B. rewrite Hd in B. split; [|reflexivity]. destruct (v_tris st); [reflexivity|discriminate].
Qed.
Example C158_example : exists d, voronoi_diagram (N:=QOps) true six = Ok d /\ length (d_triangles d) = 6%nat /\ length (d_delaunay d) = 11%nat /\
  In (qp 0 0, qp 1 5, qp 3 3) (d_triangles d).
Proof. computed. split; [reflexivity|]. split; [reflexivity|]. cbn [d_triangles In]. repeat first [left; reflexivity|right]. Qed.

(** ** C159: every Delaunay edge has its Voronoi edge *)
(** There is a list with one entry for every Delaunay edge, in order; the edges reported are these entries, those with no end point twice. *)
Theorem C159_reported_partial {N : NumOps} (pts : list (pt N)) d : voronoi_diagram true pts = Ok d -> exists L : list (vout N),
  map vo_dual L = map Some (d_delaunay d) /\
  Permutation (d_edges d) (flat_map (fun o => repeat o (match vo_p1 o, vo_p2 o with None, None => 2 | _, _ => 1 end)) L).
Proof.
  intros H. destruct (diagram_some _ _ _ H) as [(_ & st & E & ->)|(_ & ->)]; [|exists []; split; constructor]. cbn [d_delaunay d_edges].
  destruct (compute_rep _ _ _ E) as (P & V). exists (map (report true (v_verts st)) (v_edges st)). split; [rewrite !map_map; reflexivity|].
  rewrite P. apply Permutation_refl'. rewrite Forall_forall in V.
  clear - V. induction (v_edges st) as [|e l IH]; [reflexivity|]. cbn [map flat_map]. rewrite IH by (intros; apply V; now right). f_equal. f_equal.
  specialize (V e (or_introl eq_refl)). unfold mult, report. cbn [vo_p1 vo_p2]. unfold corner.
  assert (K : forall r v, ep r e = Some v -> exists p, nth_error (v_verts st) v = Some p).
  { intros r v Hv. apply V in Hv. destruct (nth_error (v_verts st) v) eqn:Q; [eauto|]. apply nth_error_None in Q. lia. }
  pose proof (K false) as K1. pose proof (K true) as K2. cbn [ep] in K1, K2.
  destruct (ep1 e) as [u|]; [destruct (K1 u eq_refl) as (? & ->); destruct (ep2 e); reflexivity|].
  destruct (ep2 e) as [u|]; [destruct (K2 u eq_refl) as (? & ->)|]; reflexivity.
Qed.
Corollary C159_every_partial {N : NumOps} (pts : list (pt N)) d p q : voronoi_diagram true pts = Ok d -> In (p, q) (d_delaunay d) ->
  exists o, In o (d_edges d) /\ vo_dual o = Some (p, q).
Proof.
  intros H K. destruct (C159_reported_partial _ _ H) as (L & A & B). apply (in_map Some) in K. rewrite <- A in K. apply in_map_iff in K. destruct K as (o & Q & K).
  exists o. split; [|exact Q]. eapply Permutation_in; [symmetry; exact B|]. apply in_flat_map. exists o. split; [exact K|]. destruct (vo_p1 o), (vo_p2 o); cbn; auto.
Qed.
(** five points on a level line: each of the four edges is reported twice *)
Definition fp (x y : Z) : pt F64Ops := P (lit x 0 : F64Ops) (lit y 0 : F64Ops).
Theorem C159_once_refuted : exists (pts : list (pt F64Ops)) d, voronoi_diagram true pts = Ok d /\ length (d_delaunay d) = 4%nat /\ length (d_edges d) = 8%nat.
Proof.
  exists [fp 0 0; fp 10 0; fp 3 0; fp 12 0; fp 6 0].
  assert (K : match voronoi_diagram (N:=F64Ops) true [fp 0 0; fp 10 0; fp 3 0; fp 12 0; fp 6 0] with Ok d => Nat.eqb (length (d_delaunay d)) 4 && Nat.eqb (length (d_edges d)) 8 | _ => false end = true) by (vm_compute; reflexivity).
  destruct (voronoi_diagram _ _) as [d|]; [|discriminate]. exists d. apply andb_true_iff in K. destruct K as (A & B). apply Nat.eqb_eq in A, B. auto.
Qed.

(** ** C160: the computation ends *)
(** The loop of the model carries a bound of three rounds a point (and three), which is never reached: so the loop of the code, which has none, ends. *)
Theorem C160_ends {N : NumOps} delaunay (pts : list (pt N)) : voronoi_diagram delaunay pts <> Raise OutOfFuel.
Proof.
  unfold voronoi_diagram. destruct (Nat.ltb _ _); [|discriminate]. pose proof (compute_ends delaunay pts) as C.
  destruct (compute_voronoi delaunay pts) as [st|e]; cbn; [discriminate|]. intros [= ->]. now apply C.
Qed.
(** four points or fewer: an empty diagram *)
Theorem C160_few_refuted {N : NumOps} delaunay (pts : list (pt N)) : (length pts <= 4)%nat -> voronoi_diagram delaunay pts = Ok (Diagram [] [] [] []).
Proof. intros L. unfold voronoi_diagram. destruct (Nat.ltb_spec 4 (length pts)); [lia|reflexivity]. Qed.
(** five points or more with the same x: ZeroDivisionError *)
Lemma extent_const (N : NumOps) val (X : exact N val) f (x : R) : (forall a b : N, f a b = a \/ f a b = b) -> forall (pts : list (pt N)) m,
  (forall p, In p pts -> val (px p) = x) -> val m = x -> val (fold_left (fun m q => f (px q) m) pts m) = x.
Proof.
  intros F. induction pts as [|p r IH]; cbn; intros m H M; [exact M|]. apply IH; [auto|]. destruct (F (px p) m) as [->| ->]; auto.
Qed.
Theorem C160_vertical_exact_refuted (N : NumOps) val (X : exact N val) delaunay (pts : list (pt N)) x : (4 < length pts)%nat -> (forall p, In p pts -> val (px p) = x) ->
  voronoi_diagram delaunay pts = Raise ZeroDivisionError.
Proof.
  intros L H. unfold voronoi_diagram. destruct (Nat.ltb_spec 4 (length pts)); [|lia]. unfold compute_voronoi.
  destruct pts as [|p pts']; [cbn in L; lia|]. set (pts := p :: pts') in *.
  assert (PM : length (site_list pts) = length pts).
  { rewrite (Permutation_length (site_list_perm pts)), <- (map_length site_pt), number_pts. reflexivity. }
  destruct (site_list pts) as [|bottom [|s sites]] eqn:SL; [cbn [length] in PM; lia|cbn [length] in PM; lia|].
  assert (Z : forall k, Num.eqb (Num.mul (Num.sub (extent pymax px p pts) (extent pymin px p pts)) k) (Num.of_Z 0) = true).
  { intros k. apply (x_eqb _ _ X). rewrite (x_mul _ _ X), (x_sub _ _ X), (x_int _ _ X).
    assert (A : val (extent pymax px p pts) = x).
    { apply (extent_const N val X); [intros; unfold pymax; destruct (Num.ltb _ _); auto|exact H|apply H; now left]. }
    assert (B : val (extent pymin px p pts) = x).
    { apply (extent_const N val X); [intros; unfold pymin; destruct (Num.ltb _ _); auto|exact H|apply H; now left]. }
    rewrite A, B. ring. }
  replace (3 * length pts + 3)%nat with (S (3 * length pts + 2)) by lia. cbn [sweep start v_count]. change ((0 =? 0)%Z) with true. cbn iota. cbn [rbind orb].
  unfold handle_site at 1, pop_leftbnd at 1. cbn [c_hashscale]. unfold pydiv at 1. rewrite Z. reflexivity.
Qed.
Theorem C160_vertical_refuted delaunay (pts : list Pt) x : (4 < length pts)%nat -> (forall p, In p pts -> px p = x) ->
  voronoi_diagram (N:=ROps) delaunay pts = Raise ZeroDivisionError.
Proof. intros L H. exact (C160_vertical_exact_refuted ROps (fun x => x) exact_R delaunay pts x L H). Qed.
Example C160_vertical_example : voronoi_diagram (N:=ROps) true [P 3 0; P 3 1; P 3 5; P 3 7; P 3 9] = Raise ZeroDivisionError.
Proof. apply (C160_vertical_refuted true _ 3); [cbn; lia|]. cbn [In]. intros p [<-|[<-|[<-|[<-|[<-|[]]]]]]; reflexivity. Qed.

(** ** C161: jiggling *)
(** [random.uniform] gives numbers between its arguments ([r1], [r2] between 0 and 1), the sign is 1 or -1 *)
Theorem C161_small (sign r1 r2 : R) (p : Pt) : sign = 1 \/ sign = -1 -> 0 <= r1 <= 1 -> 0 <= r2 <= 1 ->
  Rabs (px p) / 100000000 <= Rabs (px (jiggle (N:=ROps) sign r1 r2 p) - px p) <= Rabs (px p) / 10000000 /\
  Rabs (py p) / 100000000 <= Rabs (py (jiggle (N:=ROps) sign r1 r2 p) - py p) <= Rabs (py p) / 10000000.
Proof.
  intros S R1 R2.
  assert (K : forall x r : R, 0 <= r <= 1 -> Rabs x / 100000000 <= Rabs ((x + (Rlit 1 (-9) * Rabs x * 10 + (Rlit 1 (-9) * Rabs x * 100 - Rlit 1 (-9) * Rabs x * 10) * r) * sign) - x) <= Rabs x / 10000000).
  { intros x r Hr. pose proof (Rabs_pos x) as Px. set (u := Rabs x) in *. clearbody u. replace (Rlit 1 (-9)) with (/ 1000000000) by (unfold Rlit; cbn; lra).
    match goal with |- _ <= Rabs (?t) <= _ => assert (Q : Rabs t = / 1000000000 * u * 10 + (/ 1000000000 * u * 100 - / 1000000000 * u * 10) * r) end.
    { destruct S as [->| ->].
      - rewrite Rabs_pos_eq; [ring|]. assert (0 <= u * r) by (apply Rmult_le_pos; lra). lra.
      - rewrite Rabs_left1; [ring|]. assert (0 <= u * r) by (apply Rmult_le_pos; lra). lra. }
    rewrite Q. assert (0 <= u * r) by (apply Rmult_le_pos; lra). assert (u * r <= u) by (rewrite <- (Rmult_1_r u) at 2; apply Rmult_le_compat_l; lra). split; lra. }
  split; [exact (K (px p) r1 R1)|exact (K (py p) r2 R2)].
Qed.
(** a zero coordinate stays zero: points on the y axis stay on one line, and still cannot be handled *)
Theorem C161_axis_refuted delaunay (pts : list Pt) (js : list (R * R * R)) : (4 < length pts)%nat -> length js = length pts -> (forall p, In p pts -> px p = 0) ->
  voronoi_diagram (N:=ROps) delaunay (map (fun '(s, r1, r2, p) => jiggle s r1 r2 p) (combine js pts)) = Raise ZeroDivisionError.
Proof.
  intros L Lj H. apply (C160_vertical_refuted delaunay _ 0).
  - rewrite map_length, combine_length. lia.
  - intros q Hq. apply in_map_iff in Hq. destruct Hq as ([[[s r1] r2] p] & <- & K). apply in_combine_r in K. apply H in K.
    unfold jiggle, uniform. cbn [px]. rewrite K. toR. rewrite Rabs_R0. ring.
Qed.
Example C161_example : Rabs (px (jiggle (N:=ROps) (-1) (1/2) 1 (P 20 3)) - 20) <= 20 / 10000000.
Proof.
  destruct (C161_small (-1) (1/2) 1 (P 20 3)) as [A _]; [now right|lra|lra|]. cbn [px] in A. rewrite (Rabs_pos_eq 20) in A by lra. apply A.
Qed.

(** ** C162: the corners of a triangle *)
Theorem C162_first_partial {N : NumOps} (a b c : pt N) : tri_p1 (a, b, c) = a /\ tri_p2 (a, b, c) = b.
Proof. split; reflexivity. Qed.
(** p3 returns the second corner: of no triangle with three different corners does it return the third *)
Theorem C162_third_refuted {N : NumOps} (a b c : pt N) : b <> c -> tri_p3 (a, b, c) <> c.
Proof. intros H. exact H. Qed.

(** ** C157: where a new site is put. The half edge that the search of the table and of the list returns is directly to the left of the
    site: it is the left end or lies to the left of the site, and its right neighbour is the right end or lies to the right of the site. *)
Section Bracket.
  Context {N : NumOps}.
  Notation vsite := (vsite N). Notation vstate := (vstate N). Notation vconf := (vconf N).
  Lemma left_same (st st' : vstate) i s : v_hes st' = v_hes st -> v_edges st' = v_edges st -> is_left_of_site st' i s = is_left_of_site st i s.
  Proof. intros A B. unfold is_left_of_site, the_he, edge_of. rewrite A, B. reflexivity. Qed.
  Definition same3 (st st' : vstate) : Prop := v_hes st' = v_hes st /\ v_edges st' = v_edges st /\ v_chain st' = v_chain st.
  Lemma bucket_entry_same3 (st st' : vstate) b r : bucket_entry st b = Ok (st', r) -> same3 st st'.
  Proof.
    unfold bucket_entry. intros H. apply bind_ok in H. destruct H as (o & _ & H). destruct o as [i|]; [|injection H as <- _; repeat split].
    apply bind_ok in H. destruct H as (h & _ & H). destruct (he_edge h); injection H as <- _; repeat split.
  Qed.
  Lemma probe_same3 c : forall fuel (st st' : vstate) b i r, probe fuel c st b i = Ok (st', r) -> same3 st st'.
  Proof.
    induction fuel as [|fuel IH]; intros st st' b i r H; cbn [probe] in H; [injection H as <- _; repeat split|].
    apply bind_ok in H. destruct H as ([s1 r1] & E1 & H). apply bind_ok in H. destruct H as ([s2 r2] & E2 & H).
    apply bucket_entry_same3 in E1. destruct E1 as (A1 & A2 & A3).
    assert (K : same3 s1 s2). { destruct r1 as [x|]; [injection E2 as <- _; repeat split|apply bucket_entry_same3 in E2; exact E2]. }
    destruct K as (B1 & B2 & B3).
    assert (M : same3 st s2) by (repeat split; congruence).
    destruct r2 as [x|]; [injection H as <- _; exact M|]. destruct (_ || _); [injection H as <- _; exact M|].
    apply IH in H. destruct H as (C1 & C2 & C3). destruct M as (M1 & M2 & M3). repeat split; congruence.
  Qed.
  Definition bracket (st : vstate) (s : vsite) (chain : list nat) (h : nat) : Prop :=
    exists l k r, chain = l ++ h :: k :: r /\ (h = LEFTEND \/ is_left_of_site st h s = Ok true) /\ (k = RIGHTEND \/ is_left_of_site st k s = Ok false).
  Lemma scan_right_spec (st : vstate) s : forall l2 l1 prev h, prev = LEFTEND \/ is_left_of_site st prev s = Ok true ->
    scan_right st s prev l2 = Ok h -> bracket st s (l1 ++ prev :: l2) h.
  Proof.
    induction l2 as [|x l2 IH]; intros l1 prev h P H; cbn [scan_right] in H; [discriminate|].
    destruct (Nat.eqb_spec x RIGHTEND) as [->|_].
    - injection H as <-. exists l1, RIGHTEND, l2. auto.
    - apply bind_ok in H. destruct H as (b & E & H). destruct b.
      + specialize (IH (l1 ++ [prev]) x h (or_intror E) H). rewrite <- app_assoc in IH. exact IH.
      + injection H as <-. exists l1, x, l2. auto.
  Qed.
  Lemma scan_left_spec (st : vstate) s : forall lr k r h, k = RIGHTEND \/ is_left_of_site st k s = Ok false ->
    scan_left st s lr = Ok h -> bracket st s (rev lr ++ k :: r) h.
  Proof.
    induction lr as [|x lr IH]; intros k r h P H; cbn [scan_left] in H; [discriminate|].
    cbn [rev]. rewrite <- app_assoc. cbn [app]. destruct (Nat.eqb_spec x LEFTEND) as [->|_].
    - injection H as <-. exists (rev lr), k, r. auto.
    - apply bind_ok in H. destruct H as (b & E & H). destruct b.
      + injection H as <-. exists (rev lr), k, r. auto.
      + exact (IH x (k :: r) h (or_intror E) H).
  Qed.
  Theorem C157_bracket (c : vconf) (st st' : vstate) (s : vsite) (h : nat) : pop_leftbnd c st s = Ok (st', h) -> exists l k r,
    v_chain st = l ++ h :: k :: r /\ (h = LEFTEND \/ is_left_of_site st h s = Ok true) /\ (k = RIGHTEND \/ is_left_of_site st k s = Ok false).
  Proof.
    unfold pop_leftbnd. intros H. apply bind_ok in H. destruct H as (q & _ & H).
    apply bind_ok in H. destruct H as ([s1 r1] & E1 & H). apply bind_ok in H. destruct H as ([s2 r2] & E2 & H).
    apply bucket_entry_same3 in E1. destruct E1 as (A1 & A2 & A3).
    assert (K : same3 s1 s2). { destruct r1 as [x|]; [injection E2 as <- _; repeat split|apply probe_same3 in E2; exact E2]. }
    destruct K as (B1 & B2 & B3).
    apply bind_ok in H. destruct H as (h' & E3 & H). injection H as _ ->. destruct r2 as [i|]; [|discriminate].
    apply bind_ok in E3. destruct E3 as (g & E3 & E4).
    assert (B : bracket s2 s (v_chain s2) h).
    { destruct g.
      - destruct (after i (v_chain s2)) as [|x r] eqn:Ea; [discriminate|]. destruct (after_spec _ _ _ _ Ea) as (l1 & Q & _). rewrite Q, <- Ea in *.
        rewrite Ea in *. apply scan_right_spec; [|exact E4]. destruct (Nat.eqb_spec i LEFTEND) as [->|_]; [now left|]. right.
        destruct (Nat.eqb_spec i RIGHTEND); [discriminate|exact E3].
      - destruct (before i (v_chain s2) []) as [|x r] eqn:Eb; [discriminate|]. destruct (before_spec _ _ _ _ _ Eb) as (l1 & l2 & Q & _ & W).
        rewrite app_nil_r in W. rewrite Q, <- (rev_involutive l1), W. apply scan_left_spec; [|exact E4].
        destruct (Nat.eqb_spec i LEFTEND) as [->|_]; [discriminate|]. destruct (Nat.eqb_spec i RIGHTEND) as [->|_]; [now left|now right]. }
    destruct B as (l & k & r & Q & P1 & P2). rewrite B3, A3 in Q. exists l, k, r. split; [exact Q|].
    rewrite !(left_same st s2) in *; try congruence. auto.
  Qed.
End Bracket.
