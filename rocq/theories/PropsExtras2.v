(** * PropsExtras2: the smaller extensions, second part: the rays between two polylines (C153), counting colours
    (C154), tool paths (C155). *)
From Verif Require Import Num NumR Str Geom GeomR GeomSpec GeomProofs GeomProofs2 GeomProofs4 GeomProofs5 Polygon PolySpec Bezier Ellipse
  Svg SvgDoc GeomSvg Css Extras PropsGeom PropsGeom2 PropsExtras.
From Verif Require Preprocess PropsGeomSvg2.
From Coq Require Import String Ascii ZArith Reals Lra Lia Bool List Permutation Sorted.
Import ListNotations.
Local Open Scope R_scope.

(** ** C153: the rays *)
(** Stable sorting *)
Section Sorting.
  Context {A : Type}.
  Variable key : A -> R.
  Lemma insert_perm x l : Permutation (insert_key (N:=ROps) key x l) (x :: l).
  Proof.
    induction l as [|y l IH]; [reflexivity|]. cbn [insert_key]. destruct (Num.ltb _ _); [|reflexivity].
    etransitivity; [apply perm_skip, IH|]. apply perm_swap.
  Qed.
  Lemma sort_perm l : Permutation (sort_key (N:=ROps) key l) l.
  Proof. induction l as [|x l IH]; [reflexivity|]. unfold sort_key in *. cbn [fold_right]. rewrite insert_perm. now apply perm_skip. Qed.
  Lemma insert_sorted x l : StronglySorted (fun a b => key a <= key b) l -> StronglySorted (fun a b => key a <= key b) (insert_key (N:=ROps) key x l).
  Proof.
    induction 1 as [|y l S IH F]; cbn [insert_key]; [repeat constructor|].
    change (@Num.ltb ROps (key y) (key x)) with (Rltb (key y) (key x)). destruct (Rltb (key y) (key x)) eqn:Q; [apply Rltb_true in Q|apply Rltb_false in Q].
    - constructor; [exact IH|]. apply Forall_forall. intros z Hz. apply (Permutation_in z (insert_perm x l)) in Hz. destruct Hz as [<- |Hz]; [lra|]. rewrite Forall_forall in F. now apply F.
    - constructor; [constructor; auto|]. constructor; [exact Q|]. eapply Forall_impl; [|exact F]. cbn. intros; lra.
  Qed.
  Lemma sort_sorted l : StronglySorted (fun a b => key a <= key b) (sort_key (N:=ROps) key l).
  Proof. induction l as [|x l IH]; [constructor|]. apply insert_sorted, IH. Qed.
End Sorting.

Lemma ss_impl {A} (P Q : A -> A -> Prop) l : (forall a b, P a b -> Q a b) -> StronglySorted P l -> StronglySorted Q l.
Proof. intros H. induction 1; constructor; auto. eapply Forall_impl; [|eassumption]. auto. Qed.
(** A ray meets a segment in [q]: both are allowed to be longer by the fraction EPS at each end, and they are not parallel *)
Definition meets (eps : R) (ray s : Line_) (q : Pt) : Prop :=
  eps <= Rabs (dir_cross ray s) /\
  exists u v, q = at_param ray u /\ q = at_param s v /\ - eps <= u <= 1 + eps /\ - eps <= v <= 1 + eps.
(** [p] is on the segment [s], up to [eps] *)
Definition near (eps : R) (s : Line_) (p : Pt) : Prop :=
  Rabs (side s p) < eps /\
  Rmin (px (p1 s)) (px (p2 s)) - eps <= px p <= Rmax (px (p1 s)) (px (p2 s)) + eps /\
  Rmin (py (p1 s)) (py (p2 s)) - eps <= py p <= Rmax (py (p1 s)) (py (p2 s)) + eps.
(** The way along a polyline from its start to the point [p]: up to the first segment [p] is on; the whole
    length if there is none *)
Inductive travelled (eps : R) (p : Pt) : list Line_ -> R -> Prop :=
| Here s r : near eps s p -> travelled eps p (s :: r) (euclid (p1 s) p)
| Further s r d : ~ near eps s p -> travelled eps p r d -> travelled eps p (s :: r) (seg_len s + d)
| Nowhere : travelled eps p [] 0.
(** [p] is a vertex of the path, or a point of one of its segments which may be longer by the fraction [eps] *)
Definition on_path (eps : R) (path : list Line_) (p : Pt) : Prop :=
  exists s, In s path /\ (p = p1 s \/ p = p2 s \/ exists v, p = at_param s v /\ - eps <= v <= 1 + eps).

Section C153.
  Context {E : Epsilon ROps}.
  Hypothesis He : 0 < EPS.
  Lemma meets_iff (ray s : Line_) q : intersection ray s true false false = Some q <-> meets EPS ray s q.
  Proof.
    split.
    - intros H. destruct (C35_intersection_on_both He ray s true false false q H) as (u & v & A & B & C & D).
      split; [|exists u, v; auto 10]. unfold intersection in H. destruct (intersection_mu ray s true false false) as [mu|] eqn:M; [|discriminate].
      now apply intersection_mu_spec in M.
    - intros (D & u & v & A & B & C1 & C2). subst q. apply C35_intersection_complete with (v := v); auto.
  Qed.
  Lemma ray_lines_spec (ray : Line_) path x : In x (ray_lines ray path) <-> exists s q, In s path /\ meets EPS ray s q /\ x = Ln (p1 ray) q.
  Proof.
    unfold ray_lines. rewrite in_flat_map. split.
    - intros (s & I & H). destruct (intersection ray s true false false) as [q|] eqn:Q; [|destruct H]. destruct H as [<- |[]]. exists s, q. rewrite <- meets_iff. auto.
    - intros (s & q & I & M & ->). exists s. split; [exact I|]. apply meets_iff in M. rewrite M. now left.
  Qed.
  Lemma first_longer_in (l : list Line_) : forall d, l <> [] -> In (first_longer d l) l.
  Proof.
    induction l as [|x l IH]; intros d H; [contradiction|]. cbn [first_longer]. destruct (Num.ltb _ _); [now left|].
    destruct l as [|y l]; [now left|]. right. apply IH. discriminate.
  Qed.
  Lemma milli : (@lit ROps 1 (-3) : R) = 1/1000.
  Proof. rnum. unfold Rlit. cbn. lra. Qed.
  Lemma first_longer_spec (l : list Line_) : StronglySorted (fun a b => llen a <= llen b) l -> forall d x, In x l -> 1/1000 < seg_len x ->
    1/1000 < seg_len (first_longer d l) /\ seg_len (first_longer d l) <= seg_len x.
  Proof.
    induction 1 as [|y l S IH F]; intros d x I L; [destruct I|]. cbn [first_longer].
    change (@Num.ltb ROps (lit 1 (-3)) (llen y)) with (Rltb (lit 1 (-3)) (llen y)). rewrite milli, llen_seg.
    destruct (Rltb (1/1000) (seg_len y)) eqn:Q; [apply Rltb_true in Q|apply Rltb_false in Q].
    - split; [exact Q|]. destruct I as [<- |I]; [lra|]. rewrite Forall_forall in F. specialize (F x I). rewrite !llen_seg in F. exact F.
    - destruct I as [<- |I]; [lra|]. now apply IH.
  Qed.
  (** The line drawn from the start of a ray ends where the ray meets the other path: in the nearest such point
      that is more than 0.001 away, if there is one. *)
  Theorem C153_nearest (ray : Line_) (path : list Line_) :
    match linex_segment ray path with
    | None => forall s q, In s path -> ~ meets EPS ray s q
    | Some x => p1 x = p1 ray /\ (exists s, In s path /\ meets EPS ray s (p2 x)) /\
        forall s q, In s path -> meets EPS ray s q -> 1/1000 < euclid (p1 ray) q ->
          1/1000 < euclid (p1 ray) (p2 x) <= euclid (p1 ray) q
    end.
  Proof.
    unfold linex_segment. pose proof (sort_perm llen (ray_lines ray path)) as P. pose proof (sort_sorted llen (ray_lines ray path)) as S.
    destruct (sort_key llen (ray_lines ray path)) as [|x r].
    - intros s q I M. apply Permutation_nil in P. assert (K : In (Ln (p1 ray) q) (ray_lines ray path)) by (apply ray_lines_spec; eauto 6). rewrite P in K. destruct K.
    - set (y := first_longer x (x :: r)). assert (Y : In y (x :: r)) by (apply first_longer_in; discriminate).
      assert (Y' := Y). apply (Permutation_in y P) in Y'. apply ray_lines_spec in Y' as (s & q & I & M & Q). rewrite Q. cbn [p1 p2].
      split; [reflexivity|]. split; [eauto|]. intros s' q' I' M' L.
      assert (K : In (Ln (p1 ray) q') (x :: r)) by (apply (Permutation_in _ (Permutation_sym P)), ray_lines_spec; eauto 6).
      destruct (first_longer_spec (x :: r) S x (Ln (p1 ray) q') K L) as (A & B). fold y in A, B. rewrite Q in A, B. unfold seg_len in A, B. cbn [p1 p2] in A, B. lra.
  Qed.

  Lemma near_iff (s : Line_) (p : Pt) : point_on_line s p true = true <-> near EPS s p.
  Proof. unfold near. rewrite (proj2 (C106_point_on_line s p)). tauto. Qed.
  Lemma pline_spec (p : Pt) path : forall d, exists e, travelled EPS p path e /\ pline_distance d p path = d + e.
  Proof.
    induction path as [|s r IH]; intros d; cbn [pline_distance].
    - exists 0. split; [constructor|]. toR. ring.
    - destruct (point_on_line s p true) eqn:Q.
      + apply near_iff in Q. exists (euclid (p1 s) p). split; [now constructor|]. reflexivity.
      + assert (Q' : ~ near EPS s p) by (rewrite <- near_iff; congruence). destruct (IH (add d (llen s))) as (e & A & B).
        exists (seg_len s + e). split; [now constructor|]. rewrite B. rewrite llen_seg. toR. ring.
  Qed.
  Lemma travelled_fun p path d e : travelled EPS p path d -> travelled EPS p path e -> d = e.
  Proof.
    intros H. revert e. induction H as [s r H|s r d H T IH|]; intros e K; inversion K; subst; auto; try contradiction. f_equal. now apply IH.
  Qed.
  Lemma sorted_travelled path l : StronglySorted (fun a b : Pt => forall d e, travelled EPS a path d -> travelled EPS b path e -> d <= e)
    (sort_key (N:=ROps) (fun p => pline_distance (of_Z 0) p path) l).
  Proof.
    eapply ss_impl; [|apply sort_sorted]. cbn. intros a b H d e A B. destruct (pline_spec a path 0) as (d' & A' & Qa). destruct (pline_spec b path 0) as (e' & B' & Qb).
    rewrite (travelled_fun _ _ _ _ A A'), (travelled_fun _ _ _ _ B B'). toR. rewrite Qa, Qb in H. lra.
  Qed.
  (** The rays of the corners: they start in a corner and end on the other path. *)
  Lemma corner_ok (p0 p q : Pt) side diagonal : exists b, corner_ray p0 p q side diagonal = Ok b /\ p1 b = p.
  Proof.
    unfold corner_ray. cbv zeta. set (b := Ln p (pbisector p p0 q) : Line_).
    assert (L : forall x : Line_, x = b \/ x = flipped b -> llen x = 1 :> R /\ p1 x = p).
    { assert (B : llen b = 1 :> R).
      { unfold b, llen, plen, vec, psub, pbisector, from_polar, Geom.padd. cbn [p1 p2 px py]. cbv zeta. rnum. set (t := (pangle _ + pangle _) / 2).
        unfold Rhypot. replace ((px p + 1 * cos t - px p) * (px p + 1 * cos t - px p) + (py p + 1 * sin t - py p) * (py p + 1 * sin t - py p)) with (Rsqr (sin t) + Rsqr (cos t)) by (unfold Rsqr; ring).
        rewrite sin2_cos2. apply sqrt_1. }
      intros x [-> | ->]; (split; [|reflexivity]); [exact B|].
      rewrite <- B. unfold llen, plen, vec, psub, flipped, Geom.padd, Geom.pneg, vec, psub. cbn [p1 p2 px py]. rnum. unfold Rhypot. match goal with |- R_sqrt.sqrt ?u = R_sqrt.sqrt ?v => replace u with v; [reflexivity|] end. toR. ring. }
    set (x := if (_ =? _)%Z then b else flipped b). destruct (L x) as (L1 & L2); [unfold x; destruct (_ =? _)%Z; auto|].
    unfold extend. cbv zeta. unfold pydiv. rewrite L1. rnum. rewrite (proj2 (Reqb_false 1 0)) by lra. cbn [rmap]. eexists. split; [reflexivity|]. exact L2.
  Qed.
  Lemma linex_on (ray : Line_) path x : linex_segment ray path = Some x -> p1 x = p1 ray /\ on_path EPS path (p2 x).
  Proof.
    intros H. pose proof (C153_nearest ray path) as K. rewrite H in K. destruct K as (A & (s & I & _ & u & v & _ & B & _ & C) & _). split; [exact A|].
    exists s. split; [exact I|]. right; right. eauto.
  Qed.
  Lemma rays_first_ok other side diagonal path : forall p0, exists rs, rays_first p0 path side diagonal other = Ok rs /\
    forall x, In x rs -> (exists s, In s path /\ p1 x = p1 s) /\ on_path EPS other (p2 x).
  Proof.
    induction path as [|l r IH]; intros p0; cbn [rays_first]; [exists []; split; [reflexivity|intros _ []]|].
    destruct (IH (p1 l)) as (rs & R1 & R2).
    assert (K : exists a, (if Num.ltb EPS (abs (angle2 (p1 l) p0 (p2 l))) then rbind (corner_ray p0 (p1 l) (p2 l) side diagonal) (fun b => Ok (match linex_segment b other with Some x => [x] | None => [] end)) else Ok []) = Ok a /\
      forall x, In x a -> p1 x = p1 l /\ on_path EPS other (p2 x)).
    { destruct (Num.ltb _ _); [|exists []; split; [reflexivity|intros _ []]]. destruct (corner_ok p0 (p1 l) (p2 l) side diagonal) as (b & B1 & B2). rewrite B1. cbn [rbind].
      destruct (linex_segment b other) as [x|] eqn:X; [|exists []; split; [reflexivity|intros _ []]]. exists [x]. split; [reflexivity|]. intros y [<- |[]].
      apply linex_on in X as (X1 & X2). rewrite X1, B2. auto. }
    destruct K as (a & K1 & K2). rewrite K1. cbn [rbind]. rewrite R1. cbn [rbind]. exists (a ++ rs)%list. split; [reflexivity|]. intros x I. apply in_app_iff in I as [I|I].
    - destruct (K2 x I) as (A & B). split; [exists l; split; [now left|exact A]|exact B].
    - destruct (R2 x I) as ((s & A1 & A2) & B). split; [exists s; split; [now right|exact A2]|exact B].
  Qed.
  Lemma rays_second_ok other side diagonal path : forall p0, exists rs, rays_second p0 path side diagonal other = Ok rs /\
    forall x, In x rs -> (exists s, In s path /\ p2 x = p1 s) /\ on_path EPS other (p1 x).
  Proof.
    induction path as [|l r IH]; intros p0; cbn [rays_second]; [exists []; split; [reflexivity|intros _ []]|].
    destruct (IH (p1 l)) as (rs & R1 & R2). destruct (corner_ok p0 (p1 l) (p2 l) side diagonal) as (b & B1 & B2). rewrite B1. cbn [rbind]. rewrite R1. cbn [rbind].
    destruct (linex_segment b other) as [x|] eqn:X.
    - exists (lreversed x :: rs). split; [reflexivity|]. apply linex_on in X as (X1 & X2). intros y [<- |I].
      + cbn [lreversed p1 p2]. rewrite X1, B2. split; [exists l; split; [now left|reflexivity]|exact X2].
      + destruct (R2 y I) as ((s & A1 & A2) & B). split; [exists s; split; [now right|exact A2]|exact B].
    - exists rs. split; [reflexivity|]. intros y I. destruct (R2 y I) as ((s & A1 & A2) & B). split; [exists s; split; [now right|exact A2]|exact B].
  Qed.
  (** The second path as it is used: reversed if its end is nearer to the start of the first path than its start is *)
  Definition facing (path1 path2 used : list Line_) : Prop :=
    exists a b c ra rb rc, path1 = a :: ra /\ path2 = b :: rb /\ path2 = (rc ++ [c])%list /\
      (euclid (p1 a) (p1 b) <= euclid (p1 a) (p2 c) /\ used = path2 \/
       euclid (p1 a) (p2 c) < euclid (p1 a) (p1 b) /\ used = map (fun s => Ln (p2 s) (p1 s)) (rev path2)).
  Lemma facing_ok (a : Line_) ra b rb : exists used, facing (a :: ra) (b :: rb) used /\ used <> [] /\
    used = (if Num.ltb (pdist (p1 a) (p2 (last (b :: rb) b))) (pdist (p1 a) (p1 b)) then reverse_lines (b :: rb) else b :: rb).
  Proof.
    assert (L : exists rc, b :: rb = (rc ++ [last (b :: rb) b])%list) by (exists (removelast (b :: rb)); now apply app_removelast_last).
    destruct L as (rc & L). eexists. split; [|split; [|reflexivity]].
    - exists a, b, (last (b :: rb) b), ra, rb, rc. split; [reflexivity|]. split; [reflexivity|]. split; [exact L|].
      match goal with |- context[@Num.ltb ROps (pdist ?x ?y) (pdist ?z ?w)] => change (@Num.ltb ROps (pdist x y) (pdist z w)) with (Rltb (euclid x y) (euclid z w)) end. destruct (Rltb _ _) eqn:Q; [apply Rltb_true in Q; right|apply Rltb_false in Q; left]; (split; [exact Q|]); reflexivity.
    - destruct (Num.ltb _ _); [|discriminate]. unfold reverse_lines. cbn [rev]. rewrite map_app. intros Q. apply app_eq_nil in Q as [_ Q]. discriminate.
  Qed.
  Lemma last_in {A} (l : list A) d : l <> [] -> In (last l d) l.
  Proof. intros H. rewrite (app_removelast_last d H) at 2. apply in_or_app. right. now left. Qed.
  Lemma combine_fst {A B} (l : list A) (m : list B) : List.length l = List.length m -> map fst (combine l m) = l /\ map snd (combine l m) = m.
  Proof.
    revert m. induction l as [|x l IH]; intros [|y m] H; try discriminate; [split; reflexivity|]. cbn in H |- *. destruct (IH m) as (A0 & B0); [congruence|]. split; congruence.
  Qed.
  (** The rays go from points of the first path to points of the second one, both in the order in which they come on
      their paths; the program never fails on two paths of lines. *)
  Theorem C153_rays (path1 path2 : list Line_) : path1 <> [] -> path2 <> [] ->
    exists used segs, facing path1 path2 used /\ get_segments path1 path2 = Ok segs /\ (2 <= List.length segs)%nat /\
      (forall s, In s segs -> on_path EPS path1 (p1 s) /\ on_path EPS used (p2 s)) /\
      (exists s, In s segs /\ p1 s = p1 (hd s path1)) /\ (exists s, In s segs /\ p1 s = p2 (last path1 s)) /\
      (exists s, In s segs /\ p2 s = p1 (hd s used)) /\ (exists s, In s segs /\ p2 s = p2 (last used s)) /\
      StronglySorted (fun s t => (forall d e, travelled EPS (p1 s) path1 d -> travelled EPS (p1 t) path1 e -> d <= e) /\
                                 (forall d e, travelled EPS (p2 s) used d -> travelled EPS (p2 t) used e -> d <= e)) segs.
  Proof.
    intros H1 H2. destruct path1 as [|a ra]; [contradiction|]. destruct path2 as [|b rb]; [contradiction|]. clear H1 H2.
    destruct (facing_ok a ra b rb) as (used & F & U & UQ). exists used. unfold get_segments. cbv zeta.
    rewrite <- UQ. clear UQ. destruct used as [|c rc]; [contradiction|]. cbn [hd tl].
    match goal with |- context[rays_first _ _ ?sd ?dg _] => set (side := sd); set (diag := dg) end.
    destruct (rays_first_ok (c :: rc) side diag ra (p1 a)) as (r1 & R1 & I1). rewrite R1. cbn [rbind].
    destruct (rays_second_ok (a :: ra) (- side)%Z diag rc (p1 c)) as (r2 & R2 & I2). rewrite R2. cbn [rbind].
    set (rays := ([Ln (p1 a) (p1 c)] ++ r1 ++ r2 ++ [Ln (p2 (last (a :: ra) a)) (p2 (last (c :: rc) c))])%list : list Line_).
    set (q1 := sort_key _ (map p1 rays)). set (q2 := sort_key _ (map p2 rays)).
    assert (P1 : Permutation q1 (map p1 rays)) by apply sort_perm. assert (P2 : Permutation q2 (map p2 rays)) by apply sort_perm.
    assert (LL : List.length q1 = List.length q2) by (rewrite (Permutation_length P1), (Permutation_length P2), !map_length; reflexivity).
    destruct (combine_fst q1 q2 LL) as (C1 & C2).
    set (segs := map (fun '(a0, b0) => Ln a0 b0) (combine q1 q2) : list Line_). exists segs.
    assert (S1 : map p1 segs = q1) by (unfold segs; rewrite map_map; rewrite <- C1 at 2; apply map_ext; intros [? ?]; reflexivity).
    assert (S2 : map p2 segs = q2) by (unfold segs; rewrite map_map; rewrite <- C2 at 2; apply map_ext; intros [? ?]; reflexivity).
    assert (O : forall x, In x rays -> on_path EPS (a :: ra) (p1 x) /\ on_path EPS (c :: rc) (p2 x)).
    { intros x I. unfold rays in I. cbn [app] in I. destruct I as [<- |I]; [split; [exists a|exists c]; (split; [now left|left; reflexivity])|].
      apply in_app_iff in I as [I|I].
      - destruct (I1 x I) as ((s & A1 & A2) & B). split; [exists s; split; [now right|left; exact A2]|exact B].
      - apply in_app_iff in I as [I|[<- |[]]].
        + destruct (I2 x I) as ((s & A1 & A2) & B). split; [exact B|exists s; split; [now right|left; exact A2]].
        + split; [exists (last (a :: ra) a)|exists (last (c :: rc) c)]; (split; [apply last_in; discriminate|right; left; reflexivity]). }
    assert (B1 : forall p, In p (map p1 rays) -> exists s, In s segs /\ p1 s = p).
    { intros p I. apply (Permutation_in p (Permutation_sym P1)) in I. rewrite <- S1 in I. apply in_map_iff in I as (s & Q & I). eauto. }
    assert (B2 : forall p, In p (map p2 rays) -> exists s, In s segs /\ p2 s = p).
    { intros p I. apply (Permutation_in p (Permutation_sym P2)) in I. rewrite <- S2 in I. apply in_map_iff in I as (s & Q & I). eauto. }
    assert (LD : forall (l : list Line_) d e, l <> [] -> last l d = last l e).
    { intros l d e H. destruct (exists_last H) as (l' & x & ->). now rewrite !last_last. }
    split; [exact F|]. split; [reflexivity|]. split; [|split; [|split; [|split; [|split; [|split]]]]].
    - rewrite <- (map_length p1 segs), S1, (Permutation_length P1), map_length. unfold rays. rewrite !app_length. cbn [List.length]. lia.
    - intros s I. split.
      + assert (J : In (p1 s) q1) by (rewrite <- S1; now apply in_map). apply (Permutation_in _ P1) in J. apply in_map_iff in J as (x & Q & J). rewrite <- Q. now apply O.
      + assert (J : In (p2 s) q2) by (rewrite <- S2; now apply in_map). apply (Permutation_in _ P2) in J. apply in_map_iff in J as (x & Q & J). rewrite <- Q. now apply O.
    - destruct (B1 (p1 a)) as (s & I & Q); [apply (in_map p1 rays (Ln (p1 a) (p1 c))); now left|]. exists s. split; [exact I|exact Q].
    - destruct (B1 (p2 (last (a :: ra) a))) as (s & I & Q).
      { apply (in_map p1 rays (Ln (p2 (last (a :: ra) a)) (p2 (last (c :: rc) c)))). unfold rays. rewrite !in_app_iff. right; right; right. now left. }
      exists s. split; [exact I|]. rewrite (LD _ s a) by discriminate. exact Q.
    - destruct (B2 (p1 c)) as (s & I & Q); [apply (in_map p2 rays (Ln (p1 a) (p1 c))); now left|]. exists s. split; [exact I|exact Q].
    - destruct (B2 (p2 (last (c :: rc) c))) as (s & I & Q).
      { apply (in_map p2 rays (Ln (p2 (last (a :: ra) a)) (p2 (last (c :: rc) c)))). unfold rays. rewrite !in_app_iff. right; right; right. now left. }
      exists s. split; [exact I|]. rewrite (LD _ s c) by discriminate. exact Q.
    - assert (T1 := sorted_travelled (a :: ra) (map p1 rays)). assert (T2 := sorted_travelled (c :: rc) (map p2 rays)). fold q1 in T1. fold q2 in T2.
      rewrite <- S1 in T1. rewrite <- S2 in T2. clear - T1 T2. induction segs as [|s l IH]; [constructor|]. cbn [map] in T1, T2. inversion T1; inversion T2; subst. constructor; [now apply IH|].
      apply Forall_forall. intros t I. split.
      + rewrite Forall_forall in H2. apply H2. now apply in_map.
      + rewrite Forall_forall in H6. apply H6. now apply in_map.
  Qed.
End C153.
Example C153_example : exists used segs, facing [Ln (P 0 0) (P 4 0); Ln (P 4 0) (P 8 1)] [Ln (P 0 2) (P 4 2)] used /\
  @get_segments ROps eps6 [Ln (P 0 0) (P 4 0); Ln (P 4 0) (P 8 1)] [Ln (P 0 2) (P 4 2)] = Ok segs /\ (2 <= List.length segs)%nat.
Proof.
  destruct (@C153_rays eps6 ltac:(unfold EPS, eps6; cbn; lra) [Ln (P 0 0) (P 4 0); Ln (P 4 0) (P 8 1)] [Ln (P 0 2) (P 4 2)]) as (used & segs & A & B & C & _); [discriminate|discriminate|].
  exists used, segs. auto.
Qed.

Lemma str_eqb_eq (a b : pystr) : str_eqb a b = true <-> a = b.
Proof. apply PropsGeomSvg2.str_eqb_iff. Qed.
(** ** C154: counting the shapes of each colour *)
(** How many of the fills are the colour [c] *)
Definition tally (c : pystr) (fills : list (option pystr)) : nat :=
  List.length (filter (fun f => match f with Some d => if list_eq_dec ascii_dec d c then true else false | None => false end) fills).
(** The fill property of a style attribute *)
Definition has_fill (style : option pystr) (f : option pystr) : Prop :=
  match style with
  | None => f = None
  | Some s => exists d, inline_style_to_dict (Some s) = Ok d /\ f = dict_get (L "fill") d
  end.
Definition entry (c : pystr) (d : list (pystr * Z)) : Z :=
  match find (fun kv => str_eqb (fst kv) c) d with Some kv => snd kv | None => 0%Z end.
Lemma count_entry c d c' : entry c' (count_color c d) = (entry c' d + (if list_eq_dec ascii_dec c c' then 1 else 0))%Z.
Proof.
  induction d as [|[k n] d IH]; cbn [count_color].
  - unfold entry. cbn [find fst]. destruct (str_eqb c c') eqn:Q; destruct (list_eq_dec ascii_dec c c') as [K|K]; cbn; auto.
    + apply str_eqb_eq in Q. contradiction.
    + subst. rewrite (proj2 (str_eqb_eq c' c') eq_refl) in Q. discriminate.
  - destruct (str_eqb k c) eqn:Q.
    + apply str_eqb_eq in Q. subst k. unfold entry. cbn [find fst]. destruct (str_eqb c c') eqn:Q; destruct (list_eq_dec ascii_dec c c') as [K|K]; cbn [snd]; auto.
      * apply str_eqb_eq in Q. contradiction.
      * subst. rewrite (proj2 (str_eqb_eq c' c') eq_refl) in Q. discriminate.
      * rewrite Z.add_0_r. reflexivity.
    + unfold entry in *. cbn [find fst]. destruct (str_eqb k c') eqn:Q'; [|exact IH]. cbn [snd].
      destruct (list_eq_dec ascii_dec c c') as [K|K]; [subst; congruence|lia].
Qed.
Lemma count_keys c d : map fst (count_color c d) = if existsb (fun kv => str_eqb (fst kv) c) d then map fst d else (map fst d ++ [c])%list.
Proof.
  induction d as [|[k n] d IH]; [reflexivity|]. cbn [count_color existsb fst map]. destruct (str_eqb k c); [reflexivity|]. cbn [map orb fst]. rewrite IH.
  destruct (existsb _ d); reflexivity.
Qed.
Lemma count_nodup c d : NoDup (map fst d) -> NoDup (map fst (count_color c d)).
Proof.
  intros H. rewrite count_keys. destruct (existsb _ d) eqn:Q; [exact H|]. apply (Permutation_NoDup (Permutation_cons_append (map fst d) c)). constructor; [|exact H].
  intros I. apply in_map_iff in I as (kv & <- & I). assert (existsb (fun x => str_eqb (fst x) (fst kv)) d = true); [|congruence].
  apply existsb_exists. exists kv. split; [exact I|]. now apply str_eqb_eq.
Qed.
Lemma total_app d : forall t, fold_left (fun t (kv : pystr * Z) => (t + snd kv)%Z) d t = (t + total_count d)%Z.
Proof.
  unfold total_count. induction d as [|kv d IH]; intros t; cbn [fold_left]; [lia|]. rewrite IH, (IH (0 + snd kv)%Z). lia.
Qed.
Lemma count_total c d : total_count (count_color c d) = (total_count d + 1)%Z.
Proof.
  induction d as [|[k n] d IH]; cbn [count_color]; [reflexivity|]. destruct (str_eqb k c); unfold total_count in *; cbn [fold_left snd]; rewrite !total_app; [lia|].
  unfold total_count. rewrite IH. lia.
Qed.
Lemma count_pos c d : Forall (fun kv => (0 < snd kv)%Z) d -> Forall (fun kv : pystr * Z => (0 < snd kv)%Z) (count_color c d).
Proof.
  induction 1 as [|[k n] d Hn H IH]; cbn [count_color]; [repeat constructor|]. cbn [snd] in Hn. destruct (str_eqb k c); constructor; auto. cbn [snd]. lia.
Qed.
Lemma colors_loop styles fills : Forall2 has_fill styles fills -> forall d, NoDup (map fst d) -> Forall (fun kv => (0 < snd kv)%Z) d ->
  exists out, color_counts d styles = Ok out /\ NoDup (map fst out) /\ Forall (fun kv => (0 < snd kv)%Z) out /\
    (forall c, entry c out = (entry c d + Z.of_nat (tally c fills))%Z) /\
    total_count out = (total_count d + Z.of_nat (List.length (filter (fun f => match f with Some _ => true | None => false end) fills)))%Z.
Proof.
  induction 1 as [|s f styles fills Hf H IH]; intros d N P; cbn [color_counts].
  - exists d. repeat split; auto; [intros c; cbn; lia|cbn; lia].
  - assert (Q : fill_of s = Ok f). { unfold fill_of. destruct s as [s|]; cbn [has_fill] in Hf; [|now subst]. destruct Hf as (m & M & ->). rewrite M. reflexivity. }
    rewrite Q. cbn [rbind]. destruct f as [c|].
    + destruct (IH (count_color c d) (count_nodup c d N) (count_pos c d P)) as (out & O1 & O2 & O3 & O4 & O5). exists out. repeat split; auto.
      * intros c'. rewrite O4, count_entry. unfold tally. cbn [filter]. destruct (list_eq_dec ascii_dec c c'); cbn [List.length]; lia.
      * rewrite O5, count_total. cbn [filter List.length]. lia.
    + destruct (IH d N P) as (out & O1 & O2 & O3 & O4 & O5). exists out. repeat split; auto.
Qed.
Lemma entry_in d c n : NoDup (map fst d) -> In (c, n) d -> entry c d = n.
Proof.
  induction d as [|[k m] d IH]; intros N I; [destruct I|]. cbn [map fst] in N. inversion N; subst. unfold entry. cbn [find fst]. destruct I as [Q|I].
  - injection Q as -> ->. now rewrite (proj2 (str_eqb_eq c c) eq_refl).
  - destruct (str_eqb k c) eqn:Q; [apply str_eqb_eq in Q; subst; exfalso; apply H1; now apply (in_map fst d (c, n))|]. now apply IH.
Qed.
(** Every colour used as a fill is listed once, with the number of shapes that have it; the total is the number of
    shapes with a fill. *)
Theorem C154_counts (styles fills : list (option pystr)) : Forall2 has_fill styles fills ->
  exists out, color_counts [] styles = Ok out /\ NoDup (map fst out) /\
    (forall c n, In (c, n) out <-> (n = Z.of_nat (tally c fills) /\ (0 < n)%Z)) /\
    total_count out = Z.of_nat (List.length (filter (fun f => match f with Some _ => true | None => false end) fills)).
Proof.
  intros H. destruct (colors_loop styles fills H [] (NoDup_nil _) (Forall_nil _)) as (out & O1 & O2 & O3 & O4 & O5). exists out. repeat split; auto.
  - match goal with I : In _ _ |- _ => rewrite <- (entry_in _ _ _ O2 I); rewrite O4; reflexivity end.
  - match goal with I : In _ _ |- _ => rewrite Forall_forall in O3; exact (O3 _ I) end.
  - intros (-> & Q). specialize (O4 c). change (entry c []) with 0%Z in O4. rewrite Z.add_0_l in O4. rewrite <- O4 in Q |- *. unfold entry in *. destruct (find _ out) as [[k m]|] eqn:F; [|lia].
    apply find_some in F as (F1 & F2). cbn [fst] in F2. apply str_eqb_eq in F2. subst k. exact F1.
Qed.
Example C154_example : exists out, color_counts [] [Some (L "fill:#ff0000;stroke:none"); Some (L "stroke:none"); None; Some (L "fill:#ff0000")] = Ok out /\
  out = [(L "#ff0000", 2%Z)].
Proof. eexists. split; reflexivity. Qed.

(** ** C155: tool paths *)
Section C155.
  Context {E : Epsilon ROps}.
  Hypothesis He : 0 < EPS.
  Theorem C155_continuous (path : list (gseg ROps)) : path <> [] ->
    exists b, verify_continuity path = Ok b /\
      (b = true <-> forall s t, In (s, t) (consecutive path) -> euclid (g_p2 s) (g_p1 t) < EPS).
  Proof.
    intros H. destruct path as [|s r]; [contradiction|]. clear H. cbn [verify_continuity]. eexists. split; [reflexivity|]. revert s.
    induction r as [|t r IH]; intros s; cbn [continuous_from].
    - split; [intros _ x y []|reflexivity].
    - destruct (peq (g_p2 s) (g_p1 t)) eqn:Q; cbn [negb].
      + apply (peq_true He) in Q. rewrite IH. unfold consecutive. cbn [tl combine]. split.
        * intros K x y [I|I]; [injection I as <- <-; exact Q|now apply K].
        * intros K x y I. apply K. now right.
      + apply (peq_false He) in Q. split; [discriminate|]. intros K. specialize (K s t (or_introl eq_refl)). lra.
  Qed.
  Theorem C155_empty_refuted : verify_continuity (N:=ROps) [] = Raise IndexError.
  Proof. reflexivity. Qed.
  (** A path is closed if it has at least three segments and ends where it starts. *)
  Theorem C155_closed (path : list (gseg ROps)) (s : gseg ROps) :
    toolpath_is_closed path = true <-> (3 <= List.length path)%nat /\ euclid (g_p1 (hd s path)) (g_p2 (last path s)) < EPS.
  Proof.
    destruct path as [|a [|b [|c r]]]; cbn [toolpath_is_closed List.length hd]; try (split; [discriminate|intros (K & _); lia]).
    assert (L : last (a :: b :: c :: r) a = last (a :: b :: c :: r) s) by (destruct (exists_last (l := a :: b :: c :: r)) as (l' & x & ->); [discriminate|now rewrite !last_last]).
    rewrite L. rewrite (peq_true He). split; [intros K; split; [lia|exact K]|tauto].
  Qed.
  (** A circle of two half circles is not closed. *)
  Theorem C155_two_refuted (a b : gseg ROps) : toolpath_is_closed [a; b] = false.
  Proof. reflexivity. Qed.
End C155.
Example C155_example : @verify_continuity ROps eps6 (path_of [P 0 0; P 1 0; P 1 1]) = Ok true.
Proof.
  destruct (@C155_continuous eps6 ltac:(unfold EPS, eps6; cbn; lra) (path_of [P 0 0; P 1 0; P 1 1])) as (b & -> & B); [discriminate|].
  f_equal. apply B. intros s t [I|[]]. injection I as <- <-. cbn [g_p1 g_p2 p1 p2]. cbn [fst snd]. rewrite (proj2 (euclid_zero _ _) eq_refl). unfold EPS, eps6. cbn. lra.
Qed.
