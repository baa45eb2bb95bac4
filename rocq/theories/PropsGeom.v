(** * PropsGeom: the plane-geometry properties (C33-C44, C62, C63), over R.
    Specification: [GeomSpec].  [EPS] is the library's tolerance, any positive number. *)
From Verif Require Import Num NumR NumF64 Geom GeomR GeomSpec GeomProofs GeomProofs2 GeomProofs3 GeomProofs4 GeomProofs5
  GeomProofs6 GeomProofs7 Ellipse.
From Coq Require Import ZArith Reals Lra Lia List Bool Psatz.
Import ListNotations.
Local Open Scope R_scope.

Definition eps6 : Epsilon ROps := 1 / 1000000.
Definition Pt' (x y : R) : Pt := P x y.

(** ** C33 *)
Theorem C33_normalize_angle (a c : R) :
  (exists k : Z, @normalize_angle ROps a c = a + 2 * PI * IZR k) /\ c - PI <= @normalize_angle ROps a c < c + PI.
Proof. split; [apply normalize_congr|apply normalize_range]. Qed.
Theorem C33_calc_rotation {E : Epsilon ROps} (s e : R) : EPS <= Rabs (s - e) ->
  (exists k : Z, calc_rotation s e = e - s + 2 * PI * IZR k) /\ - PI <= calc_rotation s e <= PI /\
  forall n : Z, Rabs (calc_rotation s e) <= Rabs (e - s + 2 * PI * IZR n).
Proof.
  intros H. destruct (calc_rotation_far s e H) as [A B]. split; [exact A|split; [exact B|]]. apply least_rotation; auto.
Qed.
Theorem C33_calc_rotation_near {E : Epsilon ROps} (s e : R) : Rabs (s - e) < EPS -> calc_rotation s e = 0.
Proof. apply calc_rotation_near. Qed.
Example C33_example : @EPS _ eps6 <= Rabs (0 - 5).
Proof. unfold EPS, eps6. rewrite Rabs_left; lra. Qed.

(** ** C34 *)
Theorem C34_compose (a b : mat ROps) (p : Pt) : apply (compose a b) p = apply a (apply b p).
Proof. exact (apply_compose a b p). Qed.
Theorem C34_compose_assoc (a b c : mat ROps) : compose a (compose b c) = compose (compose a b) c.
Proof. destruct a, b, c. unfold compose. cbn. apply mat_ext; cbn; ring. Qed.
Theorem C34_identity (m : mat ROps) : is_identity m = true <-> forall p : Pt, apply m p = p.
Proof. exact (identity_acts m). Qed.
Theorem C34_translate (x y : R) (p : Pt) : apply (translate x y) p = moved x y p.
Proof. destruct p. unfold moved. pt_solve. Qed.
Theorem C34_scale (sx sy : R) (p : Pt) : apply (mscale sx sy None) p = P (sx * px p)%R (sy * py p)%R.
Proof. destruct p. unfold mscale. pt_solve. Qed.
Theorem C34_scale_about (sx sy : R) (o p : Pt) :
  apply (mscale sx sy (Some o)) p = P (px o + sx * (px p - px o))%R (py o + sy * (py p - py o))%R.
Proof. destruct o, p. unfold mscale. pt_solve. Qed.
Theorem C34_rotate (a : R) (o p : Pt) : apply (mrotate a o) p = turned o a p.
Proof. exact (apply_rotate o p a). Qed.
Theorem C34_skew (a : R) (p : Pt) :
  apply (skew_x a) p = P (px p + tan a * py p)%R (py p) /\ apply (skew_y a) p = P (px p) (py p + tan a * px p)%R.
Proof. destruct p. unfold skew_x, skew_y. split; pt_solve. Qed.
Theorem C34_canonicalize (p o : Pt) (th : R) : canonicalize p o th = moved (- px o) (- py o) (turned (P 0 0) (- th) p).
Proof. unfold canonicalize. rewrite apply_rotate. unfold moved. ptx; ring. Qed.
(** A rotation about a point followed by its inverse is the identity. *)
Theorem C34_rotate_inverse (a : R) (o p : Pt) : apply (mrotate (- a) o) (apply (mrotate a o) p) = p.
Proof. rewrite !apply_rotate, turned_add. replace (- a + a) with 0 by ring. apply turned_0. Qed.

(** ** C35 *)
Section C35.
  Context {E : Epsilon ROps}.
  Hypothesis He : 0 < EPS.
  Theorem C35_intersection_on_both (l o : Line_) seg sa sb q :
    intersection l o seg sa sb = Some q ->
    exists u v, q = at_param l u /\ q = at_param o v /\
      (seg = true \/ sa = true -> - EPS <= u <= 1 + EPS) /\ (seg = true \/ sb = true -> - EPS <= v <= 1 + EPS).
  Proof.
    unfold intersection. destruct (intersection_mu l o seg sa sb) as [mu|] eqn:M; [|discriminate].
    intros Q. injection Q as <-. destruct (intersection_mu_spec l o seg sa sb mu M He) as (_ & nu & Q & A & B).
    exists mu, nu. rewrite at_param_model. unfold within in A, B.
    split; [reflexivity|split; [exact Q|]]. split; intros [->| ->]; [apply A|apply A|apply B|apply B]; rewrite ?orb_true_r; reflexivity.
  Qed.
  Theorem C35_intersection_complete (l o : Line_) seg sa sb u v :
    EPS <= Rabs (dir_cross l o) -> at_param l u = at_param o v ->
    (seg || sa = true -> - EPS <= u <= 1 + EPS) -> (seg || sb = true -> - EPS <= v <= 1 + EPS) ->
    intersection l o seg sa sb = Some (at_param l u).
  Proof.
    intros D Q A B. unfold intersection. rewrite (intersection_mu_complete l o seg sa sb u v He D Q A B).
    rewrite at_param_model. reflexivity.
  Qed.
  Theorem C35_parallel_none (l o : Line_) seg sa sb : Rabs (dir_cross l o) < EPS -> intersection l o seg sa sb = None.
  Proof.
    intros D. unfold intersection. destruct (intersection_mu l o seg sa sb) as [mu|] eqn:M; [|reflexivity].
    destruct (intersection_mu_spec l o seg sa sb mu M He) as [A _]. lra.
  Qed.
  Theorem C35_is_parallel (l o : Line_) : is_parallel l o false = true <-> Rabs (dir_cross l o) < EPS.
  Proof.
    unfold is_parallel. rewrite cross_terms_R. rnum.
    replace ((py (p2 o) - py (p1 o)) * (px (p2 l) - px (p1 l)) - (px (p2 o) - px (p1 o)) * (py (p2 l) - py (p1 l)))
      with (dir_cross l o) by (unfold dir_cross; ring).
    destruct (Rltb (Rabs (dir_cross l o)) EPS) eqn:Z; rbool; split; auto; try discriminate; lra.
  Qed.
End C35.
Example C35_example : exists q, @intersection ROps eps6 (Ln (P 0 0) (P 2 2)) (Ln (P 0 2) (P 2 0)) true false false = Some q.
Proof.
  eexists. apply (@C35_intersection_complete eps6) with (u := 1/2) (v := 1/2).
  - unfold EPS, eps6. lra.
  - unfold dir_cross, EPS, eps6. cbn. rewrite Rabs_left; lra.
  - ptx; cbn; lra.
  - intros _. unfold EPS, eps6. lra.
  - intros _. unfold EPS, eps6. lra.
Qed.

(** ** C36 *)
Section C36.
  Context {E : Epsilon ROps}.
  Hypothesis He : 0 < EPS.
  (** offset: a translated copy; every point moves by |d| perpendicular to the line, to the left for d > 0. *)
  Theorem C36_offset (l : Line_) (d : R) : EPS <= Rabs d -> EPS <= seg_len l ->
    exists nx ny, nx * nx + ny * ny = d * d /\
      nx * (px (p2 l) - px (p1 l)) + ny * (py (p2 l) - py (p1 l)) = 0 /\
      loffset l d = Ln (moved nx ny (p1 l)) (moved nx ny (p2 l)) /\
      (forall u, side l (moved nx ny (at_param l u)) = d * seg_len l).
  Proof.
    intros Hd Hl. pose proof (offset_spec l d Hd Hl) as O. cbv zeta in O. cbn [px py] in O.
    pose proof (euclid_sqr (p1 l) (p2 l)) as Q. fold (seg_len l) in Q. set (L := seg_len l) in *.
    do 2 eexists. split; [|split; [|split; [exact O|]]].
    - apply Rmult_eq_reg_r with (L * L); [|nra]. 
      transitivity (d * d * ((px (p1 l) - px (p2 l)) * (px (p1 l) - px (p2 l)) + (py (p1 l) - py (p2 l)) * (py (p1 l) - py (p2 l))));
       [field; lra|rewrite <- Q; ring].
    - ring.
    - intros u. rewrite side_at. apply Rmult_eq_reg_r with L; [|lra].
      transitivity (d * ((px (p1 l) - px (p2 l)) * (px (p1 l) - px (p2 l)) + (py (p1 l) - py (p2 l)) * (py (p1 l) - py (p2 l))));
       [field; lra|rewrite <- Q; ring].
  Qed.
  Theorem C36_offset_tiny (l : Line_) (d : R) : Rabs d < EPS \/ seg_len l < EPS -> loffset l d = l.
  Proof.
    intros H. unfold loffset. rewrite seg_len_llen.
    assert (Z : is_zero d || is_zero (seg_len l) = true).
    { apply orb_true_iff. destruct H as [H|H]; [left|right]; apply isz; auto. rewrite Rabs_pos_eq; auto. apply euclid_pos. }
    rewrite Z. reflexivity.
  Qed.
  (** extend: the end points slide along the line; the length grows by d; both ends by d/2 from the midpoint. *)
  Theorem C36_extend (l : Line_) (d : R) : 0 < seg_len l ->
    exists m, extend l d false = Ok m /\ p1 m = p1 l /\ p2 m = at_param l (1 + d / seg_len l) /\
      (0 <= seg_len l + d -> seg_len m = seg_len l + d).
  Proof.
    intros H. destruct (extend_spec l d false H) as (m & Q & A & B). exists m. rewrite at_param_0 in A.
    repeat split; auto. intros Hd. unfold seg_len at 1. rewrite A, B, <- (at_param_0 l), euclid_at.
    rewrite Rabs_minus_sym, Rabs_pos_eq; [field; lra|]. 
    replace (1 + d / seg_len l - 0) with ((seg_len l + d) / seg_len l) by (field; lra).
    apply Rmult_le_pos; [lra|apply Rlt_le, Rinv_0_lt_compat; lra].
  Qed.
  Theorem C36_extend_from_midpoint (l : Line_) (d : R) : 0 < seg_len l ->
    exists m, extend l d true = Ok m /\ on_line l (p1 m) /\ on_line l (p2 m) /\ at_param m (1/2) = at_param l (1/2) /\
      (0 <= seg_len l + d -> seg_len m = seg_len l + d).
  Proof.
    intros H. destruct (extend_spec l d true H) as (m & Q & A & B). exists m.
    split; [exact Q|split; [eexists; exact A|split; [eexists; exact B|split]]].
    - unfold at_param at 1. rewrite A, B. unfold at_param. cbn [px py]. ptx; field; lra.
    - intros Hd. unfold seg_len at 1. rewrite A, B, euclid_at.
      rewrite Rabs_minus_sym, Rabs_pos_eq; [field; lra|].
      replace (1 + d / 2 / seg_len l - - (d / 2) / seg_len l) with ((seg_len l + d) / seg_len l) by (field; lra).
      apply Rmult_le_pos; [lra|apply Rlt_le, Rinv_0_lt_compat; lra].
  Qed.
  Theorem C36_extend_degenerate (l : Line_) (d : R) mid : p1 l = p2 l -> extend l d mid = Raise ZeroDivisionError.
  Proof. intros H. apply extend_raises. unfold seg_len. apply euclid_zero. exact H. Qed.
  Theorem C36_shift (l : Line_) (d : R) : 0 < seg_len l ->
    exists m, Geom.shift l d = Ok m /\ forall u, at_param m u = at_param l (u + d / seg_len l).
  Proof.
    intros H. destruct (shift_spec l d H) as (m & Q & A & B). exists m. split; [exact Q|].
    intros u. unfold at_param at 1. rewrite A, B. unfold at_param. cbn [px py]. ptx; field; lra.
  Qed.
  Theorem C36_reversed (l : Line_) (u : R) : at_param (lreversed l) u = at_param l (1 - u) /\ lreversed (lreversed l) = l.
  Proof. destruct l as [[? ?] [? ?]]. split; [|reflexivity]. unfold lreversed, at_param. ptx; cbn; ring. Qed.
  Theorem C36_flipped (l : Line_) (u : R) : at_param (flipped l) u = at_param l (- u).
  Proof. destruct l as [[? ?] [? ?]]. unfold flipped, at_param. cbn [p1 p2]. gunf. ptx; cbn; ring. Qed.
  Theorem C36_subdivide (l : Line_) (mu : R) : 0 < mu < 1 ->
    exists a b, lsubdivide l mu = Ok (a, b) /\ p1 a = p1 l /\ p2 a = at_param l mu /\ p1 b = at_param l mu /\ p2 b = p2 l /\
      seg_len a + seg_len b = seg_len l.
  Proof.
    intros H. unfold lsubdivide. rnum.
    destruct (Rltb 0 mu) eqn:Z1; rbool; [|lra]. destruct (Rltb mu 1) eqn:Z2; rbool; [|lra]. cbn [andb].
    rewrite at_param_model. do 2 eexists. split; [reflexivity|]. cbn [p1 p2]. repeat split; auto.
    unfold seg_len at 1 2. cbn [p1 p2]. rewrite <- (at_param_0 l), <- (at_param_1 l), !euclid_at.
    rewrite (Rabs_left (0 - mu)) by lra. rewrite (Rabs_left (mu - 1)) by lra. ring.
  Qed.
  Theorem C36_mu (l : Line_) (u : R) : 0 < seg_len l -> 0 <= u -> lmu l (lpoint_at l u) = Ok u.
  Proof. apply mu_point_at. Qed.
  Theorem C36_nearest_on_line (l : Line_) p : EPS <= seg_len l ->
    exists q, lproj_point l p false = Ok q /\ on_line l q /\ forall r, on_line l r -> euclid q p <= euclid r p.
  Proof. exact (proj_point_line He l p). Qed.
  Theorem C36_nearest_on_segment (l : Line_) p : EPS <= seg_len l ->
    exists q, lproj_point l p true = Ok q /\ ldist l p true = Ok (euclid q p) /\ on_segment l q /\
      forall r, on_segment l r -> euclid q p <= euclid r p.
  Proof.
    intros H. destruct (proj_point_segment He l p H) as (q & A & B & C). exists q. repeat split; auto.
    unfold ldist. rewrite A. cbn [rmap]. rewrite dist_euclid. reflexivity.
  Qed.
  Theorem C36_midpoint (l : Line_) : midpoint l = at_param l (1/2) /\ euclid (midpoint l) (p1 l) = euclid (midpoint l) (p2 l).
  Proof.
    rewrite midpoint_spec. split; [reflexivity|]. rewrite <- (at_param_0 l), <- (at_param_1 l).
    rewrite !euclid_at. rewrite (Rabs_pos_eq (1/2 - 0)) by lra. rewrite (Rabs_left (1/2 - 1)) by lra. lra.
  Qed.
  (** the perpendicular bisector: every point of it is equidistant from both ends; it is perpendicular *)
  Theorem C36_bisector (l : Line_) : seg_len (lbisector l) = seg_len l /\
    forall q, on_line (lbisector l) q -> euclid q (p1 l) = euclid q (p2 l).
  Proof.
    assert (B : lbisector l = Ln (moved (- (py (p2 l) - py (p1 l)) / 2) ((px (p2 l) - px (p1 l)) / 2) (at_param l (1/2)))
                      (moved ((py (p2 l) - py (p1 l)) / 2) (- (px (p2 l) - px (p1 l)) / 2) (at_param l (1/2)))).
    { unfold lbisector. rewrite midpoint_spec. destruct l as [[a b] [c d]]. unfold moved, at_param, padd, psub. cbn [p1 p2 px py].
      f_equal; ptx; field. }
    rewrite B. destruct l as [[a b] [c d]]. unfold moved, at_param. cbn [px py p1 p2]. split.
    - unfold seg_len. cbn [p1 p2]. apply euclid_unique; [apply euclid_pos|]. rewrite euclid_sqr. cbn [px py]. rnum. field.
    - intros q [u ->]. unfold at_param. cbn [px py p1 p2]. apply euclid_unique; [apply euclid_pos|].
      rewrite euclid_sqr. cbn [px py]. rnum. field.
  Qed.
End C36.
Example C36_example : let l : Line_ := Ln (P 0 0) (P 3 4) in @EPS _ eps6 <= seg_len l /\ @EPS _ eps6 <= Rabs (-2).
Proof.
  cbv zeta. assert (H : seg_len (Ln (P 0 0) (P 3 4)) = 5) by (apply euclid_unique; cbn; lra).
  rewrite H. unfold EPS, eps6. rewrite Rabs_left; lra.
Qed.

(** ** C37: the documented claim fails; what the code does decide is stated exactly. *)
Theorem C37_same_side_partial (l : Line_) (a b : Pt) :
  same_side l a b = true <-> (0 <= side l a \/ (side l a < 0 /\ side l b < 0)).
Proof.
  unfold same_side.
  assert (K : forall q : Pt, (cross (vec l) (psub q (p1 l)) : R) = side l q).
  { intros q. unfold cross, vec, psub, side. cbn [px py]. rnum. ring. }
  change (@cross ROps) with (fun a b : Pt => (px a * py b - px b * py a)%R) in *. cbn beta in *. rnum.
  rewrite !K. rewrite orb_true_iff, !andb_true_iff, !Rleb_true, !Rltb_true. tauto.
Qed.
(** When it answers "no" the points really are on different sides (or one on the line). *)
Theorem C37_false_is_right (l : Line_) (a b : Pt) : same_side l a b = false -> side l a < 0 /\ 0 <= side l b.
Proof.
  intros H. destruct (Rlt_le_dec (side l a) 0) as [A|A].
  - split; auto. destruct (Rlt_le_dec (side l b) 0) as [B|B]; auto.
    assert (same_side l a b = true) by (apply C37_same_side_partial; auto). congruence.
  - assert (same_side l a b = true) by (apply C37_same_side_partial; auto). congruence.
Qed.
Theorem C37_same_side_refuted : exists (l : Line_) (a b : Pt), 0 < side l a /\ side l b < 0 /\ same_side l a b = true.
Proof.
  exists (Ln (P 0 0) (P 1 0)), (P 0 1), (P 0 (-1)). split; [unfold side; cbn; lra|split; [unfold side; cbn; lra|]].
  apply C37_same_side_partial. left. unfold side. cbn. lra.
Qed.
(** which_side is right. *)
Theorem C37_which_side (l : Line_) (p : Pt) {E : Epsilon ROps} :
  which_side l p false = (if Rle_dec 0 (side l p) then 1 else -1)%Z.
Proof.
  unfold which_side. cbn [andb].
  replace (cross (vec l) (psub p (p1 l))) with (side l p) by (unfold cross, vec, psub, side; cbn [px py]; rnum; ring).
  rnum. unfold Rleb. destruct (Rle_dec 0 (side l p)); reflexivity.
Qed.

(** ** C38: the test is wrong: it never accepts a point strictly inside. *)
Theorem C38_inside_triangle_partial (a b c p : Pt) (u v w : R) :
  side (Ln a b) c <> 0 -> u + v + w = 1 ->
  px p = u * px a + v * px b + w * px c -> py p = u * py a + v * py b + w * py c ->
  exists r, inside_triangle p a b c = Ok r /\ (r = true <-> 0 <= w /\ v <= 0 /\ w - v <= 1).
Proof.
  intros D S X Y. eexists. split; [exact (inside_triangle_spec a b c p u v w D S X Y)|].
  rewrite !andb_true_iff, !Rleb_true. split; intros H; repeat split; try lra; tauto.
Qed.
Theorem C38_inside_triangle_refuted (a b c p : Pt) (u v w : R) :
  side (Ln a b) c <> 0 -> 0 < u -> 0 < v -> 0 < w -> u + v + w = 1 ->
  px p = u * px a + v * px b + w * px c -> py p = u * py a + v * py b + w * py c ->
  in_triangle a b c p /\ inside_triangle p a b c = Ok false.
Proof.
  intros D U V W S X Y. split.
  - exists u, v, w. repeat split; auto; lra.
  - rewrite (inside_triangle_spec a b c p u v w D S X Y). f_equal.
    assert (Z : Rleb 0 (- v) = false) by (apply Rleb_false; lra). rewrite Z, andb_false_r. reflexivity.
Qed.
(** ... and it accepts points outside. *)
Theorem C38_outside_accepted_refuted : exists a b c p : Pt,
  side (Ln a b) c <> 0 /\ ~ in_triangle a b c p /\ inside_triangle p a b c = Ok true.
Proof.
  exists (P 0 0), (P 1 0), (P 0 1), (P (- (1/4)) (1/4)). split; [unfold side; cbn; lra|split].
  - intros (u & v & w & U & V & W & S & X & Y). cbn in X. lra.
  - rewrite (inside_triangle_spec (P 0 0) (P 1 0) (P 0 1) _ 1 (- (1/4)) (1/4)); cbn [px py]; rnum; try lra.
    + f_equal. unfold Rleb. repeat (destruct (Rle_dec _ _); [|lra]). reflexivity.
    + unfold side. cbn. lra.
Qed.
Example C38_example : side (Ln (P 0 0) (P 4 0)) (P 0 4) <> 0 /\ 1 = 1/2 * 0 + 1/4 * 4 + 1/4 * 0.
Proof. unfold side. cbn. lra. Qed.

(** ** C39 *)
Theorem C39_lagrange (a b : Pt) : (dot a b : R) * dot a b + (cross a b : R) * cross a b = (plen2 a : R) * plen2 b.
Proof. exact (lagrange a b). Qed.
Theorem C39_distance (a b c : Pt) : pdist a b = euclid a b /\ pdist a b = pdist b a /\
  (pdist a c <= (pdist a b : R) + pdist b c) /\ (pdist a b = 0%R <-> a = b).
Proof.
  rewrite !dist_euclid. split; [reflexivity|split; [apply euclid_sym|split; [apply euclid_triangle|apply euclid_zero]]].
Qed.
Theorem C39_unit {E : Epsilon ROps} (a : Pt) : 0 < EPS -> EPS < (plen a : R) ->
  plen (punit a) = 1 /\ a = pmul (punit a) (plen a).
Proof.
  intros He H. pose proof (plen_sqr a) as S. unfold punit. rnum.
  destruct (Rltb (EPS * EPS) (plen2 a)) eqn:Z; [|apply Rltb_false in Z; nra].
  assert (SQ : R_sqrt.sqrt (plen2 a) = plen a) by (rewrite <- S; apply sqrt_square; lra).
  rewrite SQ. set (L := plen a) in *. split.
  - unfold plen. cbn [px py]. rnum. apply hypot_unique; [lra|]. apply Rmult_eq_reg_r with (L * L); [|nra].
    transitivity (px a * px a + py a * py a); [|change (T ROps) with R; field; lra]. rewrite S. unfold plen2. rnum. toR. ring.
  - unfold pmul. assert (L <> 0) by lra. assert (K : forall x M : R, M <> 0 -> x = x / M * M) by (intros; field; auto).
    apply pt_ext; cbn [px py]; apply K; auto.
Qed.
Theorem C39_normals (a : Pt) (left : bool) :
  dot a (pnormal a left) = 0 /\ plen (pnormal a left) = plen a /\
  (left = true -> (cross a (pnormal a left) : R) = plen2 a) /\ (left = false -> (cross a (pnormal a left) : R) = - plen2 a).
Proof.
  destruct a as [x y]. destruct left; unfold pnormal, dot, cross, plen, plen2, Rhypot; cbn [px py]; rnum;
   (split; [toR; ring|split; [unfold Rhypot; f_equal; toR; ring|split; intros; try discriminate; toR; ring]]).
Qed.
Theorem C39_rotation_preserves_distance (p q o : Pt) (a : R) :
  protate p a o = turned o a p /\ euclid (protate p a o) (protate q a o) = euclid p q /\ euclid (protate p a o) o = euclid p o.
Proof. unfold protate. rewrite !apply_rotate. split; [reflexivity|split; [apply turned_iso|apply turned_dist]]. Qed.
Theorem C39_polar (p : Pt) : from_polar (fst (to_polar p)) (snd (to_polar p)) = p.
Proof. exact (polar_id p). Qed.
Theorem C39_polar_inverse (r a : R) : 0 < r -> - PI < a <= PI -> to_polar (from_polar r a) = (r, a).
Proof. exact (polar_of r a). Qed.
(** angle2: turning the first arm by the returned signed angle about the corner gives the direction of the second. *)
Theorem C39_angle2 {E : Epsilon ROps} (o a b : Pt) : 0 < EPS -> o <> a -> o <> b -> EPS <= euclid a b ->
  - PI < angle2 o a b <= PI /\ turned o (angle2 o a b) a = at_param (Ln o b) (euclid o a / euclid o b).
Proof. intros He A B D. split; [apply angle2_range|apply angle2_turns; auto]. Qed.
(** distance_to_line: its magnitude is the distance to the nearest point of the line; it is
    signed (positive to the right), which the documentation ("Euclidean distance") does not say. *)
Theorem C39_distance_to_line {E : Epsilon ROps} (o a b : Pt) : 0 < EPS -> EPS <= euclid a b ->
  exists r, dist_to_line o a b = Ok r /\ (r < 0 <-> 0 < side (Ln a b) o) /\
    exists q, on_line (Ln a b) q /\ euclid o q = Rabs r /\ forall q', on_line (Ln a b) q' -> euclid o q <= euclid o q'.
Proof.
  intros He D. destruct (dist_to_line_spec He o a b D) as (r & A & B & q & C & F & G).
  exists r. split; [exact A|split]; [split; intros; nra|]. exists q. rewrite F. auto.
Qed.
(** bisector: a unit vector making equal angles with both arms ... *)
Theorem C39_bisector_partial {E : Epsilon ROps} (o a b : Pt) : o <> a -> o <> b ->
  let u := psub (pbisector o a b) o in
  plen u = 1 /\ dot u (psub a o) / euclid o a = dot u (psub b o) / euclid o b.
Proof. intros A B. destruct (bisector_spec o a b A B) as (X & Y & _). split; auto. Qed.
(** ... but it may point away from the angle: both arms within 45 degrees of -x, bisector +x. *)
Theorem C39_bisector_refuted {E : Epsilon ROps} : exists o a b : Pt, o <> a /\ o <> b /\
  dot (psub (pbisector o a b) o) (psub a o) < 0 /\ dot (psub (pbisector o a b) o) (psub b o) < 0 /\
  0 < dot (psub a o) (P (-1) 0) /\ 0 < dot (psub b o) (P (-1) 0).
Proof.
  exists (P 0 0), (P (-1) 1), (P (-1) (-1)).
  assert (A : P 0 0 <> P (-1) 1 :> Pt) by (intros Q; injection Q; lra).
  assert (B : P 0 0 <> P (-1) (-1) :> Pt) by (intros Q; injection Q; lra).
  destruct (bisector_spec (P 0 0) (P (-1) 1) (P (-1) (-1)) A B) as (_ & Y & Z).
  assert (E1 : euclid (P 0 0) (P (-1) 1) = euclid (P 0 0) (P (-1) (-1))) by (unfold euclid, Rsqr; cbn [px py]; f_equal; ring).
  assert (P1 : 0 < euclid (P 0 0) (P (-1) 1)) by (unfold euclid, Rsqr; cbn [px py]; apply sqrt_lt_R0; lra).
  assert (AN : (pangle (psub (P (-1) 1) (P 0 0) : Pt) : R) = 3 * PI / 4 /\ (pangle (psub (P (-1) (-1)) (P 0 0) : Pt) : R) = - (3 * PI / 4)).
  { unfold pangle, psub. cbn [px py]. rnum. unfold Ratan2.
    destruct (Rlt_dec 0 (-1 - 0)); [lra|]. destruct (Rlt_dec (-1 - 0) 0); [|lra].
    destruct (Rle_dec 0 (1 - 0)); [|lra]. destruct (Rle_dec 0 (-1 - 0)); [lra|].
    replace ((1 - 0) / (-1 - 0)) with (- (1)) by field. replace ((-1 - 0) / (-1 - 0)) with 1 by field.
    rewrite atan_opp, atan_1. lra. }
  destruct AN as [AN BN]. change (T ROps) with R in *. rewrite AN, BN in Z.
  assert (C : cos ((3 * PI / 4 - - (3 * PI / 4)) / 2) < 0).
  { apply cos_lt_0; pose proof PI_RGT_0; lra. }
  split; [exact A|split; [exact B|]].
  assert (N1 : dot (psub (pbisector (P 0 0) (P (-1) 1) (P (-1) (-1))) (P 0 0)) (psub (P (-1) 1) (P 0 0)) < 0).
  { rewrite Z. nra. }
  split; [exact N1|]. split; [|unfold dot, psub; cbn; lra].
  rewrite E1 in Y, P1. unfold Rdiv in Y. apply Rmult_eq_reg_r in Y; [rewrite <- Y; exact N1|].
  apply Rinv_neq_0_compat; lra.
Qed.

(** ** C40 *)
Theorem C40_eq_reflexive_symmetric_partial {E : Epsilon ROps} (a b : Pt) : 0 < EPS -> peq a a = true /\ peq a b = peq b a.
Proof.
  intros He. split.
  - apply peq_true; auto. rewrite (proj2 (euclid_zero a a) eq_refl). exact He.
  - unfold peq, palmost. rnum. f_equal. toR. ring.
Qed.
Theorem C40_eq_is_distance {E : Epsilon ROps} (a b : Pt) : 0 < EPS -> (peq a b = true <-> euclid a b < EPS).
Proof. intros He. apply peq_true; auto. Qed.
Theorem C40_transitive_refuted {E : Epsilon ROps} : 0 < EPS -> exists a b c : Pt, peq a b = true /\ peq b c = true /\ peq a c = false.
Proof.
  intros He. set (h := 3 / 5 * EPS). exists (P 0 0), (P h 0), (P (h + h) 0).
  assert (K : forall x y : R, euclid (P x 0) (P y 0) = Rabs (x - y)).
  { intros. apply euclid_unique; [apply Rabs_pos|]. cbn [px py]. rnum. rewrite <- Rabs_mult, Rabs_pos_eq by apply Rle_0_sqr. ring. }
  assert (0 < h < EPS /\ EPS < h + h) by (unfold h; lra).
  repeat split; [apply peq_true|apply peq_true|apply peq_false]; auto; rewrite K; rewrite Rabs_left; lra.
Qed.
(** Equal points (default tolerance 1e-6) may hash differently; in exact arithmetic ... *)
Lemma hash1 (x : R) (k : Z) : 0 <= x -> IZR k - 1/2 < x * 1000000 < IZR k + 1/2 -> hash_coord 6 (x : ROps) = (k / 1000000)%Z.
Proof.
  intros Hx Hk. unfold hash_coord. rnum. unfold Rfmt. replace (x * 10 ^ 6) with (x * 1000000) by ring.
  assert (R1 : Zrnd (x * 1000000) = k).
  { pose proof (Zrnd_half (x * 1000000)) as H. apply Rabs_def2 in H || (assert (H' : -(1/2) <= IZR (Zrnd (x * 1000000)) - x * 1000000 <= 1/2) by (split; unfold Rabs in H; destruct (Rcase_abs _); lra); clear H; rename H' into H).
    assert (A : IZR (Zrnd (x * 1000000)) < IZR (k + 1)) by (rewrite plus_IZR; lra).
    assert (B : IZR (k - 1) < IZR (Zrnd (x * 1000000))) by (rewrite minus_IZR; lra).
    apply lt_IZR in A. apply lt_IZR in B. lia. }
  rewrite R1. assert (K0 : (0 <= k)%Z). { apply le_IZR. assert (-1 < IZR k) by lra. assert (H2 : (-1 < k)%Z) by (apply lt_IZR; lra). apply IZR_le; lia. }
  assert (N : Rltb x 0 = false) by (apply Rltb_false; lra). rewrite N.
  rewrite N2Z.inj_abs_N, Z.abs_eq by lia. reflexivity.
Qed.
Theorem C40_hash_refuted : exists a b : Pt, @peq ROps eps6 a b = true /\ phash 6 a <> phash 6 b.
Proof.
  exists (P (9999997 / 10000000) 0), (P (9999993 / 10000000) 0). split.
  - apply peq_true; [unfold EPS, eps6; lra|]. rewrite (euclid_unique _ _ (4 / 10000000)); cbn [px py]; rnum; unfold EPS, eps6; lra.
  - unfold phash. cbn [px py].
    rewrite (hash1 (9999997 / 10000000) 1000000) by lra. rewrite (hash1 (9999993 / 10000000) 999999) by lra.
    rewrite (hash1 0 0) by lra. discriminate.
Qed.
(** ... and in IEEE double arithmetic. *)
Theorem C40_hash_binary64_refuted : exists a b : pt F64Ops,
  @peq F64Ops (f64_lit 1 (-6)) a b = true /\ phash 6 a <> phash 6 b.
Proof.
  exists (@P F64Ops (f64_lit 9999997 (-7)) (f64_lit 0 0)), (@P F64Ops (f64_lit 9999993 (-7)) (f64_lit 0 0)).
  split; [vm_compute; reflexivity|]. vm_compute. discriminate.
Qed.

(** ** C41 *)
Lemma fold_min_spec (l : list ROps) (x : R) :
  @Geom.list_min ROps x l <= x /\ (forall y, In y l -> @Geom.list_min ROps x l <= y) /\ (@Geom.list_min ROps x l = x \/ In (@Geom.list_min ROps x l) l).
Proof.
  unfold Geom.list_min. revert x. induction l as [|a l IH]; intros x; cbn [fold_left].
  - split; [lra|split; [intros y []|auto]].
  - rewrite pymin_R. destruct (IH (Rmin x a)) as (A & B & C). set (m := fold_left _ l _) in *.
    pose proof (Rmin_l x a). pose proof (Rmin_r x a). split; [|split].
    + eapply Rle_trans; [exact A|assumption].
    + intros y [<-|I]; [eapply Rle_trans; [exact A|assumption]|apply B; auto].
    + destruct C as [C|C]; [|right; right; exact C]. rewrite C.
      unfold Rmin. destruct (Rle_dec x a); [left; reflexivity|right; left; reflexivity].
Qed.
Lemma fold_max_spec (l : list ROps) (x : R) :
  x <= @Geom.list_max ROps x l /\ (forall y, In y l -> y <= @Geom.list_max ROps x l) /\ (@Geom.list_max ROps x l = x \/ In (@Geom.list_max ROps x l) l).
Proof.
  unfold Geom.list_max. revert x. induction l as [|a l IH]; intros x; cbn [fold_left].
  - split; [lra|split; [intros y []|auto]].
  - rewrite pymax_R. destruct (IH (Rmax x a)) as (A & B & C). set (m := fold_left _ l _) in *.
    pose proof (Rmax_l x a). pose proof (Rmax_r x a). split; [|split].
    + eapply Rle_trans; [eassumption|exact A].
    + intros y [<-|I]; [eapply Rle_trans; [eassumption|exact A]|apply B; auto].
    + destruct C as [C|C]; [|right; right; exact C]. rewrite C.
      unfold Rmax. destruct (Rle_dec x a); [right; left; reflexivity|left; reflexivity].
Qed.
Ltac mm := repeat rewrite ?pymin_R, ?pymax_R in *;
  repeat match goal with
  | |- context [Rmin ?a ?b] => lazymatch goal with H : Rmin a b <= a |- _ => fail | _ =>
      pose proof (Rmin_l a b); pose proof (Rmin_r a b) end
  | |- context [Rmax ?a ?b] => lazymatch goal with H : a <= Rmax a b |- _ => fail | _ =>
      pose proof (Rmax_l a b); pose proof (Rmax_r a b) end
  end.

Theorem C41_box_ordered (a b : Pt) : proper_box (mkbox a b) /\ in_box (mkbox a b) a /\ in_box (mkbox a b) b.
Proof.
  unfold proper_box, in_box, mkbox. cbn [b1 b2 px py]. rewrite !pymin_R, !pymax_R. mm. repeat split; lra.
Qed.
(** The least box: every proper box that contains both corners contains it. *)
Theorem C41_box_least (a b : Pt) (c : Box_) : in_box c a -> in_box c b -> forall q, in_box (mkbox a b) q -> in_box c q.
Proof.
  intros A B q. unfold in_box, mkbox in *. cbn [b1 b2 px py]. rewrite !pymin_R, !pymax_R.
  unfold Rmin, Rmax. repeat destruct (Rle_dec _ _); intuition lra.
Qed.
Theorem C41_from_points (l : list Pt) : l <> [] -> exists b, from_points l = Some b /\ proper_box b /\
  (forall p, In p l -> in_box b p) /\ forall c, (forall p, In p l -> in_box c p) -> forall q, in_box b q -> in_box c q.
Proof.
  destruct l as [|p r]; [congruence|]. intros _. unfold from_points. eexists. split; [reflexivity|].
  set (x0 := Geom.list_min (px p) (map px r)). set (y0 := Geom.list_min (py p) (map py r)).
  set (x9 := Geom.list_max (px p) (map px r)). set (y9 := Geom.list_max (py p) (map py r)).
  destruct (fold_min_spec (map px r) (px p)) as (A1 & A2 & A3). destruct (fold_max_spec (map px r) (px p)) as (B1 & B2 & B3).
  destruct (fold_min_spec (map py r) (py p)) as (C1 & C2 & C3). destruct (fold_max_spec (map py r) (py p)) as (D1 & D2 & D3).
  fold x0 in A1, A2, A3. fold x9 in B1, B2, B3. fold y0 in C1, C2, C3. fold y9 in D1, D2, D3.
  clearbody x0 x9 y0 y9. change (T ROps) with R in *.
  split; [|split].
  - apply C41_box_ordered.
  - intros q I. unfold in_box, mkbox. cbn [b1 b2 px py]. rewrite !pymin_R, !pymax_R.
    assert (Hx : x0 <= px q <= x9 /\ y0 <= py q <= y9).
    { destruct I as [<-|I]; [auto|]. repeat split; [apply A2|apply B2|apply C2|apply D2]; apply in_map; exact I. }
    unfold Rmin, Rmax. repeat destruct (Rle_dec _ _); lra.
  - intros c H. apply C41_box_least.
    + unfold in_box. cbn [px py].
      assert (K1 : px (b1 c) <= x0 <= px (b2 c)).
      { destruct A3 as [->|A3]; [apply H; left; reflexivity|]. apply in_map_iff in A3. destruct A3 as (q & <- & I). apply H. right. exact I. }
      assert (K2 : py (b1 c) <= y0 <= py (b2 c)).
      { destruct C3 as [->|C3]; [apply H; left; reflexivity|]. apply in_map_iff in C3. destruct C3 as (q & <- & I). apply H. right. exact I. }
      auto.
    + unfold in_box. cbn [px py].
      assert (K1 : px (b1 c) <= x9 <= px (b2 c)).
      { destruct B3 as [->|A4]; [apply H; left; reflexivity|]. apply in_map_iff in A4. destruct A4 as (q & <- & I). apply H. right. exact I. }
      assert (K2 : py (b1 c) <= y9 <= py (b2 c)).
      { destruct D3 as [->|A4]; [apply H; left; reflexivity|]. apply in_map_iff in A4. destruct A4 as (q & <- & I). apply H. right. exact I. }
      auto.
Qed.
Theorem C41_union (a b : Box_) : (forall q, in_box a q \/ in_box b q -> in_box (bunion a b) q) /\
  forall c, proper_box a -> proper_box b -> (forall q, in_box a q \/ in_box b q -> in_box c q) -> forall q, in_box (bunion a b) q -> in_box c q.
Proof.
  split.
  - intros q H. unfold in_box, bunion, mkbox, xmin, xmax, ymin, ymax in *. cbn [b1 b2 px py]. rewrite !pymin_R, !pymax_R.
    unfold Rmin, Rmax. repeat destruct (Rle_dec _ _); intuition lra.
  - intros c Pa Pb H q. 
    destruct Pa as [Pa1 Pa2], Pb as [Pb1 Pb2].
    assert (Q1 : in_box c (b1 a)) by (apply H; left; repeat split; (apply Rle_refl || assumption)).
    assert (Q2 : in_box c (b2 a)) by (apply H; left; repeat split; (apply Rle_refl || assumption)).
    assert (Q3 : in_box c (b1 b)) by (apply H; right; repeat split; (apply Rle_refl || assumption)).
    assert (Q4 : in_box c (b2 b)) by (apply H; right; repeat split; (apply Rle_refl || assumption)).
    unfold in_box, bunion, mkbox, xmin, xmax, ymin, ymax in *. cbn [b1 b2 px py]. rewrite !pymin_R, !pymax_R.
    unfold Rmin, Rmax. repeat destruct (Rle_dec _ _); intuition lra.
Qed.
Theorem C41_intersection (a b : Box_) :
  match binter a b with
  | Some c => forall q, in_box c q <-> in_box a q /\ in_box b q
  | None => forall q, ~ (in_box a q /\ in_box b q)
  end.
Proof.
  unfold binter. unfold xmin, xmax, ymin, ymax. rewrite !pymin_R, !pymax_R. rnum.
  destruct (Rltb (Rmin (px (b2 a)) (px (b2 b))) (Rmax (px (b1 a)) (px (b1 b))) || Rltb (Rmin (py (b2 a)) (py (b2 b))) (Rmax (py (b1 a)) (py (b1 b)))) eqn:Z.
  - intros q. apply orb_true_iff in Z. rewrite !Rltb_true in Z. unfold in_box. unfold Rmin, Rmax in Z.
    repeat destruct (Rle_dec _ _); intuition lra.
  - intros q. apply orb_false_iff in Z. rewrite !Rltb_false in Z. unfold in_box, mkbox. cbn [b1 b2 px py]. rewrite !pymin_R, !pymax_R.
    unfold Rmin, Rmax in *. repeat destruct (Rle_dec _ _); intuition lra.
Qed.
Theorem C41_buffered (b : Box_) (d : R) q : proper_box b -> 0 <= d ->
  (in_box (buffered b d) q <-> px (b1 b) - d <= px q <= px (b2 b) + d /\ py (b1 b) - d <= py q <= py (b2 b) + d).
Proof.
  intros Pb Hd. unfold in_box, buffered, mkbox, psubs, padds, proper_box in *. cbn [b1 b2 px py]. rewrite !pymin_R, !pymax_R. rnum.
  rewrite !Rmin_left, !Rmax_right by lra. tauto.
Qed.
(** clipping: the result is the part of the segment inside the box (exactly, unless a coordinate
    extent is non-zero yet below EPS; within EPS of the box in all cases) *)
Theorem C41_clip {E : Epsilon ROps} (b : Box_) (l m : Line_) : 0 < EPS -> clip_line b l = Some m ->
  exists u0 u1, 0 <= u0 /\ u0 <= u1 /\ u1 <= 1 /\ p1 m = at_param l u0 /\ p2 m = at_param l u1 /\
    (forall u, u0 <= u <= u1 ->
       px (b1 b) - EPS <= px (at_param l u) <= px (b2 b) + EPS /\
       py (b1 b) - EPS <= py (at_param l u) <= py (b2 b) + EPS) /\
    (not_tiny (px (p2 l) - px (p1 l)) -> not_tiny (py (p2 l) - py (p1 l)) ->
     forall u, 0 <= u <= 1 -> (u0 <= u <= u1 <-> in_box b (at_param l u))).
Proof. intros He. apply clip_shape; auto. Qed.
Theorem C41_clip_none {E : Epsilon ROps} (b : Box_) (l : Line_) : 0 < EPS -> clip_line b l = None ->
  not_tiny (px (p2 l) - px (p1 l)) -> not_tiny (py (p2 l) - py (p1 l)) ->
  forall u, 0 <= u <= 1 -> ~ in_box b (at_param l u).
Proof. intros He. apply clip_none; auto. Qed.

(** ** C42 *)
Theorem C42_point_at (a : Arc_) (mu : R) : wf_arc a -> 0 <= mu <= 1 ->
  apoint_at a mu = turned (center a) (sweep a * mu) (ap1 a) /\ on_circle (center a) (radius a) (apoint_at a mu) /\
  apoint_at a 0 = ap1 a /\ apoint_at a 1 = ap2 a.
Proof.
  intros W M. pose proof W as (R0 & R1 & R2). rewrite !arc_point by (auto; lra). split; [reflexivity|split; [|split]].
  - unfold on_circle. rewrite euclid_sym, turned_dist. exact R1.
  - rewrite Rmult_0_r. apply turned_0.
  - rewrite Rmult_1_r. symmetry. exact R2.
Qed.
Theorem C42_reversed (a : Arc_) (mu : R) : wf_arc a -> 0 <= mu <= 1 ->
  wf_arc (areversed a) /\ apoint_at (areversed a) mu = apoint_at a (1 - mu)%R /\ areversed (areversed a) = a /\
  alen (areversed a) = alen a.
Proof.
  intros W M. split; [apply wf_reversed; auto|split; [apply arc_reversed_points; auto|split]].
  - destruct a. unfold areversed. cbn. f_equal. apply Ropp_involutive.
  - unfold alen, areversed. cbn [radius sweep]. rnum. replace (radius a * - sweep a) with (- (radius a * sweep a)) by ring. apply Rabs_Ropp.
Qed.
Theorem C42_offset (a : Arc_) d : wf_arc a -> 0 < radius a + d ->
  exists a', aoffset a d = Ok a' /\ wf_arc a' /\ radius a' = radius a + d /\ center a' = center a /\
    sweep a' = sweep a /\ forall mu, 0 <= mu <= 1 ->
      apoint_at a' mu = at_param (Ln (center a) (apoint_at a mu)) ((radius a + d) / radius a).
Proof. apply arc_offset. Qed.
Theorem C42_tangents (a : Arc_) : wf_arc a -> sweep a <> 0 ->
  let k := if Rlt_dec (sweep a) 0 then -1 else 1 in
  (radius a * cos (astart_tangent a) = - k * (py (ap1 a) - py (center a)) /\
   radius a * sin (astart_tangent a) = k * (px (ap1 a) - px (center a))) /\
  (radius a * cos (aend_tangent a) = - k * (py (ap2 a) - py (center a)) /\
   radius a * sin (aend_tangent a) = k * (px (ap2 a) - px (center a))) /\
  - PI <= astart_tangent a < PI /\ - PI <= aend_tangent a < PI.
Proof.
  intros (R0 & R1 & R2) Hs. cbv zeta.
  assert (R3 : euclid (ap2 a) (center a) = radius a) by (rewrite R2, turned_dist; exact R1).
  pose proof (tangent_dir (center a) (ap1 a) (is_clockwise a)) as T1. cbv zeta in T1. rewrite R1 in T1.
  pose proof (tangent_dir (center a) (ap2 a) (is_clockwise a)) as T2. cbv zeta in T2. rewrite R3 in T2.
  destruct (T1 R0) as (A & B & C). destruct (T2 R0) as (A' & B' & C').
  fold (astart_tangent a) in A, B, C. fold (aend_tangent a) in A', B', C'.
  unfold is_clockwise in *. rnum. unfold Rltb in *.
  destruct (Rlt_dec (sweep a) 0); repeat split; auto; try lra.
Qed.
(** The centre computed from end points, radius and angle makes a consistent arc up to a half turn ... *)
Theorem C42_center {E : Epsilon ROps} (a b : Pt) (r t : R) : 0 < EPS -> 0 < r -> t <> 0 -> - PI <= t <= PI ->
  EPS <= euclid a b -> euclid a b = 2 * r * Rabs (sin (t / 2)) ->
  exists arc, arc_auto a b r t = Ok arc /\ wf_arc arc /\ ap1 arc = a /\ ap2 arc = b /\ radius arc = r /\ sweep arc = t.
Proof.
  intros He Hr Ht Rt Hd Hc. destruct (calc_center_wf He a b r t Hr Ht Rt Hd Hc) as (c & Q & W).
  exists (mkarc a b r t c). unfold arc_auto. rewrite Q. cbn. auto 10.
Qed.
(** ... but on the wrong side for a larger sweep: three quarters of the unit circle from (1,0) to (0,-1). *)
Theorem C42_center_large_sweep_refuted {E : Epsilon ROps} : 0 < EPS < 1 ->
  exists (a b : Pt) (r t : R) arc, wf_arc (mkarc a b r t (P 0 0)) /\ arc_auto a b r t = Ok arc /\ center arc = P 1 (-1).
Proof.
  intros He. pose proof PI_RGT_0. exists (P 1 0), (P 0 (-1)), 1, (3 * (PI / 2)).
  assert (D : euclid (P 1 0) (P 0 (-1)) * euclid (P 1 0) (P 0 (-1)) = 2) by (rewrite euclid_sqr; cbn; lra).
  assert (Dp : 1 < euclid (P 1 0) (P 0 (-1))) by (pose proof (euclid_pos (P 1 0) (P 0 (-1))); nra).
  unfold arc_auto, calc_center. destruct (peq _ _) eqn:Z; [apply peq_true in Z; [lra|lra]|].
  rewrite seg_len_llen. unfold seg_len. cbn [p1 p2]. set (d := euclid (P 1 0) (P 0 (-1))) in *. unfold pysqrt, pydiv. rnum.
  rewrite D. replace (1 * 1 - 2 / 4) with (1/2) by lra.
  destruct (Rltb (1/2) 0) eqn:Z1; [apply Rltb_true in Z1; lra|]. cbn [rbind].
  destruct (Reqb d 0) eqn:Z2; [apply Reqb_true in Z2; lra|]. cbn [rbind rmap].
  destruct (Rltb 0 (3 * (PI / 2))) eqn:Z3; [|apply Rltb_false in Z3; lra].
  eexists. split; [|split; [reflexivity|]].
  - split; [cbn; lra|split].
    + cbn [ap1 center radius]. apply euclid_unique; cbn; lra.
    + cbn [ap1 ap2 center sweep]. unfold turned. cbn [px py].
      rewrite cos_3PI2, sin_3PI2. ptx; ring.
  - cbn [center]. rewrite midpoint_spec.
    assert (HS : R_sqrt.sqrt (1/2) = d / 2) by (apply sqrt_lem_1; nra).
    rewrite HS. unfold at_param. cbn [p1 p2 px py]. rnum. ptx; field; lra.
Qed.
Example C42_example : wf_arc (mkarc (P 1 0) (P 0 1) 1 (PI / 2) (P 0 0)) /\ wf_arc (mkarc (P 2 1) (P 1 0) 1 (- (PI / 2)) (P 1 1)).
Proof.
  split; (split; [cbn; lra|split; [cbn [ap1 center radius]; apply euclid_unique; cbn; lra|]]);
   cbn [ap1 ap2 center sweep]; unfold turned; cbn [px py]; rewrite ?cos_neg, ?sin_neg, cos_PI2, sin_PI2; ptx; ring.
Qed.

(** ** C43 *)
Theorem C43_subdivide_ccw_partial {E : Epsilon ROps} (a : Arc_) mu : 0 < EPS -> wf_arc a -> 0 < sweep a -> EPS <= mu -> mu < 1 ->
  EPS <= sweep a * mu ->
  exists a1 a2, asubdivide a mu = [a1; a2] /\ wf_arc a1 /\ wf_arc a2 /\
    ap1 a1 = ap1 a /\ ap2 a1 = apoint_at a mu /\ ap1 a2 = ap2 a1 /\ ap2 a2 = ap2 a /\
    radius a1 = radius a /\ radius a2 = radius a /\ center a1 = center a /\ center a2 = center a /\
    sweep a1 = sweep a * mu /\ sweep a1 + sweep a2 = sweep a.
Proof. intros He. apply arc_subdivide_ccw; auto. Qed.
(** A clockwise arc is never split. *)
Theorem C43_subdivide_cw_refuted {E : Epsilon ROps} (a : Arc_) mu : 0 < EPS -> sweep a < 0 -> asubdivide a mu = [a].
Proof. intros He. apply arc_subdivide_cw; auto. Qed.
Example C43_example : let a : Arc_ := mkarc (P 1 0) (P 0 1) 1 (PI / 2) (P 0 0) in @EPS _ eps6 <= sweep a * (1/2).
Proof. cbn. unfold EPS, eps6. pose proof PI2_3_2. lra. Qed.

(** ** C44 *)
Theorem C44_line_arc_on_both {E : Epsilon ROps} (a : Arc_) (l : Line_) on_arc on_line_ qs : 0 < EPS ->
  EPS <= radius a * radius a * (seg_len l * seg_len l) - side l (center a) * side l (center a) ->
  intersect_line a l on_arc on_line_ = Ok qs ->
  forall q, In q qs -> on_line l q /\ euclid (center a) q * euclid (center a) q = radius a * radius a.
Proof.
  intros He H Q q I. destruct (il_filter He a l on_arc on_line_ qs H Q) as (q1 & q2 & A & B).
  destruct (il_points He a l H) as (q1' & q2' & A' & _ & C). rewrite A in A'. injection A' as <- <-.
  apply C. apply B. exact I.
Qed.
Theorem C44_line_circle_complete {E : Epsilon ROps} (a : Arc_) (l : Line_) : 0 < EPS ->
  EPS <= radius a * radius a * (seg_len l * seg_len l) - side l (center a) * side l (center a) ->
  exists qs, intersect_line a l false false = Ok qs /\
    forall q, In q qs <-> on_line l q /\ euclid (center a) q * euclid (center a) q = radius a * radius a.
Proof.
  intros He H. destruct (il_points He a l H) as (q1 & q2 & A & B & C). exists [q1; q2]. split; [exact A|].
  intros q. cbn [In]. split.
  - intros [<-|[<-|[]]]; apply C; auto.
  - intros [O D]. destruct (B q O D); auto.
Qed.
(** near-tangent lines give one point: the foot of the perpendicular, on the line and nearly on the circle *)
Theorem C44_line_tangent {E : Epsilon ROps} (a : Arc_) (l : Line_) oa ol : 0 < EPS ->
  Rabs (radius a * radius a * (seg_len l * seg_len l) - side l (center a) * side l (center a)) < EPS -> EPS <= seg_len l ->
  exists q, intersect_line a l oa ol = Ok [q] /\ on_line l q /\
    Rabs (radius a * radius a - euclid q (center a) * euclid q (center a)) * (seg_len l * seg_len l) < EPS.
Proof.
  intros He H L. destruct (il_tangent He a l oa ol H L) as (q & A & B & _ & C). exists q. auto.
Qed.
Theorem C44_line_misses {E : Epsilon ROps} (a : Arc_) (l : Line_) oa ol : 0 < EPS ->
  radius a * radius a * (seg_len l * seg_len l) - side l (center a) * side l (center a) <= - EPS ->
  intersect_line a l oa ol = Ok [] /\ forall q, on_line l q -> euclid (center a) q * euclid (center a) q <> radius a * radius a.
Proof. intros He. apply il_none; auto. Qed.
(** circle-circle: two points lie on both circles; a single (tangent) point is right only for equal radii *)
Theorem C44_circles_two_points {E : Epsilon ROps} (c1 c2 : Pt) (r1 r2 : R) p q : 0 < EPS -> 0 <= r1 -> 0 <= r2 ->
  intersect_circle c1 r1 c2 r2 = Ok [p; q] ->
  (on_circle c1 r1 p /\ on_circle c2 r2 p) /\ (on_circle c1 r1 q /\ on_circle c2 r2 q).
Proof. intros He. apply circles_two; auto. Qed.
Theorem C44_circles_tangent_equal_partial {E : Epsilon ROps} (c1 c2 : Pt) (r : R) p :
  intersect_circle c1 r c2 r = Ok [p] ->
  Rabs (euclid c1 p - r) < EPS /\ Rabs (euclid c2 p - r) < EPS.
Proof.
  intros H. apply circles_tangent in H. destruct H as (A & B & C). rewrite B, C.
  assert (Rabs (euclid c1 c2 / 2 - r) < EPS); [|auto].
  replace (euclid c1 c2 / 2 - r) with ((euclid c1 c2 - (r + r)) * / 2) by field. rewrite Rabs_mult, (Rabs_pos_eq (/2)) by lra.
  pose proof (Rabs_pos (euclid c1 c2 - (r + r))). lra.
Qed.
Theorem C44_circles_tangent_refuted : exists (c1 c2 : Pt) (r1 r2 : R) p,
  @intersect_circle ROps eps6 c1 r1 c2 r2 = Ok [p] /\ euclid c1 c2 = r1 + r2 /\ ~ on_circle c1 r1 p /\ ~ on_circle c2 r2 p.
Proof.
  assert (D : euclid (P 0 0) (P 4 0) = 4) by (apply euclid_unique; cbn; lra).
  exists (P 0 0), (P 4 0), 1, 3, (P 2 0). split; [|split; [rewrite D; lra|split]].
  - unfold intersect_circle. rewrite seg_len_llen. unfold seg_len. cbn [p1 p2]. rnum.
    change (T ROps) with R. rewrite D.
    destruct (Rltb (1 + 3) 4) eqn:Z1; [apply Rltb_true in Z1; lra|]. destruct (Rltb 4 (1 - 3)) eqn:Z2; [apply Rltb_true in Z2; lra|].
    assert (Z3 : @is_zero ROps eps6 4 = false) by (apply isz_false; unfold EPS, eps6; rewrite ?Rabs_pos_eq; lra). rewrite Z3.
    assert (Z4 : @feq ROps eps6 4 (1 + 3) = true).
    { unfold feq. rnum. apply Rltb_true. replace (4 - (1 + 3)) with 0 by ring. rewrite Rabs_R0. unfold EPS, eps6. lra. }
    rewrite Z4, midpoint_spec. do 2 f_equal. unfold at_param. ptx; cbn; lra.
  - intros H. unfold on_circle in H. rewrite (euclid_unique _ _ 2) in H; cbn; lra.
  - intros H. unfold on_circle in H. rewrite (euclid_unique _ _ 2) in H; cbn; lra.
Qed.
Example C44_example : exists p q, @intersect_circle ROps eps6 (P 0 0) 5 (P 6 0) 5 = Ok [p; q].
Proof.
  assert (D : euclid (P 0 0) (P 6 0) = 6) by (apply euclid_unique; cbn; lra).
  unfold intersect_circle. rewrite seg_len_llen. unfold seg_len. cbn [p1 p2]. rnum. change (T ROps) with R. rewrite D.
  destruct (Rltb (5 + 5) 6) eqn:Z1; [apply Rltb_true in Z1; lra|]. destruct (Rltb 6 (5 - 5)) eqn:Z2; [apply Rltb_true in Z2; lra|].
  assert (Z3 : @is_zero ROps eps6 6 = false) by (apply isz_false; unfold EPS, eps6; rewrite ?Rabs_pos_eq; lra). rewrite Z3.
  assert (Z4 : @feq ROps eps6 6 (5 + 5) = false).
  { unfold feq. rnum. apply Rltb_false. rewrite Rabs_left by lra. unfold EPS, eps6. lra. }
  rewrite Z4. unfold pydiv. rnum. destruct (Reqb (2 * 6) 0) eqn:Z5; [apply Reqb_true in Z5; lra|]. cbn [rbind].
  match goal with |- context [Rltb ?x 0] => destruct (Rltb x 0) eqn:Z6 end; [apply Rltb_true in Z6; lra|]. eauto.
Qed.

(** ** C62: ellipses *)
Theorem C62_point_at_on_ellipse (e : ellipse ROps) t : erx e <> 0 -> ery e <> 0 -> on_ellipse e (epoint_at e t).
Proof. exact (ellipse_point e t). Qed.
(** derivative(t, 1) and derivative(t, 2) are the first and second derivatives of point_at *)
Theorem C62_derivatives (e : ellipse ROps) t :
  derivable_pt_lim (fun t => px (epoint_at e t)) t (px (ederivative1 e t)) /\
  derivable_pt_lim (fun t => py (epoint_at e t)) t (py (ederivative1 e t)) /\
  derivable_pt_lim (fun t => px (ederivative1 e t)) t (px (ederivative2 e t)) /\
  derivable_pt_lim (fun t => py (ederivative1 e t)) t (py (ederivative2 e t)).
Proof.
  assert (K : forall a b c t, derivable_pt_lim (fun t => (c + (a * cos t + b * sin t))%R) t (- a * sin t + b * cos t)).
  { intros a b c t'. replace (- a * sin t' + b * cos t') with (0 + (a * (- sin t') + b * cos t')) by ring.
    apply derivable_pt_lim_plus with (f1 := fun _ => c); [apply derivable_pt_lim_const|].
    apply derivable_pt_lim_plus with (f1 := fun t => a * cos t) (f2 := fun t => b * sin t).
    - apply derivable_pt_lim_scal. apply derivable_pt_lim_cos.
    - apply derivable_pt_lim_scal. apply derivable_pt_lim_sin. }
  assert (X : forall f g t d d', derivable_pt_lim f t d -> (forall x, f x = g x) -> d = d' -> derivable_pt_lim g t d').
  { intros f g t' d d' D Q <- eps Heps. destruct (D eps Heps) as (del & Hd). exists del. intros h. rewrite <- !Q. apply Hd. }
  unfold epoint_at, ederivative1, ederivative2, padd. cbn [px py]. rnum.
  split; [|split; [|split]].
  - eapply X; [apply (K (erx e * cos (ephi e)) (- (ery e * sin (ephi e))) (px (ec e)))|intros; toR; ring|toR; ring].
  - eapply X; [apply (K (erx e * sin (ephi e)) (ery e * cos (ephi e)) (py (ec e)))|intros; toR; ring|toR; ring].
  - eapply X; [apply (K (- (ery e * sin (ephi e))) (- (erx e * cos (ephi e))) 0)|intros; toR; ring|toR; ring].
  - eapply X; [apply (K (ery e * cos (ephi e)) (- (erx e * sin (ephi e))) 0)|intros; toR; ring|toR; ring].
Qed.
(** the foci: the distances of any point of the ellipse to them add up to the major axis *)
Theorem C62_foci (e : ellipse ROps) t : 0 < ery e <= erx e ->
  exists f1 f2, focus_points e = Ok (f1, f2) /\ euclid (epoint_at e t) f1 + euclid (epoint_at e t) f2 = 2 * erx e.
Proof.
  intros H. unfold focus_points, focus, pysqrt. rnum.
  destruct (Rltb (erx e * erx e - ery e * ery e) 0) eqn:Z; [apply Rltb_true in Z; nra|]. cbn [rmap].
  set (f := R_sqrt.sqrt (erx e * erx e - ery e * ery e)).
  assert (F0 : 0 <= f) by apply sqrt_pos. assert (FF : f * f = erx e * erx e - ery e * ery e) by (apply sqrt_sqrt; nra).
  assert (FL : f <= erx e) by nra.
  do 2 eexists. split; [reflexivity|].
  pose proof (COS_bound t) as CB. pose proof (sin2_cos2 t) as Q. pose proof (sin2_cos2 (ephi e)) as Q2. unfold Rsqr in *.
  set (c := cos (ephi e)) in *. set (s := sin (ephi e)) in *. set (ct := cos t) in *. set (st := sin t) in *.
  assert (G : forall k : R, k * k = 1 -> 0 <= erx e + k * f * ct /\
    (erx e + k * f * ct) * (erx e + k * f * ct) =
      (s * s + c * c) * ((erx e * ct + k * f) * (erx e * ct + k * f) + (ery e * st) * (ery e * st))).
  { intros k Hk. split.
    - assert (k = 1 \/ k = -1) as [-> | ->] by (assert (Z1 : (k - 1) * (k + 1) = 0) by lra; apply Rmult_integral in Z1; lra); nra.
    - rewrite Q2.
      replace (ery e * st * (ery e * st)) with ((ery e * ery e) * (st * st)) by ring.
      replace (st * st) with (1 - ct * ct) by lra. replace (ery e * ery e) with (erx e * erx e - f * f) by lra.
      replace (k * f * ct * (k * f * ct)) with ((k * k) * (f * ct * (f * ct))) by ring.
      transitivity (erx e * erx e + 2 * k * f * ct * erx e + (k * k) * (f * f * (ct * ct))); [ring|].
      rewrite Hk. transitivity (erx e * ct * (erx e * ct) + 2 * k * f * ct * erx e + (k * k) * (f * f) + (erx e * erx e - f * f) * (1 - ct * ct)); [rewrite Hk|]; ring. }
  destruct (G 1 ltac:(lra)) as [A1 A2]. destruct (G (-1) ltac:(lra)) as [B1 B2].
  unfold epoint_at, padd, psub. cbn [px py]. rnum. fold c s ct st.
  rewrite (euclid_unique _ _ (erx e + 1 * f * ct)); [|exact A1|rewrite A2; cbn [px py]; rnum; ring].
  rewrite (euclid_unique _ _ (erx e + -1 * f * ct)); [|exact B1|rewrite B2; cbn [px py]; rnum; ring].
  ring.
Qed.
(** the constructor orders the axes *)
Theorem C62_new_axes {E : Epsilon ROps} (c : Pt) rx ry phi :
  0 <= ery (new_ellipse c rx ry phi) <= erx (new_ellipse c rx ry phi).
Proof.
  unfold new_ellipse. cbn [erx ery]. rewrite pymin_R, pymax_R. rnum.
  pose proof (Rabs_pos rx). destruct ry as [ry|]; [pose proof (Rabs_pos ry)|].
  - pose proof (Rmin_l (Rabs rx) (Rabs ry)). pose proof (Rmax_l (Rabs rx) (Rabs ry)). unfold Rmin. destruct (Rle_dec _ _); split; try lra.
  - rewrite Rmin_left, Rmax_left by lra. lra.
Qed.

Example C62_example : erx (mkellipse (P 1 2) 5 3 1 : ellipse ROps) <> 0 /\ 0 < ery (mkellipse (P 1 2) 5 3 1 : ellipse ROps) <= 5.
Proof. cbn. lra. Qed.

(** ** C63: SVG end-point arcs *)
Section C63.
  Context {E : Epsilon ROps}.
  Hypothesis He : 0 < EPS.
  (** Both end points lie on the ellipse of the returned centre and (possibly enlarged) radii, rotated by -phi
      (the documentation says +phi). *)
  Theorem C63_from_endpoints_partial (a b : Pt) (rx ry : R) large flag phi :
    a <> b -> EPS <= Rabs rx -> EPS <= Rabs ry ->
    exists arc, earc_from_endpoints a b rx ry large flag phi = Ok (Some arc) /\
      ea_p1 arc = a /\ ea_p2 arc = b /\ Rabs rx <= ea_rx arc /\ Rabs ry <= ea_ry arc /\
      ea_rx arc * Rabs ry = ea_ry arc * Rabs rx /\
      on_ellipse (mkellipse (ea_c arc) (ea_rx arc) (ea_ry arc) (- phi)) a /\
      on_ellipse (mkellipse (ea_c arc) (ea_rx arc) (ea_ry arc) (- phi)) b.
  Proof.
    intros Hab Hx Hy. unfold earc_from_endpoints.
    rewrite (proj2 (isz_false rx) Hx), (proj2 (isz_false ry) Hy). cbn [orb]. unfold protate. rewrite !apply_rotate. rnum.
    set (X := Rabs rx) in *. set (Y := Rabs ry) in *. change (T ROps) with R in *.
    set (pr := turned (P 0 0) phi (P ((px (psub a b) : R) / 2) (py (psub a b) / 2))).
    set (xp := px pr). set (yp := py pr).
    assert (XX : 0 < X) by lra. assert (YY : 0 < Y) by lra. assert (XX' : 0 <= X) by lra. assert (YY' : 0 <= Y) by lra.
    pose proof (sin2_cos2 phi) as Q. unfold Rsqr in Q. set (c := cos phi) in *. set (s := sin phi) in *.
    assert (XP : xp = (c * (px a - px b) - s * (py a - py b)) / 2).
    { unfold xp, pr, turned, psub. cbn [px py]. rnum. fold c s. field. }
    assert (YP : yp = (s * (px a - px b) + c * (py a - py b)) / 2).
    { unfold yp, pr, turned, psub. cbn [px py]. rnum. fold c s. field. }
    assert (PP : 0 < xp * xp + yp * yp).
    { replace (xp * xp + yp * yp) with ((s * s + c * c) * ((px a - px b) * (px a - px b) + (py a - py b) * (py a - py b)) / 4)
        by (rewrite XP, YP; field).
      rewrite Q. pose proof (euclid_sqr a b) as D. rewrite <- D.
      assert (0 < euclid a b). { destruct (euclid_pos a b); auto. exfalso. apply Hab, euclid_zero. auto. }
      nra. }
    clearbody xp yp. clear pr. unfold pydiv. rnum.
    destruct (Reqb (X * X) 0) eqn:Z1; [apply Reqb_true in Z1; nra|]. cbn [rbind].
    destruct (Reqb (Y * Y) 0) eqn:Z2; [apply Reqb_true in Z2; nra|]. cbn [rbind].
    set (zz := xp * xp / (X * X) + yp * yp / (Y * Y)).
    assert (ZP : 0 < zz).
    { unfold zz. replace (xp * xp / (X * X) + yp * yp / (Y * Y)) with
        ((xp * xp * (Y * Y) + yp * yp * (X * X)) / (X * X * (Y * Y))) by (field; lra).
      assert (0 < X * X) by nra. assert (0 < Y * Y) by nra.
      apply Rdiv_lt_0_compat; [|nra]. 
      destruct (Req_dec xp 0) as [X0|X0]; [assert (0 < yp * yp) by (rewrite X0 in PP; lra); nra|].
      assert (0 < xp * xp) by nra. assert (0 <= yp * yp) by nra. nra. }
    set (k := if Rltb 1 zz then R_sqrt.sqrt zz else 1).
    assert (KP : (if Rltb 1 zz then (R_sqrt.sqrt zz * X, R_sqrt.sqrt zz * Y) else (X, Y)) = (k * X, k * Y)).
    { unfold k. destruct (Rltb 1 zz); [reflexivity|]. rewrite !Rmult_1_l. reflexivity. }
    assert (K1 : 1 <= k /\ zz <= k * k).
    { unfold k. destruct (Rltb 1 zz) eqn:Z; rbool; [|lra]. assert (S : R_sqrt.sqrt zz * R_sqrt.sqrt zz = zz) by (apply sqrt_sqrt; lra).
      pose proof (sqrt_pos zz). split; nra. }
    rewrite KP. clear KP. clearbody k. assert (KK : 0 < k) by lra. assert (KK' : 0 <= k) by lra.
    set (u := k * X). set (v := k * Y).
    assert (U : 0 < u) by (unfold u; nra). assert (V : 0 < v) by (unfold v; nra).
    set (t2 := u * u * (yp * yp) + v * v * (xp * xp)).
    assert (T2 : t2 = zz * (k * k) * (X * X) * (Y * Y)) by (unfold t2, zz, u, v; field; lra).
    assert (T2P : 0 < t2). { rewrite T2. assert (0 < X * X) by nra. assert (0 < Y * Y) by nra. assert (0 < k * k) by nra.
      repeat apply Rmult_lt_0_compat; auto. }
    destruct (Reqb t2 0) eqn:Z3; [apply Reqb_true in Z3; lra|]. cbn [rbind].
    set (t3 := (u * u * (v * v) - u * u * (yp * yp) - v * v * (xp * xp)) / t2).
    assert (T3 : t3 * t2 = u * u * (v * v) - t2) by (unfold t3; unfold t2 at 3; field; lra).
    assert (T3P : 0 <= t3).
    { assert (0 <= t3 * t2); [|nra]. rewrite T3, T2. unfold u, v.
      replace (k * X * (k * X) * (k * Y * (k * Y)) - zz * (k * k) * (X * X) * (Y * Y)) with
        ((k * k - zz) * ((k * X) * (k * X)) * (Y * Y)) by ring.
      assert (0 <= k * k - zz) by lra. assert (0 <= (k * X) * (k * X)) by nra. assert (0 <= Y * Y) by nra.
      repeat apply Rmult_le_pos; auto. }
    unfold pysqrt. rnum. destruct (Rltb t3 0) eqn:Z4; [apply Rltb_true in Z4; lra|]. cbn [rbind].
    set (t4 := R_sqrt.sqrt t3). assert (T4 : t4 * t4 = t3) by (apply sqrt_sqrt; auto).
    destruct (Reqb v 0) eqn:Z5; [apply Reqb_true in Z5; lra|]. cbn [rbind].
    destruct (Reqb u 0) eqn:Z6; [apply Reqb_true in Z6; lra|]. cbn [rbind].
    set (sg := if Bool.eqb large flag then - (1) else 1).
    assert (SGE : (if Bool.eqb large flag then (- (t4 * (u * yp / v)), - (t4 * - (v * xp / u))) else
      (t4 * (u * yp / v), t4 * - (v * xp / u))) = (sg * t4 * (u * yp / v), - (sg * t4 * (v * xp / u)))).
    { unfold sg. destruct (Bool.eqb large flag); f_equal; ring. }
    assert (SG : sg * sg = 1) by (unfold sg; destruct (Bool.eqb large flag); ring).
    rewrite SGE. clear SGE. clearbody sg.
    set (cx := sg * t4 * (u * yp / v)). set (cy := - (sg * t4 * (v * xp / u))).
    eexists. split; [reflexivity|]. cbn [ea_p1 ea_p2 ea_rx ea_ry ea_c].
    split; [reflexivity|split; [reflexivity|]].
    split; [unfold u; assert (0 <= X) by apply Rabs_pos; nra|]. split; [unfold v; assert (0 <= Y) by apply Rabs_pos; nra|].
    split; [unfold u, v; ring|].
    assert (EQ : forall h, h * h = 1 -> ((h * xp - cx) / u) * ((h * xp - cx) / u) + ((h * yp - cy) / v) * ((h * yp - cy) / v) = 1).
    { intros h Hh. apply Rmult_eq_reg_r with (u * u * (v * v)); [|apply Rgt_not_eq; repeat apply Rmult_lt_0_compat; auto].
      transitivity ((h * h + (sg * sg) * (t4 * t4)) * t2).
      - unfold cx, cy, t2. field. lra.
      - rewrite Hh, SG, T4. replace ((1 + 1 * t3) * t2) with (t2 + t3 * t2) by ring. rewrite T3. ring. }
    assert (ON : forall (h : R) (p : Pt), h * h = 1 -> px p = (px a + px b) / 2 + h * ((px a - px b) / 2) -> py p = (py a + py b) / 2 + h * ((py a - py b) / 2) ->
      on_ellipse (mkellipse (padd (turned (P 0 0) (- phi) (P cx cy)) (P (px (padd a b) / 2) (py (padd a b) / 2))) u v (- phi)) p).
    { intros h p Hh Hpx Hpy. unfold on_ellipse. cbn [ec erx ery ephi]. unfold turned, padd. cbn [px py]. rnum.
      rewrite cos_neg, sin_neg. fold c s. rewrite Hpx, Hpy.
      match goal with |- ?A / u * _ + ?B / v * _ = 1 =>
        replace A with (h * xp - (s * s + c * c) * cx) by (rewrite XP; field);
        replace B with (h * yp - (s * s + c * c) * cy) by (rewrite YP; field) end.
      rewrite Q, !Rmult_1_l. apply EQ. exact Hh. }
    rewrite apply_rotate. split; [apply (ON 1)|apply (ON (-1))]; lra || (toR; field).
  Qed.
  (** With the documented meaning of phi the end points are not on the ellipse. *)
  Theorem C63_rotation_refuted : EPS < 1 -> exists (a b : Pt) (rx ry phi : R), forall large flag, exists arc,
    earc_from_endpoints a b rx ry large flag phi = Ok (Some arc) /\
    ~ (on_ellipse (mkellipse (ea_c arc) (ea_rx arc) (ea_ry arc) phi) a /\
       on_ellipse (mkellipse (ea_c arc) (ea_rx arc) (ea_ry arc) phi) b).
  Proof.
    intros He1. exists (P 1 1), (P 0 0), 2, 1, (PI / 4). intros large flag.
    destruct (C63_from_endpoints_partial (P 1 1) (P 0 0) 2 1 large flag (PI / 4)) as (arc & Q & _ & _ & R1 & R2 & R3 & O1 & O2).
    - intros Q. injection Q; lra.
    - rewrite Rabs_pos_eq; lra.
    - rewrite Rabs_pos_eq; lra.
    - exists arc. split; [exact Q|]. intros [O3 O4]. rewrite (Rabs_pos_eq 2) in * by lra. rewrite (Rabs_pos_eq 1) in * by lra.
      unfold on_ellipse in *. cbn [ec erx ery ephi px py] in *. rewrite cos_neg, sin_neg in *.
      rewrite cos_PI4, sin_PI4 in *. set (h := 1 / R_sqrt.sqrt 2) in *.
      assert (HH : h * h = 1 / 2).
      { unfold h. assert (S : R_sqrt.sqrt 2 * R_sqrt.sqrt 2 = 2) by (apply sqrt_sqrt; lra).
        assert (R_sqrt.sqrt 2 <> 0) by (intro Z; rewrite Z in S; lra).
        transitivity (1 / (R_sqrt.sqrt 2 * R_sqrt.sqrt 2)); [field; auto|rewrite S; lra]. }
      set (k := ea_ry arc) in *. assert (RX : ea_rx arc = 2 * k) by lra. rewrite RX in *. clearbody k.
      set (cx := px (ea_c arc)) in *. set (cy := py (ea_c arc)) in *. clearbody cx cy h. change (T ROps) with R in *.
      assert (KK : k <> 0) by lra.
      assert (G : forall x y : R,
        x / (2 * k) * (x / (2 * k)) + y / k * (y / k) = 1 -> x * x + 4 * (y * y) = 4 * (k * k)).
      { intros x y H. apply Rmult_eq_reg_r with (/ (4 * (k * k))); [|apply Rinv_neq_0_compat; nra].
        transitivity 1; [rewrite <- H; field; auto|field; auto]. }
      apply G in O1, O2, O3, O4. rnum. 
      assert (H1 : forall z w : R, (z * h + w * h) * (z * h + w * h) = (z + w) * (z + w) / 2) by (intros; transitivity ((h * h) * ((z + w) * (z + w))); [ring|rewrite HH; field]).
      assert (H2 : forall z w : R, (z * h - w * h) * (z * h - w * h) = (z - w) * (z - w) / 2) by (intros; transitivity ((h * h) * ((z - w) * (z - w))); [ring|rewrite HH; field]).
      assert (H3 : forall z w : R, (z * h + w * - h) * (z * h + w * - h) = (z - w) * (z - w) / 2) by (intros; transitivity ((h * h) * ((z - w) * (z - w))); [ring|rewrite HH; field]).
      assert (H4 : forall z w : R, (z * h - w * - h) * (z * h - w * - h) = (z + w) * (z + w) / 2) by (intros; transitivity ((h * h) * ((z + w) * (z + w))); [ring|rewrite HH; field]).
      rewrite ?H1, ?H2, ?H3, ?H4 in *. nra.
  Qed.
  (** The reported sweep never exceeds half a turn, whatever the large-arc flag, and only depends on
      whether the two flags agree: the four arcs of the SVG specification collapse to two. *)
  Theorem C63_flags_refuted (a b : Pt) (rx ry : R) large flag phi arc arc' :
    earc_from_endpoints a b rx ry large flag phi = Ok (Some arc) ->
    earc_from_endpoints a b rx ry (negb large) (negb flag) phi = Ok (Some arc') ->
    ea_c arc = ea_c arc' /\ ea_start arc = ea_start arc' /\ ea_sweep arc = ea_sweep arc' /\ Rabs (ea_sweep arc) <= PI.
  Proof.
    unfold earc_from_endpoints. destruct (_ || _); [discriminate|].
    destruct (pydiv _ _); cbn [rbind]; [|discriminate]. destruct (pydiv _ _); cbn [rbind]; [|discriminate].
    destruct (if ltb _ _ then _ else _). destruct (pydiv _ _); cbn [rbind]; [|discriminate].
    destruct (pysqrt _); cbn [rbind]; [|discriminate]. destruct (pydiv _ _); cbn [rbind]; [|discriminate].
    destruct (pydiv _ _); cbn [rbind]; [|discriminate].
    replace (Bool.eqb (negb large) (negb flag)) with (Bool.eqb large flag) by (destruct large, flag; reflexivity).
    destruct (if Bool.eqb large flag then _ else _). intros Q1 Q2. injection Q1 as <-. injection Q2 as <-.
    cbn [ea_c ea_start ea_sweep]. repeat split. match goal with |- Rabs (angle2 ?o ?x ?y) <= _ => pose proof (angle2_range o x y) as R0 end.
    apply Rabs_le. lra.
  Qed.
End C63.
