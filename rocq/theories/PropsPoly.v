(** * PropsPoly: the polygon properties (C47-C49, C75, C76), over R.
    Specification: [PolySpec] (shoelace area, convex hull, simplification, ray crossings). *)
From Verif Require Import Num NumR Geom GeomR GeomSpec GeomProofs GeomProofs2 GeomProofs4 GeomProofs5 Polygon PolySpec BezierProofs
  PolyHull PolyHull2 PolyHull3 PolyProofs PolyProofs2 PolyProofs3 PolyProofs4 PolyProofs5 PropsGeom.
From Coq Require Import ZArith Reals Lra Lia Bool List Psatz Permutation.
Import ListNotations.
Local Open Scope R_scope.

Definition tri : list Pt := [P 0 0; P 4 0; P 0 3]%R.
Ltac in_cases := repeat match goal with
  | H : _ \/ _ |- _ => destruct H as [H|H]
  | H : False |- _ => destruct H
  | H : In _ _ |- _ => cbn in H
  | H : (_, _) = (_, _) |- _ => injection H; clear H; intros; subst
  end.
Lemma tri_convex : convex_ccw tri.
Proof.
  split.
  - cbn. lia.
  - unfold tri. constructor; [|constructor; [|constructor; [|constructor]]]; cbn; intros Q; in_cases; injection Q; intros; lra.
  - intros a b H v Hv. unfold cross3. cbn in H, Hv. in_cases; subst; cbn; lra.
  - intros a b c H1 H2. unfold cross3. cbn in H1, H2. in_cases; subst; cbn; try lra; exfalso; lra.
Qed.

(** ** C47: measures.  The code's area has the opposite sign of the documented one. *)
Theorem C47_area_sign_partial (l : list Pt) : area l = - signed_area l :> R.
Proof. apply area_signed. Qed.
Theorem C47_area_refuted : exists l : list Pt, convex_ccw l /\ 0 < signed_area l /\ (area l : R) < 0.
Proof.
  exists tri. assert (S : signed_area tri = 6) by (unfold signed_area, sum_over; cbn; lra). split; [|split].
  - apply tri_convex.
  - lra.
  - rewrite area_signed, S. lra.
Qed.
Theorem C47_area_rotate (a : Pt) l : area (l ++ [a]) = area (a :: l) :> R.
Proof. rewrite !area_signed, signed_area_rotate. reflexivity. Qed.
Theorem C47_area_reverse (l : list Pt) : area (rev l) = - area l :> R.
Proof. rewrite !area_signed, signed_area_rev. reflexivity. Qed.
Theorem C47_area_translate dx dy (l : list Pt) : area (map (moved dx dy) l) = area l :> R.
Proof. rewrite !area_signed, signed_area_moved. reflexivity. Qed.
Theorem C47_area_triangle (a b c : Pt) : area_triangle a b c = Rabs (signed_area [a; b; c]) :> R.
Proof.
  unfold area_triangle, signed_area, sum_over. cbn [cyclic_edges app combine fold_right]. rnum. toR.
  rewrite <- (Rabs_pos_eq 2) at 1 by lra. unfold Rdiv. rewrite <- (Rabs_pos_eq (/ Rabs 2)).
  - rewrite <- Rabs_mult. rewrite (Rabs_pos_eq 2) by lra. f_equal. destruct a as [a1 a2], b as [b1 b2], c as [c1 c2]. cbn [px py]. rnum. lra.
  - rewrite Rabs_pos_eq by lra. lra.
Qed.
Theorem C47_centroid_translate dx dy (l : list Pt) : (3 <= length l)%nat ->
  centroid (map (moved dx dy) l) = rmap (moved dx dy) (centroid l).
Proof. apply centroid_moved. Qed.
(** The centroid exists exactly when the area does not vanish; of a triangle it is the mean of the corners. *)
Theorem C47_centroid_defined (l : list Pt) : (3 <= length l)%nat ->
  (exists c, centroid l = Ok c) <-> signed_area l <> 0.
Proof.
  intros L. rewrite centroid_general by auto. destruct (Reqb (signed_area l) 0) eqn:Z; rbool.
  - split; [intros [c H]; discriminate|contradiction].
  - split; auto. intros _. eexists. reflexivity.
Qed.
Theorem C47_centroid_triangle (a b c : Pt) : signed_area [a; b; c] <> 0 ->
  centroid [a; b; c] = Ok (P ((px a + px b + px c) / 3)%R ((py a + py b + py c) / 3)%R).
Proof.
  intros H. rewrite centroid_general by (left; cbn; lia). destruct (Reqb _ 0) eqn:Z; rbool; [contradiction|]. f_equal.
  destruct a as [a1 a2], b as [b1 b2], c as [c1 c2]. change (T ROps) with R in *.
  unfold moment, signed_area, sum_over in *. cbn [cyclic_edges app combine fold_right px py] in *.
  apply pt_ext; cbn [px py]; toR; field; lra.
Qed.
Example C47_centroid_ex : centroid tri = Ok (P (4/3)%R 1%R).
Proof. unfold tri. rewrite C47_centroid_triangle; [f_equal; f_equal; cbn; lra|unfold signed_area, sum_over; cbn; lra]. Qed.
Theorem C47_bounding_box_partial (l : list Pt) : l <> [] ->
  (forall p, In p l -> px p <= FLT_MAX /\ py p <= FLT_MAX) ->
  (exists p, In p l /\ FLT_MIN <= px p) -> (exists p, In p l /\ FLT_MIN <= py p) ->
  (forall p, In p l -> in_box (bounding_box l) p) /\
  (exists p, In p l /\ px p = px (b1 (bounding_box l))) /\ (exists p, In p l /\ py p = py (b1 (bounding_box l))) /\
  (exists p, In p l /\ px p = px (b2 (bounding_box l))) /\ (exists p, In p l /\ py p = py (b2 (bounding_box l))).
Proof. apply bounding_box_spec. Qed.
Example C47_bounding_box_ex : exists p : Pt, In p tri /\ FLT_MIN <= px p.
Proof.
  exists (P 4 0)%R. split; [right; left; reflexivity|]. cbn [px]. unfold FLT_MIN. cbn [lit ROps]. unfold Rlit.
  assert (A : (22250738585072014 <= 4 * Z.pow_pos 10 324)%Z) by (vm_compute; discriminate).
  apply IZR_le in A. rewrite mult_IZR in A.
  assert (B : (0 < Z.pow_pos 10 324)%Z) by (vm_compute; reflexivity). apply IZR_lt in B.
  change (IZR 22250738585072014 / IZR (Z.pow_pos 10 324) <= 4). revert A B. generalize (IZR (Z.pow_pos 10 324)). intros d A B.
  apply Rmult_le_reg_r with d; auto. unfold Rdiv. rewrite Rmult_assoc, Rinv_l by lra. lra.
Qed.
(** With only negative abscissas the box's right side is the least positive normal double, not a vertex. *)
Theorem C47_bounding_box_refuted (l : list Pt) : l <> [] -> (forall p, In p l -> px p < 0) ->
  0 < px (b2 (bounding_box l)) /\ ~ exists p, In p l /\ px p = px (b2 (bounding_box l)).
Proof.
  intros N H. destruct (bounding_box_negative l N H) as [A B]. split; auto. intros (p & Ip & Q). apply H in Ip. rewrite Q in Ip. 
  change (T ROps) with R in *. lra.
Qed.

(** ** C48: convex hull.  [separated]: two input points are equal or at least EPSILON apart. *)
Theorem C48_convex_hull `{E : Epsilon ROps} (pts : list Pt) : 0 < EPS -> separated pts -> is_hull pts (convex_hull pts).
Proof. intros He. apply hull_correct; auto. Qed.
Example C48_ex : @separated eps6 [P 0 0; P 4 0; P 2 1; P 4 4; P 0 4; P 0 0]%R.
Proof.
  unfold separated. intros p q Hp Hq. cbn in Hp, Hq.
  repeat destruct Hp as [<-|Hp]; try destruct Hp; repeat destruct Hq as [<-|Hq]; try destruct Hq; try (left; reflexivity); right;
  unfold euclid, EPS, eps6; cbn [px py]; apply Rsqr_incr_0_var; try apply sqrt_pos; rewrite Rsqr_sqrt; unfold Rsqr; lra.
Qed.
(** The hull does not depend on the order or repetition of the input: every input point is inside each hull. *)
Theorem C48_hull_encloses_hull `{E : Epsilon ROps} (pts : list Pt) : 0 < EPS -> separated pts ->
  forall a b p, In (a, b) (cyclic_edges (convex_hull pts)) -> In p (convex_hull pts) -> 0 <= cross3 a b p.
Proof.
  intros He S a b p H Hp. pose proof (hull_correct He pts S) as C.
  apply (hull_encloses _ _ C a b H). apply (hull_vertices _ _ C p Hp).
Qed.

(** ** C49: Ramer-Douglas-Peucker *)
Theorem C49_simplify_partial `{E : Epsilon ROps} (l : list Pt) (tol : R) : 0 < EPS -> 0 <= tol ->
  exists out, simplify_rdp l tol = Ok out /\
    ((2 <= length l)%nat -> simplification tol l out) /\ ((length l < 2)%nat -> out = l).
Proof. intros He Ht. unfold simplify_rdp. apply rdp_ok; auto. Qed.
(** If the whole polyline is within tolerance of its chord, only the two ends remain. *)
Theorem C49_flat `{E : Epsilon ROps} (l : list Pt) (tol : R) : 0 < EPS -> 0 <= tol -> (2 <= length l)%nat ->
  EPS <= euclid (nth 0 l (P 0 0)%R) (nth (length l - 1) l (P 0 0)%R) ->
  (forall p, In p l -> exists q, on_segment (Ln (nth 0 l (P 0 0)%R) (nth (length l - 1) l (P 0 0)%R)) q /\ euclid q p <= tol) ->
  simplify_rdp l tol = Ok [nth 0 l (P 0 0)%R; nth (length l - 1) l (P 0 0)%R].
Proof. intros He. apply rdp_flat; auto. Qed.
Example C49_flat_ex : @simplify_rdp ROps eps6 [P 0 0; P 1 0; P 3 0; P 4 0]%R (1/10) = Ok [P 0 0; P 4 0]%R.
Proof.
  apply (@C49_flat eps6); try (cbn; lia); try (unfold EPS, eps6; lra).
  - cbn [nth length Nat.sub]. unfold euclid, EPS, eps6. cbn [px py]. apply Rsqr_incr_0_var; try apply sqrt_pos; rewrite Rsqr_sqrt; unfold Rsqr; lra.
  - intros p Hp. exists p. split.
    + cbn [nth length Nat.sub]. cbn in Hp. repeat destruct Hp as [<-|Hp]; try destruct Hp; [exists 0|exists (1/4)|exists (3/4)|exists 1];
        (split; [lra|]); unfold at_param; cbn; f_equal; lra.
    + unfold euclid. change (T ROps) with R. rewrite !Rminus_diag_eq by reflexivity. unfold Rsqr. rewrite Rmult_0_l, Rplus_0_l, sqrt_0. lra.
Qed.
(** A negative tolerance never terminates on collinear points, whatever the depth allowed. *)
Theorem C49_negative_tolerance_refuted `{E : Epsilon ROps} : 0 < EPS < 1 -> forall tol, tol < 0 -> forall fuel,
  rdp fuel [P 0 0; P 1 0; P 3 0; P 4 0]%R tol = Raise OutOfFuel.
Proof.
  intros [He H1] tol Ht. apply rdp_negative; auto. intros p Hp.
  assert (S : on_segment (Ln (P 0 0)%R (P 4 0)%R : Line_) p).
  { cbn in Hp. repeat destruct Hp as [<-|Hp]; try destruct Hp; [exists (1/4)|exists (3/4)]; (split; [lra|]); unfold at_param; cbn; f_equal; lra. }
  destruct (ldist_segment He (Ln (P 0 0)%R (P 4 0)%R) p) as (q & -> & _ & M). f_equal.
  assert (L : EPS <= seg_len (Ln (P 0 0)%R (P 4 0)%R)).
  { unfold seg_len, euclid. cbn [px py p1 p2]. replace ((0 - 4)² + (0 - 0)²) with (4²) by (unfold Rsqr; ring). rewrite sqrt_Rsqr by lra. lra. }
  pose proof (M L p S) as K. assert (Z : euclid p p = 0).
  { unfold euclid. change (T ROps) with R. rewrite !Rminus_diag_eq by reflexivity. unfold Rsqr. rewrite Rmult_0_l, Rplus_0_l, sqrt_0. reflexivity. }
  pose proof (euclid_pos q p). lra.
Qed.

(** ** C75: point in polygon *)
(** point_inside is the parity of the number of edges crossed by the horizontal ray to the right. *)
Theorem C75_even_odd (l : list Pt) (p : Pt) (f : Pt * Pt -> bool) : (forall a b, f (a, b) = true <-> ray_crosses p a b) ->
  poly_inside l p = Nat.odd (length (filter f (cyclic_edges l))).
Proof.
  intros H. rewrite inside_parity. f_equal. f_equal. apply filter_ext. intros [a b].
  pose proof (crosses_spec p a b) as C. pose proof (H a b) as D.
  destruct (crosses p a b), (f (a, b)); auto; [symmetry|]; apply D, C || apply C, D; reflexivity.
Qed.
(** The answer does not depend on the starting vertex or the direction, and is unchanged by moving everything. *)
Lemma crosses_sym (p a b : Pt) : crosses p a b = crosses p b a.
Proof.
  destruct (crosses p a b) eqn:A, (crosses p b a) eqn:B; auto; exfalso; 
  [apply crosses_spec in A; assert (crosses p b a = true); [apply crosses_spec|congruence]
  |apply crosses_spec in B; assert (crosses p a b = true); [apply crosses_spec|congruence]].
  - destruct A as [S (q & (u & U & ->) & Y & X)]. split; [tauto|]. exists (at_param (Ln a b) u). repeat split; auto.
    exists (1 - u). split; [lra|]. destruct a as [a1 a2], b as [b1 b2]. unfold at_param. cbn [px py p1 p2]. apply pt_ext; cbn [px py]; toR; ring.
  - destruct B as [S (q & (u & U & ->) & Y & X)]. split; [tauto|]. exists (at_param (Ln b a) u). repeat split; auto.
    exists (1 - u). split; [lra|]. destruct a as [a1 a2], b as [b1 b2]. unfold at_param. cbn [px py p1 p2]. apply pt_ext; cbn [px py]; toR; ring.
Qed.
Theorem C75_rotate (a : Pt) l p : poly_inside (l ++ [a]) p = poly_inside (a :: l) p.
Proof. rewrite !inside_parity. f_equal. apply Permutation_length, filter_perm, cyclic_rotate. Qed.
Theorem C75_reverse (l : list Pt) p : poly_inside (rev l) p = poly_inside l p.
Proof.
  rewrite !inside_parity. f_equal. rewrite (Permutation_length (filter_perm _ _ _ (cyclic_rev l))).
  induction (cyclic_edges l) as [|[a b] r IH]; [reflexivity|]. cbn [map filter]. rewrite (crosses_sym p b a). destruct (crosses p a b); cbn; auto.
Qed.
Theorem C75_translate dx dy (l : list Pt) p : poly_inside (map (moved dx dy) l) (moved dx dy p) = poly_inside l p.
Proof.
  rewrite !inside_parity. f_equal. rewrite cyclic_map. induction (cyclic_edges l) as [|[a b] r IH]; [reflexivity|]. cbn [map filter].
  assert (Q : crosses (moved dx dy p) (moved dx dy a) (moved dx dy b) = crosses p a b).
  { unfold crosses, moved. cbn [px py]. change (T ROps) with R in *.
    assert (L : forall x y z : R, Rltb (x + z) (y + z) = Rltb x y).
    { intros x y z. destruct (Rltb x y) eqn:Q; rbool; lra. }
    rewrite !L. f_equal.
    replace ((px a + dx - (px b + dx)) * (py p + dy - (py b + dy)) / (py a + dy - (py b + dy)) + (px b + dx))
      with ((px a - px b) * (py p - py b) / (py a - py b) + px b + dx).
    - apply L.
    - replace (py a + dy - (py b + dy)) with (py a - py b) by ring. replace (px a + dx - (px b + dx)) with (px a - px b) by ring.
      replace (py p + dy - (py b + dy)) with (py p - py b) by ring. ring. }
  rewrite Q. destruct (crosses p a b); cbn; auto.
Qed.
(** Points strictly inside a strictly convex counterclockwise polygon are found, points strictly outside are not;
    by C75_reverse the same holds for clockwise ones. *)
Theorem C75_convex_inside (h : list Pt) : convex_ccw h -> forall p,
  (forall a b, In (a, b) (cyclic_edges h) -> 0 < cross3 a b p) -> poly_inside h p = true.
Proof. apply inside_complete. Qed.
Theorem C75_convex_outside (h : list Pt) : convex_ccw h -> forall p,
  (exists a b, In (a, b) (cyclic_edges h) /\ cross3 a b p < 0) -> poly_inside h p = false.
Proof.
  intros C p (a & b & H & L). destruct (poly_inside h p) eqn:Q; auto. pose proof (inside_sound h C p Q a b H). lra.
Qed.
(** Every input point strictly inside the convex hull of the input is reported inside it. *)
Theorem C75_hull `{E : Epsilon ROps} (pts : list Pt) p : 0 < EPS -> separated pts -> (3 <= length (convex_hull pts))%nat ->
  (forall a b, In (a, b) (cyclic_edges (convex_hull pts)) -> 0 < cross3 a b p) -> poly_inside (convex_hull pts) p = true.
Proof. intros He S L. apply C75_convex_inside. apply (is_hull_convex pts); auto. apply hull_correct; auto. Qed.
Example C75_ex : poly_inside tri (P 1 1)%R = true /\ poly_inside tri (P 3 2)%R = false.
Proof.
  pose proof tri_convex as C.
  split.
  - apply C75_convex_inside; auto. intros a b H. cbn in H. unfold cross3. in_cases; subst; cbn; lra.
  - apply C75_convex_outside; auto. exists (P 4 0)%R, (P 0 3)%R. split; [cbn; auto|]. unfold cross3. cbn. lra.
Qed.

(** ** C76: clipping a segment with a polygon *)
Theorem C76_on_segment_partial `{E : Epsilon ROps} (l : list Pt) (ln : Line_) out : 0 < EPS -> poly_intersect_line l ln = Ok out ->
  forall g, In g out ->
    (exists u v, - EPS <= u <= 1 + EPS /\ - EPS <= v <= 1 + EPS /\ p1 g = at_param ln u /\ p2 g = at_param ln v) /\
    (g = ln \/ EPS <= seg_len g).
Proof.
  intros He H g Hg. destruct (clip_on_line He l ln out H g Hg) as ((u & U & A) & (v & V & B) & C).
  split; [exists u, v; auto|]. destruct C as [C|C]; auto. right. apply peq_false in C; auto.
Qed.
Theorem C76_diagonal_refuted `{E : Epsilon ROps} : 0 < EPS <= 1 ->
  exists (sq : list Pt) (ln : Line_) q, on_segment ln q /\ poly_inside sq q = true /\ poly_intersect_line sq ln = Ok [].
Proof. intros [He H1]. exists sq4, diag, (P 2 2)%R. destruct (clip_diag He H1) as (A & B & C). auto. Qed.
(** A segment strictly inside, away from every edge, is returned unchanged; one away from the polygon yields nothing. *)
Theorem C76_untouched `{E : Epsilon ROps} (l : list Pt) (ln : Line_) : 0 < EPS -> l <> [] ->
  (forall a b, In (a, b) (cyclic_edges l) \/ In (a, b) (consecutive l) ->
     forall u v, - EPS <= u <= 1 + EPS -> - EPS <= v <= 1 + EPS -> at_param ln u <> at_param (Ln a b) v) ->
  poly_intersect_line l ln = Ok (if poly_inside l (p1 ln) && poly_inside l (p2 ln) then [ln] else []).
Proof.
  intros He N H. destruct l as [|v0 r]; [congruence|]. unfold poly_intersect_line.
  match goal with |- context [flat_map ?f ?e] => assert (Z : flat_map f e = []) end.
  { match goal with |- flat_map ?f ?e = _ => assert (I : forall a b, In (a, b) e -> In (a, b) (cyclic_edges (v0 :: r)) \/ In (a, b) (consecutive (v0 :: r))) end.
    { intros a b. destruct (peq v0 (last r v0)).
      - rewrite pairs_from_consecutive. auto.
      - intros K. left. apply (Permutation_in _ (cyc_pairs_perm (v0 :: r))). exact K. }
    revert I. match goal with |- _ -> flat_map ?f ?e = _ => generalize e end. intros e I.
    induction e as [|[a b] e IH]; [reflexivity|]. cbn [flat_map]. rewrite IH by (intros; apply I; right; auto).
    destruct (intersection_mu ln (Ln a b) true false false) as [mu|] eqn:M; [|reflexivity]. exfalso.
    destruct (intersection_mu_spec _ _ _ _ _ _ M He) as (_ & nu & Q & W1 & W2).
    apply (H a b (I a b (or_introl eq_refl)) mu nu); auto. }
  rewrite Z. reflexivity.
Qed.
Example C76_untouched_ex : @poly_intersect_line ROps eps6 sq4 (Ln (P 1 1) (P 2 3))%R = Ok [Ln (P 1 1) (P 2 3)]%R.
Proof.
  assert (C : convex_ccw sq4).
  { split.
    - cbn. lia.
    - unfold sq4. constructor; [|constructor; [|constructor; [|constructor; [|constructor]]]]; cbn; intros Q; in_cases; injection Q; intros; lra.
    - intros a b H v Hv. unfold cross3. cbn in H, Hv. in_cases; subst; cbn; lra.
    - intros a b c H1 H2. unfold cross3. cbn in H1, H2. in_cases; subst; cbn; try lra; exfalso; lra. }
  rewrite (@C76_untouched eps6); [|unfold EPS, eps6; lra|discriminate|].
  - rewrite !(C75_convex_inside sq4 C); [reflexivity| |]; intros a b H; unfold cross3; cbn in H; in_cases; subst; cbn; lra.
  - intros a b H u v U V Q. unfold EPS, eps6 in *. cbn in H.
    in_cases; subst; unfold at_param in Q; cbn [px py p1 p2] in Q; injection Q; intros; change (T ROps) with R in *; lra.
Qed.
Example C47_sizes_ex : (3 <= length tri)%nat /\ signed_area tri <> 0 /\ tri <> [].
Proof. unfold signed_area, sum_over. cbn. repeat split; try lia; try lra. discriminate. Qed.
