(** * PropsVoronoiExt: what the Voronoi extension draws (C163, C164). *)
From Verif Require Import Num NumR NumF64 Geom GeomR GeomSpec GeomProofs GeomProofs3 GeomProofs5 Polygon PolySpec Voronoi VoronoiSpec VoronoiExt VoronoiExtSpec VoronoiExact PolyProofs PolyProofs5
  PropsGeom PropsPoly PropsVoronoi.
From Coq Require Import ZArith QArith Qabs Reals Lra Lia Bool List Psatz Permutation.
Import ListNotations.
Local Open Scope R_scope.

Section Clip.
  Context {E : Epsilon ROps} (He : 0 < EPS).
  Lemma at_param_sub (l : Line_) u0 u1 (m : Line_) z : 0 <= u0 -> u0 <= u1 -> u1 <= 1 -> p1 m = at_param l u0 -> p2 m = at_param l u1 ->
    on_segment m z <-> exists u, u0 <= u <= u1 /\ z = at_param l u.
  Proof.
    intros A B C M1 M2. unfold on_segment. split.
    - intros (v & V & ->). exists (u0 + v * (u1 - u0)). split; [nra|]. unfold at_param. rewrite M1, M2. unfold at_param. cbn [px py]. f_equal; ring.
    - intros (u & U & ->). destruct (Req_dec u0 u1) as [Q|Q].
      + exists 0. split; [lra|]. unfold at_param. rewrite M1, M2. unfold at_param. cbn [px py]. assert (u = u0) by lra. subst. f_equal; ring.
      + exists ((u - u0) / (u1 - u0)). assert (D : 0 < u1 - u0) by lra. split.
        * split; [apply Rmult_le_pos; [lra|left; now apply Rinv_0_lt_compat]|]. apply Rmult_le_reg_r with (u1 - u0); [lra|]. unfold Rdiv. rewrite Rmult_assoc, Rinv_l by lra. lra.
        * unfold at_param. rewrite M1, M2. unfold at_param. cbn [px py]. f_equal; field; lra.
  Qed.
  Lemma clip_part (b : Box_) (l m : Line_) z : clip_line b l = Some m -> on_segment m z -> on_segment l z /\ near_box EPS b z.
  Proof.
    intros H S. destruct (C41_clip b l m He H) as (u0 & u1 & A & B & C & M1 & M2 & K & _).
    apply (at_param_sub l u0 u1 m z A B C M1 M2) in S. destruct S as (u & U & ->). split; [exists u; split; [lra|reflexivity]|]. apply K. exact U.
  Qed.
  Lemma clip_whole (b : Box_) (l : Line_) z : not_tiny (px (p2 l) - px (p1 l)) -> not_tiny (py (p2 l) - py (p1 l)) ->
    on_segment l z -> in_box b z -> exists m, clip_line b l = Some m /\ on_segment m z.
  Proof.
    intros T1 T2 (u & U & ->) I. destruct (clip_line b l) as [m|] eqn:H.
    - exists m. split; [reflexivity|]. destruct (C41_clip b l m He H) as (u0 & u1 & A & B & C & M1 & M2 & _ & K).
      apply (at_param_sub l u0 u1 m _ A B C M1 M2). exists u. split; [|reflexivity]. apply (K T1 T2); auto.
    - exfalso. apply (C41_clip_none b l He H T1 T2 u U I).
  Qed.
  Lemma is_zero_far (v : R) : EPS <= Rabs v -> is_zero (N:=ROps) v = false.
  Proof.
    intros H. unfold is_zero. rnum. apply andb_false_iff. destruct (Rle_lt_dec v (-EPS)) as [L|L]; [left|right].
    - apply Rltb_false. lra.
    - apply Rltb_false. destruct (Rle_lt_dec 0 v); [rewrite Rabs_pos_eq in H by lra; lra|]. rewrite Rabs_left in H by lra. lra.
  Qed.
  Lemma is_zero_near (v : R) : Rabs v < EPS -> is_zero (N:=ROps) v = true.
  Proof. intros H. apply Rabs_def2 in H. unfold is_zero. rnum. apply andb_true_iff. split; apply Rltb_true; lra. Qed.
  Lemma point_inside_within (b : Box_) p : point_inside b p = true <-> within b p.
  Proof. unfold point_inside, xmin, xmax, ymin, ymax, within. rnum. rewrite !andb_true_iff, !Rltb_true. tauto. Qed.
  Lemma other_end_on (box : Box_) (X : ROps) p (o : vout ROps) (a b c : R) : vo_line o = (a, b, c) -> EPS <= Rabs b ->
    exists y : ROps, other_end box X p (vo_line o) = Ok (P X y) /\ a * X + b * y = c.
  Proof.
    intros -> B. unfold other_end. rewrite is_zero_far by exact B. assert (b <> 0) by (intros ->; rewrite Rabs_R0 in B; lra).
    exists ((c - X * a) / b). split; [|field; auto]. unfold pydiv. rnum. destruct (Reqb b 0) eqn:Q; rbool; [contradiction|]. reflexivity.
  Qed.
End Clip.

(** ** C163: drawn Voronoi edges *)
(** Every segment drawn is a part of its edge and lies on the page (up to EPSILON). *)
Theorem C163_part `{E : Epsilon ROps} (box : Box_) (o : vout ROps) (a b c : R) m : 0 < EPS -> clip_edge box o = Ok (Some m) ->
  vo_line o = (a, b, c) -> ends_on (vo_p1 o) (vo_p2 o) a b c -> EPS <= Rabs b \/ vo_p1 o <> None /\ vo_p2 o <> None ->
  forall z, on_segment m z -> on_edge (vo_p1 o) (vo_p2 o) a b c z /\ near_box EPS box z.
Proof.
  intros He H L Eo V z Hz. unfold clip_edge in H. unfold ends_on in Eo.
  destruct (vo_p1 o) as [p|], (vo_p2 o) as [q|]; cbn [on_edge].
  - injection H as H. exact (clip_part He box _ m z H Hz).
  - destruct V as [V|[_ V]]; [|contradiction]. unfold clip_open in H. destruct (point_inside box p) eqn:I; [|discriminate]. cbn [negb] in H. apply point_inside_within in I.
    destruct (other_end_on He box (xmax box) p o a b c L V) as (y & Q & Qy). rewrite Q in H. injection H as H.
    destruct (clip_part He box _ m z H Hz) as ((u & U & ->) & K). split; [|exact K]. cbn [p1 p2 px py] in *. unfold at_param. cbn [p1 p2 px py].
    specialize (Eo p (or_introl eq_refl)). destruct I as (I & _). change (px (b2 box)) with (xmax box) in I. toR. split.
    + replace (a * (px p + u * (xmax box - px p)) + b * (py p + u * (y - py p))) with ((1 - u) * (a * px p + b * py p) + u * (a * xmax box + b * y)) by ring. rewrite Eo, Qy. ring.
    + nra.
  - destruct V as [V|[V _]]; [|contradiction]. unfold clip_open in H. destruct (point_inside box q) eqn:I; [|discriminate]. cbn [negb] in H. apply point_inside_within in I.
    destruct (other_end_on He box (xmin box) q o a b c L V) as (y & Q & Qy). rewrite Q in H. injection H as H.
    destruct (clip_part He box _ m z H Hz) as ((u & U & ->) & K). split; [|exact K]. cbn [p1 p2 px py] in *. unfold at_param. cbn [p1 p2 px py].
    specialize (Eo q (or_intror eq_refl)). destruct I as (I & _). change (px (b1 box)) with (xmin box) in I. toR. split.
    + replace (a * (px q + u * (xmin box - px q)) + b * (py q + u * (y - py q))) with ((1 - u) * (a * px q + b * py q) + u * (a * xmin box + b * y)) by ring. rewrite Eo, Qy. ring.
    + nra.
  - discriminate.
Qed.
(** The part of an edge on the page is drawn completely, if the edge has both ends or its only end is inside of the page.
    (A move of less than EPSILON in one direction only counts as none, hence the conditions on the size of the steps.) *)
Definition steps_ok `{E : Epsilon ROps} (box : Box_) (o : vout ROps) (a b : R) : Prop :=
  match vo_p1 o, vo_p2 o with
  | Some p, Some q => not_tiny (px q - px p) /\ not_tiny (py q - py p)
  | Some p, None => within box p /\ EPS <= Rabs b /\ not_tiny (px (b2 box) - px p) /\ not_tiny (a / b * (px (b2 box) - px p))
  | None, Some q => within box q /\ EPS <= Rabs b /\ not_tiny (px (b1 box) - px q) /\ not_tiny (a / b * (px (b1 box) - px q))
  | None, None => False
  end.
Lemma not_tiny_opp `{E : Epsilon ROps} x : not_tiny x -> not_tiny (- x).
Proof. intros [->|H]; [left; ring|right; rewrite Rabs_Ropp; exact H]. Qed.
Theorem C163_whole_partial `{E : Epsilon ROps} (box : Box_) (o : vout ROps) (a b c : R) z : 0 < EPS ->
  vo_line o = (a, b, c) -> ends_on (vo_p1 o) (vo_p2 o) a b c -> steps_ok box o a b ->
  on_edge (vo_p1 o) (vo_p2 o) a b c z -> in_box box z -> exists m, clip_edge box o = Ok (Some m) /\ on_segment m z.
Proof.
  intros He L Eo S Hz I. unfold steps_ok in S. unfold clip_edge. unfold ends_on in Eo. destruct (vo_p1 o) as [p|], (vo_p2 o) as [q|]; cbn [on_edge] in Hz; [| | |destruct S].
  - destruct (clip_whole He box (Ln p q) z) as (m & M & Z); cbn [p1 p2]; try tauto. exists m. now rewrite M.
  - destruct S as (W & V & T1 & T2). specialize (Eo p (or_introl eq_refl)). unfold clip_open. pose proof W as W'. apply point_inside_within in W. rewrite W. cbn [negb].
    destruct (other_end_on He box (xmax box) p o a b c L V) as (y & Q & Qy). rewrite Q. cbn [rbind].
    assert (NZ : b <> 0) by (intros ->; rewrite Rabs_R0 in V; lra). change (xmax box) with (px (b2 box)) in *.
    assert (Ey : y - py p = - (a / b * (px (b2 box) - px p))).
    { apply Rmult_eq_reg_l with b; [|exact NZ]. replace (b * - (a / b * (px (b2 box) - px p))) with (- (a * (px (b2 box) - px p))) by (field; auto). lra. }
    destruct (clip_whole He box (Ln p (P (px (b2 box)) (y : ROps))) z) as (m & M & Z); cbn [p1 p2 px py]; auto.
    + toR. rewrite Ey. now apply not_tiny_opp.
    + destruct Hz as (Hl & Hx). destruct W' as (W1 & _). destruct I as (I1 & _). toR.
      assert (D : 0 < px (b2 box) - px p) by lra. exists ((px z - px p) / (px (b2 box) - px p)). split.
      * split; [apply Rmult_le_pos; [lra|left; now apply Rinv_0_lt_compat]|]. apply Rmult_le_reg_r with (px (b2 box) - px p); [lra|]. unfold Rdiv. rewrite Rmult_assoc, Rinv_l by lra. lra.
      * apply pt_ext; unfold at_param; cbn [p1 p2 px py]. { symmetry. toR. field. lra. } toR. rewrite Ey.
        apply Rmult_eq_reg_l with b; [|exact NZ]. replace (b * (py p + (px z - px p) / (px (b2 box) - px p) * - (a / b * (px (b2 box) - px p)))) with (b * py p - a * (px z - px p)) by (field; lra). lra.
    + exists m. toR. now rewrite M.
  - destruct S as (W & V & T1 & T2). specialize (Eo q (or_intror eq_refl)). unfold clip_open. pose proof W as W'. apply point_inside_within in W. rewrite W. cbn [negb].
    destruct (other_end_on He box (xmin box) q o a b c L V) as (y & Q & Qy). rewrite Q. cbn [rbind].
    assert (NZ : b <> 0) by (intros ->; rewrite Rabs_R0 in V; lra). change (xmin box) with (px (b1 box)) in *.
    assert (Ey : y - py q = - (a / b * (px (b1 box) - px q))).
    { apply Rmult_eq_reg_l with b; [|exact NZ]. replace (b * - (a / b * (px (b1 box) - px q))) with (- (a * (px (b1 box) - px q))) by (field; auto). lra. }
    destruct (clip_whole He box (Ln q (P (px (b1 box)) (y : ROps))) z) as (m & M & Z); cbn [p1 p2 px py]; auto.
    + toR. rewrite Ey. now apply not_tiny_opp.
    + destruct Hz as (Hl & Hx). destruct W' as (W1 & _). destruct I as (I1 & _). toR.
      assert (D : 0 < px q - px (b1 box)) by lra. exists ((px q - px z) / (px q - px (b1 box))). split.
      * split; [apply Rmult_le_pos; [lra|left; now apply Rinv_0_lt_compat]|]. apply Rmult_le_reg_r with (px q - px (b1 box)); [lra|]. unfold Rdiv. rewrite Rmult_assoc, Rinv_l by lra. lra.
      * apply pt_ext; unfold at_param; cbn [p1 p2 px py]. { symmetry. toR. field. lra. } toR. rewrite Ey.
        apply Rmult_eq_reg_l with b; [|exact NZ]. replace (b * (py q + (px q - px z) / (px q - px (b1 box)) * - (a / b * (px (b1 box) - px q)))) with (b * py q - a * (px z - px q)) by (field; lra). lra.
    + exists m. toR. now rewrite M.
Qed.
(** An upright edge with one end inside of the page: what is drawn lies on the line of the edge. *)
Theorem C163_upright_partial `{E : Epsilon ROps} (box : Box_) (o : vout ROps) (a b c : R) m : 0 < EPS -> clip_edge box o = Ok (Some m) ->
  vo_line o = (a, b, c) -> ends_on (vo_p1 o) (vo_p2 o) a b c -> b = 0 ->
  forall z, on_segment m z -> a * px z = c /\ near_box EPS box z.
Proof.
  intros He H L Eo Hb z Hz. unfold clip_edge in H. unfold ends_on in Eo.
  assert (Z0 : is_zero (N:=ROps) b = true) by (apply is_zero_near; rewrite Hb, Rabs_R0; exact He).
  assert (G : forall (p : Pt) X, (a * px p + b * py p = c)%R -> clip_open box X p (vo_line o) = Ok (Some m) -> a * px z = c /\ near_box EPS box z).
  { intros p X Ep K. unfold clip_open in K. destruct (negb (point_inside box p)); [discriminate|]. rewrite L in K. unfold other_end in K. rewrite Z0 in K.
    unfold pydiv in K. rnum. destruct (Reqb a 0) eqn:Q; [discriminate|]. apply Reqb_false in Q. cbn [rbind] in K. injection K as K.
    match type of K with clip_line _ (Ln _ (P _ ?y)) = _ => set (yy := y) in * end.
    destruct (clip_part He box _ m z K Hz) as ((u & U & ->) & N). split; [|exact N]. unfold at_param. cbn [p1 p2 px py]. toR.
    assert (Ep' : a * px p = c) by (rewrite Hb in Ep; lra).
    transitivity ((1 - u) * (a * px p) + u * (a * (c / a))); [ring|]. rewrite Ep'. field. exact Q. }
  destruct (vo_p1 o) as [p|] eqn:O1, (vo_p2 o) as [q|] eqn:O2.
  - injection H as H. destruct (clip_part He box _ m z H Hz) as ((u & U & ->) & N). split; [|exact N].
    pose proof (Eo p (or_introl eq_refl)) as E1. pose proof (Eo q (or_intror eq_refl)) as E2. unfold at_param. cbn [p1 p2 px py]. rewrite Hb in E1, E2. toR.
    transitivity ((1 - u) * (a * px p + 0 * py p) + u * (a * px q + 0 * py q)); [ring|]. rewrite E1, E2. ring.
  - apply (G p (xmax box)); auto.
  - apply (G q (xmin box)); auto.
  - discriminate.
Qed.
Lemma is_zero_0 `{E : Epsilon ROps} (He : 0 < EPS) : is_zero (N:=ROps) 0 = true.
Proof. apply is_zero_near. rewrite Rabs_R0. exact He. Qed.
(** The module's function draws the same for every edge that has its only end, or both ends, inside of the page. *)
Theorem C163_module_same `{E : Epsilon ROps} (box : Box_) (o : vout ROps) (a b c : R) : 0 < EPS -> vo_line o = (a, b, c) -> b = 0 \/ EPS <= Rabs b ->
  vo_p1 o <> None \/ vo_p2 o <> None -> (forall p, vo_p1 o = Some p \/ vo_p2 o = Some p -> within box p) ->
  module_edge box o = clip_edge box o.
Proof.
  intros He L Hb Hs Hi.
  assert (G : forall (p : Pt) X, within box p -> module_open box X (Some p) (vo_line o) = clip_open box X p (vo_line o)).
  { intros p X Hp. unfold clip_open. apply point_inside_within in Hp. rewrite Hp. cbn [negb]. rewrite L. unfold module_open, other_end.
    destruct Hb as [->|Hb].
    - rewrite (is_zero_0 He). rnum. replace (Reqb 0 0) with true by (symmetry; now apply Reqb_true). destruct (pydiv c a); reflexivity.
    - rewrite (is_zero_far b Hb). rnum. replace (Reqb b 0) with false by (symmetry; apply Reqb_false; intros ->; rewrite Rabs_R0 in Hb; lra).
      destruct (pydiv _ b); reflexivity. }
  unfold module_edge, clip_edge. destruct (vo_p1 o) as [p|] eqn:O1, (vo_p2 o) as [q|] eqn:O2.
  - reflexivity.
  - apply G, Hi. auto.
  - apply G, Hi. auto.
  - destruct Hs; congruence.
Qed.
(** of the list of edges: exactly these segments, in the order of the edges *)
Lemma segments_in {N : NumOps} {E : Epsilon N} (box : box N) l out : voronoi_segments box l = Ok out ->
  (forall m, In m out <-> exists o, In o l /\ clip_edge box o = Ok (Some m)) /\ (forall o, In o l -> exists r, clip_edge box o = Ok r).
Proof.
  revert out. induction l as [|o r IH]; cbn; intros out H.
  - injection H as <-. split; [|intros ? []]. intros m. split; [intros []|intros (? & [] & _)].
  - inv_bind H. inv_bind H. destruct (IH _ E1) as (A & B). split.
    + intros m. destruct x as [m0|]; injection H as <-; cbn [In]; rewrite A; split.
      * intros [<-|(o' & K & Q)]; [exists o; auto|exists o'; auto].
      * intros (o' & [<-|K] & Q); [left; congruence|right; eauto].
      * intros (o' & K & Q); exists o'; auto.
      * intros (o' & [<-|K] & Q); [congruence|eauto].
    + intros o' [<-|K]; eauto.
Qed.
(** The whole drawing: each segment on the page layer consists of points of the page that are equally far from two of the input points. *)
Theorem C163_equidistant `{E : Epsilon ROps} (box : Box_) hull delaunay (pts : list Pt) d vs cs ds m : 0 < EPS ->
  voronoi_diagram delaunay pts = Ok d -> draw_voronoi box hull d = Ok (vs, cs, ds) ->
  (forall o a b c, In o (d_edges d) -> vo_line o = (a, b, c) -> ends_on (vo_p1 o) (vo_p2 o) a b c /\ (EPS <= Rabs b \/ vo_p1 o <> None /\ vo_p2 o <> None)) ->
  In m vs -> exists p q, In p pts /\ In q pts /\ p <> q /\ forall z, on_segment m z -> euclid z p = euclid z q /\ near_box EPS box z.
Proof.
  intros He Hd H V Hm. unfold draw_voronoi in H. inv_bind H. inv_bind H. injection H as <- <- <-.
  destruct (segments_in _ _ _ E0) as (A & _). apply A in Hm. destruct Hm as (o & Ho & C). destruct (vo_line o) as [[a b] c] eqn:L.
  destruct (V o a b c Ho L) as (Eo & Vo). destruct (C156_bisector delaunay pts d o a b c Hd Ho L) as (p & q & P1 & P2 & Ne & B & _).
  exists p, q. split; [exact P1|]. split; [exact P2|]. split; [exact Ne|]. intros z Hz.
  destruct (C163_part box o a b c m He C L Eo Vo z Hz) as (K & N). split; [|exact N]. apply B.
  clear - K Eo. unfold ends_on in Eo. destruct (vo_p1 o) as [p|], (vo_p2 o) as [q|]; cbn [on_edge] in K; try tauto.
  destruct K as (u & U & ->). unfold at_param. cbn [p1 p2 px py]. pose proof (Eo p (or_introl eq_refl)). pose proof (Eo q (or_intror eq_refl)).
  toR. replace (a * (px p + u * (px q - px p)) + b * (py p + u * (py q - py p))) with ((1 - u) * (a * px p + b * py p) + u * (a * px q + b * py q)) by ring. rewrite H, H0. ring.
Qed.
(** and on the hull layer there is nothing but stretches of the segments of the page layer (longer by at most EPSILON of their length) *)
Theorem C163_hull_partial `{E : Epsilon ROps} (box : Box_) h d vs cs ds g : 0 < EPS -> draw_voronoi box (Some h) d = Ok (vs, cs, ds) -> In g cs ->
  exists m u v, In m vs /\ - EPS <= u <= 1 + EPS /\ - EPS <= v <= 1 + EPS /\ p1 g = at_param m u /\ p2 g = at_param m v.
Proof.
  intros He H Hg. unfold draw_voronoi in H. inv_bind H. inv_bind H. injection H as <- <- <-. clear - He Hg E1.
  revert x0 E1 Hg. induction x as [|s r IH]; cbn; intros out H Hg; [injection H as <-; destruct Hg|].
  inv_bind H. inv_bind H. injection H as <-. apply in_app_iff in Hg. destruct Hg as [Hg|Hg].
  - destruct (C76_on_segment_partial h s x He E0 g Hg) as ((u & v & U & V & A & B) & _). exists s, u, v. auto.
  - destruct (IH _ E1 Hg) as (m & u & v & M & K). exists m, u, v. auto.
Qed.
(** False of the code: an edge that begins outside of the page is not drawn, *)
Theorem C163_outside_refuted `{E : Epsilon ROps} (box : Box_) o p : ~ within box p ->
  vo_p1 o = Some p /\ vo_p2 o = None \/ vo_p1 o = None /\ vo_p2 o = Some p -> clip_edge box o = Ok None.
Proof.
  intros W H. unfold clip_edge, clip_open. destruct (point_inside box p) eqn:I; [apply point_inside_within in I; contradiction|].
  destruct H as [(-> & ->)|(-> & ->)]; now rewrite I.
Qed.
(** though it may cross the page; *)
Definition page : Box_ := Bx (P 0 0)%R (P 10 20)%R.
Theorem C163_outside_example : clip_edge (E:=eps6) page (VOut (N:=ROps) (Some (P (-1) 5)) None (0, 1, 5) None) = Ok None /\
  forall x, 0 <= x <= 10 -> on_edge (Some (P (-1) 5)) None 0 1 5 (P x 5) /\ in_box page (P x 5).
Proof.
  split.
  - apply (C163_outside_refuted (E:=eps6) page _ (P (-1) 5)%R); [|left; split; reflexivity]. unfold within, page. cbn [b1 b2 px py]. lra.
  - intros x Hx. cbn [on_edge]. unfold in_box, page. cbn [b1 b2 px py]. split; [split; lra|]. lra.
Qed.
(** an upright edge without an upper and one without a lower end are drawn alike, so one of the two wrongly: *)
Theorem C163_upright_refuted `{E : Epsilon ROps} (box : Box_) p a b c d1 d2 : 0 < EPS -> Rabs b < EPS ->
  clip_edge box (VOut (N:=ROps) (Some p) None (a, b, c) d1) = clip_edge box (VOut (Some p) None (a, b, c) d2) /\
  clip_edge box (VOut (N:=ROps) (Some p) None (a, b, c) d1) = clip_edge box (VOut None (Some p) (a, b, c) d2).
Proof.
  intros He B. split; [reflexivity|]. unfold clip_edge. cbn [vo_p1 vo_p2 vo_line]. unfold clip_open. destruct (point_inside box p); [|reflexivity]. cbn [negb].
  unfold other_end. rewrite is_zero_near by exact B. reflexivity.
Qed.
(** an edge without ends is a TypeError. *)
Theorem C163_endless_refuted {N : NumOps} {E : Epsilon N} (box : box N) l o : In o l -> vo_p1 o = None -> vo_p2 o = None ->
  exists e, voronoi_segments box l = Raise e.
Proof.
  intros H A B. destruct (voronoi_segments box l) as [out|e] eqn:Q; [|eauto]. destruct (segments_in _ _ _ Q) as (_ & K). destruct (K o H) as (r & R0).
  unfold clip_edge in R0. rewrite A, B in R0. discriminate.
Qed.
(** so the drawing of five points on a level line through the origin (which jiggling does not move off it) always fails *)
Definition eps64 : Epsilon F64Ops := (lit 1 (-9) : F64Ops).
Theorem C163_level_refuted : match rbind (voronoi_diagram true [fp 0 0; fp 10 0; fp 3 0; fp 12 0; fp 6 0]) (draw_voronoi (E:=eps64) (Bx (fp 0 0) (fp 20 20)) None) with
  | Raise TypeError => True | _ => False end.
Proof. vm_compute. exact I. Qed.
(** geom/voronoiclip.py does not look where the edge begins: of an edge running right from beyond the right side it draws a point it does not pass *)
Theorem C163_module_refuted : exists m, module_edge (N:=ROps) (E:=eps6) page (VOut (Some (P 14 5)) None (0, 1, 5) None) = Ok (Some m) /\ p2 m = P 10 5 /\
  ~ on_edge (Some (P 14 5)) None 0 1 5 (p2 m).
Proof.
  unfold module_edge, module_open. cbn [vo_p1 vo_p2 vo_line]. rnum. assert (Q : Reqb 1 0 = false) by (apply Reqb_false; lra). rewrite Q. unfold pydiv. rnum. rewrite Q. cbn [rbind].
  replace ((5 - xmax (N:=ROps) page * 0) / 1) with 5 by (unfold Rdiv; rewrite Rinv_1; ring).
  assert (T1 : not_tiny (E:=eps6) (px (p2 (Ln (P 14 5)%R (P 10 5)%R)) - px (p1 (Ln (P 14 5)%R (P 10 5)%R)))).
  { right. cbn [p1 p2 px]. toR. rewrite Rabs_left by lra. unfold EPS, eps6; cbn; lra. }
  assert (He : 0 < EPS (Epsilon:=eps6)) by (unfold EPS, eps6; cbn; lra).
  destruct (clip_whole He page (Ln (P 14 5)%R (P 10 5)%R) (P 10 5)%R T1) as (m & M & S).
  - left. cbn [p1 p2 py]. toR. ring.
  - exists 1. split; [lra|]. ptx; ring.
  - unfold in_box, page. cbn. lra.
  - exists m. split; [unfold page in *; cbn [xmax b2 px] in *; toR; now rewrite M|].
    destruct (C41_clip _ _ _ He M) as (u0 & u1 & A & B & C & M1 & M2 & K & _).
    assert (U : u1 = 1).
    { destruct (clip_part He _ _ _ _ M S) as (_ & _). apply (at_param_sub _ _ _ _ _ A B C M1 M2) in S. destruct S as (u & U & Q'). injection Q'. cbn [p1 p2 px py]. intros _ X. toR. nra. }
    rewrite M2, U. assert (Z : at_param (Ln (P 14 5)%R (P 10 5)%R) 1 = (P 10 5)%R) by (ptx; ring). rewrite Z. split; [reflexivity|]. cbn [on_edge px]. lra.
Qed.
(** the conditions are met by ordinary edges *)
Example C163_example : let o := VOut (N:=ROps) (Some (P 2 3)) None (1, 1, 5) None in
  ends_on (vo_p1 o) (vo_p2 o) 1 1 5 /\ steps_ok (E:=eps6) page o 1 1 /\
  exists m, clip_edge (E:=eps6) page o = Ok (Some m) /\ on_segment m (P 4 1)%R.
Proof.
  cbn zeta. assert (A : ends_on (Some (P 2 3)%R) None 1 1 5). { intros p [[= <-]|[=]]. cbn [px py]. lra. }
  assert (B : steps_ok (E:=eps6) page (VOut (N:=ROps) (Some (P 2 3)) None (1, 1, 5) None) 1 1).
  { unfold steps_ok. cbn [vo_p1 vo_p2]. unfold within, page. cbn [b1 b2 px py]. split; [lra|]. assert (K : EPS (Epsilon:=eps6) <= 1) by (unfold EPS, eps6; cbn; lra).
    split; [rewrite Rabs_R1; exact K|]. split; right; rewrite Rabs_pos_eq; toR; lra. }
  split; [exact A|]. split; [exact B|]. apply (C163_whole_partial page _ 1 1 5); auto.
  - unfold EPS, eps6; cbn; lra.
  - cbn [vo_p1 vo_p2 on_edge px py]. split; lra.
  - unfold in_box, page. cbn. lra.
Qed.
(** the six points of C156_example: every end lies on the line of its edge, and no open edge is upright *)
Definition lines_ok (d : diagram QOps) : bool :=
  forallb (fun o : vout QOps => let '(a, b, c) := vo_line o in
    forallb (fun e : option (pt QOps) => match e with Some p => Qeq_bool (a * px p + b * py p)%Q c | None => true end) [vo_p1 o; vo_p2 o] &&
    (negb (Qle_bool (Qabs b) (Qmake 1 1000)) || match vo_p1 o, vo_p2 o with Some _, Some _ => true | _, _ => false end)) (d_edges d).
Example C163_lines_example : exists d, voronoi_diagram (N:=QOps) true six = Ok d /\ lines_ok d = true.
Proof. computed. vm_compute. reflexivity. Qed.

(** ** C164: drawn Delaunay edges *)
Theorem C164_all {N : NumOps} {E : Epsilon N} box d vs cs ds : draw_voronoi (N:=N) box None d = Ok (vs, cs, ds) ->
  map (fun l => (p1 l, p2 l)) ds = d_delaunay d /\ cs = [].
Proof.
  intros H. unfold draw_voronoi in H. inv_bind H. inv_bind H. injection H as <- <- <-. split.
  - unfold delaunay_segments. induction (d_delaunay d) as [|[a b] r IH]; cbn; [reflexivity|]. now rewrite IH.
  - destruct x; now injection E1 as <-.
Qed.
Theorem C164_some {N : NumOps} {E : Epsilon N} h es l : In l (delaunay_segments (N:=N) (Some h) es) -> In (p1 l, p2 l) es.
Proof.
  unfold delaunay_segments. rewrite filter_In, in_map_iff. intros (([a b] & <- & K) & _). exact K.
Qed.
Section Hull.
  Context {E : Epsilon ROps} (He : 0 < EPS).
  Lemma peq_refl_R (p : Pt) : peq p p = true.
  Proof. now apply PolyProofs5.peq_self. Qed.
  Lemma cyc_pairs_edges (h : list Pt) a b : In (a, b) (cyc_pairs h) <-> In (a, b) (cyclic_edges h).
  Proof. split; apply Permutation_in; [|symmetry]; apply PolyProofs.cyc_pairs_perm. Qed.
End Hull.
(** the sides of the hull are drawn, *)
Theorem C164_sides `{E : Epsilon ROps} (h : list Pt) es a b u v : 0 < EPS -> In (a, b) (cyclic_edges h) -> (u, v) = (a, b) \/ (u, v) = (b, a) -> In (u, v) es ->
  In (Ln u v) (delaunay_segments (Some h) es).
Proof.
  intros He H K I. unfold delaunay_segments. rewrite filter_In, in_map_iff. split; [exists (u, v); auto|]. unfold line_inside_hull.
  match goal with |- (if true && ?x then _ else _) = true => replace x with true; [reflexivity|] end. symmetry. apply existsb_exists.
  exists (a, b). split; [now apply cyc_pairs_edges|]. unfold leq. cbn [p1 p2]. destruct K as [[= -> ->]|[= -> ->]]; rewrite !(peq_refl_R He); rewrite ?orb_true_r; reflexivity.
Qed.
(** also the edges inside of a convex hull, *)
Theorem C164_inside `{E : Epsilon ROps} (h : list Pt) es u v : convex_ccw h -> In (u, v) es ->
  (forall a b, In (a, b) (cyclic_edges h) -> 0 < cross3 a b u /\ 0 < cross3 a b v) -> In (Ln u v) (delaunay_segments (Some h) es).
Proof.
  intros C I K. unfold delaunay_segments. rewrite filter_In, in_map_iff. split; [exists (u, v); auto|]. unfold line_inside_hull.
  destruct (existsb _ _); [reflexivity|]. cbn [andb negb].
  rewrite (C75_convex_inside h C (midpoint (Ln u v))).
  - cbn [negb]. destruct (existsb _ _); [reflexivity|]. cbn [p1 p2]. rewrite (C75_convex_inside h C u); [reflexivity|]. intros a b H. apply (K a b H).
  - intros a b H. destruct (K a b H) as (A & B). unfold midpoint. cbn [p1 p2]. unfold cross3 in *. cbn [pmul padd px py]. rnum. replace (Rlit 5 (-1)) with (1/2) by (unfold Rlit; cbn; lra). lra.
Qed.
(** those from or to a corner of a convex hull through its inside, *)
Theorem C164_corners `{E : Epsilon ROps} (h : list Pt) es u v a b : 0 < EPS -> convex_ccw h -> In (u, v) es ->
  In (a, b) (cyclic_edges h) -> u = a \/ v = a ->
  (forall a b, In (a, b) (cyclic_edges h) -> 0 < cross3 a b (at_param (Ln u v) (1/2))) -> In (Ln u v) (delaunay_segments (Some h) es).
Proof.
  intros He C I Hab Hu K. unfold delaunay_segments. rewrite filter_In, in_map_iff. split; [exists (u, v); auto|]. unfold line_inside_hull.
  destruct (existsb _ _); [reflexivity|]. cbn [andb negb].
  assert (M : at_param (Ln u v) (1/2) = midpoint (Ln u v)).
  { unfold midpoint. apply pt_ext; unfold at_param; cbn [pmul padd px py p1 p2]; rnum; replace (Rlit 5 (-1)) with (1/2) by (unfold Rlit; cbn; lra); toR; lra. }
  rewrite <- M, (C75_convex_inside h C _ K). cbn [negb].
  match goal with |- (if ?x then _ else _) = true => replace x with true; [reflexivity|] end. symmetry. apply existsb_exists.
  exists (a, b). split; [now apply cyc_pairs_edges|]. cbn [p1 p2]. destruct Hu as [-> | ->]; rewrite !(peq_refl_R He); rewrite ?orb_true_r; reflexivity.
Qed.
(** and no edge whose middle is outside of it, unless it is a side (up to EPSILON). *)
Theorem C164_outside `{E : Epsilon ROps} (h : list Pt) es l : 0 < EPS -> convex_ccw h -> In l (delaunay_segments (Some h) es) ->
  (exists a b, In (a, b) (cyclic_edges h) /\ (euclid (p1 l) a < EPS /\ euclid (p2 l) b < EPS \/ euclid (p1 l) b < EPS /\ euclid (p2 l) a < EPS)) \/
  (forall a b, In (a, b) (cyclic_edges h) -> 0 <= cross3 a b (at_param l (1/2))).
Proof.
  intros He C H. unfold delaunay_segments in H. apply filter_In in H. destruct H as (_ & H). unfold line_inside_hull in H. cbn [negb andb] in H.
  destruct (existsb (fun '(a, b) => leq (Ln b a) l) (cyc_pairs h)) eqn:X.
  - left. apply existsb_exists in X. destruct X as ((a & b) & I & Q). apply cyc_pairs_edges in I. exists a, b. split; [exact I|].
    unfold leq in Q. cbn [p1 p2] in Q. apply orb_true_iff in Q. rewrite !andb_true_iff, !(peq_true He) in Q. destruct Q as [(Q1 & Q2)|(Q1 & Q2)]; [right|left]; split; rewrite euclid_sym; assumption.
  - right. cbn [andb] in H. destruct (poly_inside h (midpoint l)) eqn:Q; [|discriminate]. intros a b I.
    assert (M : at_param l (1/2) = midpoint l).
    { unfold midpoint. apply pt_ext; unfold at_param; cbn [pmul padd px py]; rnum; replace (Rlit 5 (-1)) with (1/2) by (unfold Rlit; cbn; lra); toR; lra. }
    rewrite M. destruct (Rle_lt_dec 0 (cross3 a b (midpoint l))) as [|L]; [assumption|]. rewrite (C75_convex_outside h C _) in Q; [discriminate|]. eauto.
Qed.
(** With other hulls an edge is drawn though it leaves the hull in between. *)
Definition notched : list (pt F64Ops) := [fp 0 0; fp 12 0; fp 12 10; fp 9 10; fp 9 4; fp 7 4; fp 7 10; fp 0 10].
Theorem C164_notch_refuted : line_inside_hull (E:=eps64) notched (Ln (fp 1 8) (fp 11 8)) true = true /\ poly_inside notched (fp 8 8) = false.
Proof. vm_compute. auto. Qed.
Example C164_example : In (Ln (P (1/2) (1/2)) (P 1 1))%R (delaunay_segments (E:=eps6) (Some tri) [(P 5 5, P 6 6); (P (1/2) (1/2), P 1 1)]%R).
Proof.
  apply C164_inside; [apply tri_convex|right; left; reflexivity|]. intros a b H. cbn in H. unfold cross3. in_cases; subst; cbn; lra.
Qed.
