(** * PropsPreview2: arcs of the preview (C140) and the written preview (C139).  Over R. *)
From Verif Require Import Num NumR Geom GeomR GeomSpec GeomSpec2 GeomProofs GeomProofs3 GeomProofs4 GeomProofs5 GeomProofs8 GeomProofs9 Gcode Preview PreviewSpec SvgSpec SvgProofs2 GeomSvgSpec SvgOutSpec PropsGeom PropsPreview PropsSvgOut.
From Verif Require Svg SvgOut.
From Coq Require Import ZArith Reals Lra Lia Bool List.
Import ListNotations.
Local Open Scope R_scope.

(** ** The written element of a stroke *)
Definition stroke_commands (k : stroke) : list (drawn ROps) :=
  match k with
  | Travel a b | Cut a b => [DMove (at_xy a); DLine (at_xy b)]
  | Bend a b r ccw => [DMove (at_xy a); DArc r r 0 false ccw (at_xy b)]
  end.
Theorem C139_written n (k : stroke) : exists text, element_data n (stroke_element k) = Ok (Some text) /\
  exists es, Svg.parse_path (N:=ROps) text = (map tuple es, None) /\ Forall2 (near_drawn n) (stroke_commands k) es.
Proof.
  destruct k as [a b|a b|a b r ccw]; cbn [stroke_element element_data stroke_commands]; eexists; (split; [reflexivity|]).
  - apply C137_line.
  - apply C137_line.
  - apply C137_circular_arc.
Qed.

(** ** C140 *)
(** The arc a machine cuts for a clockwise or counter-clockwise arc command. *)
Definition machine_arc (p q c : Pt) (ccw : bool) (m : Arc_) : Prop :=
  wf_arc m /\ ap1 m = p /\ ap2 m = q /\ center m = c /\ (if ccw then 0 < sweep m else sweep m < 0) /\ Rabs (sweep m) <= 2 * PI.

Lemma cos_not_1 t : 0 < Rabs t < 2 * PI -> cos t <> 1.
Proof.
  intros Ht H. destruct (Rle_dec t 0) as [L|L].
  - rewrite Rabs_left1 in Ht by lra. assert (0 < sin (- t / 2)) by (apply sin_gt_0; lra).
    pose proof (cos_2a_sin (- t / 2)) as Q. replace (2 * (- t / 2)) with (- t) in Q by field. rewrite cos_neg in Q. nra.
  - rewrite Rabs_right in Ht by lra. assert (0 < sin (t / 2)) by (apply sin_gt_0; lra).
    pose proof (cos_2a_sin (t / 2)) as Q. replace (2 * (t / 2)) with t in Q by field. nra.
Qed.
(** There is at most one SVG arc of less than half a turn with given ends, radius and direction. *)
Lemma svg_arc_unique a b r ccw c c' : svg_arc a b r false ccw c -> svg_arc a b r false ccw c' -> c = c'.
Proof.
  intros (W & A1 & A2 & A3 & A4 & A5) (W' & B1 & B2 & B3 & B4 & B5). pose proof PI_RGT_0.
  pose proof (chord_len c W) as L. pose proof (chord_len c' W') as L'. rewrite A1, A2, A3 in L. rewrite B1, B2, B3 in L'. rewrite L in L'.
  assert (R0 : 0 < r) by (destruct W; lra).
  assert (S : sweep c = sweep c').
  { assert (0 < Rabs (sweep c)) by (apply Rabs_pos_lt; destruct ccw; lra). assert (0 < Rabs (sweep c')) by (apply Rabs_pos_lt; destruct ccw; lra).
    assert (K : forall t, Rabs t < PI -> Rabs (sin (t / 2)) = sin (Rabs t / 2)).
    { intros t Ht. destruct (Rle_dec 0 t) as [P|P].
      - rewrite (Rabs_right t) in * by lra. apply Rabs_right. apply Rle_ge, sin_ge_0; lra.
      - rewrite (Rabs_left t) in * by lra. rewrite Rabs_left1.
        + rewrite <- sin_neg. f_equal. field.
        + replace (t / 2) with (- (- t / 2)) by field. rewrite sin_neg. assert (0 <= sin (- t / 2)) by (apply sin_ge_0; lra). lra. }
    rewrite !K in L' by auto. assert (Q : sin (Rabs (sweep c) / 2) = sin (Rabs (sweep c') / 2)) by (apply Rmult_eq_reg_l with (2 * r); lra).
    assert (Q2 : Rabs (sweep c) / 2 = Rabs (sweep c') / 2).
    { rewrite <- (asin_sin (Rabs (sweep c) / 2)), <- (asin_sin (Rabs (sweep c') / 2)) by lra. now rewrite Q. }
    destruct ccw; [rewrite !Rabs_right in Q2 by lra|rewrite !Rabs_left in Q2 by lra]; lra. }
  destruct c as [c1 c2 cr cs cc], c' as [d1 d2 dr ds dc]. cbn [ap1 ap2 radius sweep] in *. subst.
  f_equal. eapply center_unique; eauto. apply cos_not_1. split; [apply Rabs_pos_lt; destruct ccw; lra|lra].
Qed.

(** An arc of less than half a turn is drawn as the machine cuts it: the drawn command describes that arc and no other. *)
Theorem C140_short p q c ccw m : machine_arc p q c ccw m -> Rabs (sweep m) < PI ->
  forall d, svg_arc p q (euclid c p) false ccw d <-> d = m.
Proof.
  intros (W & A1 & A2 & A3 & A4 & A5) S. 
  assert (Z : svg_arc p q (euclid c p) false ccw m).
  { split; [exact W|]. split; [exact A1|]. split; [exact A2|]. split; [|split; assumption].
    destruct W as (_ & W & _). rewrite <- W, A1, A3. apply euclid_sym. }
  intros d. split; [|intros ->; exact Z]. intros D. exact (svg_arc_unique _ _ _ _ _ _ D Z).
Qed.
(** A longer arc is drawn on the other side of its chord, the short way. *)
Theorem C140_long_refuted p q c ccw m : machine_arc p q c ccw m -> PI < Rabs (sweep m) < 2 * PI ->
  forall d, svg_arc p q (euclid c p) false ccw d <->
    d = mkarc p q (euclid c p) (if ccw then 2 * PI - sweep m else - (2 * PI) - sweep m) (P (px p + px q - px c) (py p + py q - py c)).
Proof.
  intros (W & A1 & A2 & A3 & A4 & A5) S.
  assert (Z : svg_arc p q (euclid c p) false ccw (mkarc p q (euclid c p) (if ccw then 2 * PI - sweep m else - (2 * PI) - sweep m) (P (px p + px q - px c) (py p + py q - py c)))).
  { destruct W as (R0 & R1 & R2). subst p q c.
    assert (T : turned (P (px (ap1 m) + px (ap2 m) - px (center m)) (py (ap1 m) + py (ap2 m) - py (center m))) (- sweep m) (ap1 m) = ap2 m).
    { rewrite R2. unfold turned. cbn [px py]. rewrite cos_neg, sin_neg. pose proof (sin2_cos2 (sweep m)) as Q. unfold Rsqr in Q.
      set (C := cos (sweep m)) in *. set (S' := sin (sweep m)) in *. set (ux := px (ap1 m)) in *. set (uy := py (ap1 m)) in *. set (x := px (center m)) in *. set (y := py (center m)) in *.
      assert (S' * S' = 1 - C * C) as Q' by lra. apply pt_ext; cbn [px py]; toR.
      - transitivity (x + (C * (ux - x) - S' * (uy - y)) + (ux - x) * (1 - (C * C + S' * S'))); [ring|rewrite Q'; ring].
      - transitivity (y + (S' * (ux - x) + C * (uy - y)) + (uy - y) * (1 - (C * C + S' * S'))); [ring|rewrite Q'; ring]. }
    assert (D : euclid (ap1 m) (P (px (ap1 m) + px (ap2 m) - px (center m)) (py (ap1 m) + py (ap2 m) - py (center m))) = euclid (center m) (ap1 m)).
    { transitivity (euclid (center m) (ap2 m)).
      - unfold euclid. cbn [px py]. f_equal. unfold Rsqr. ring.
      - rewrite R2 at 1. rewrite euclid_sym, turned_dist. apply euclid_sym. }
    unfold svg_arc, wf_arc. cbn [ap1 ap2 radius sweep center]. split; [|split; [reflexivity|split; [reflexivity|split; [reflexivity|]]]].
    - split; [|split; [exact D|]].
      + rewrite euclid_sym, R1. exact R0.
      + rewrite <- T at 1. unfold turned. destruct ccw.
        * replace (2 * PI - sweep m) with (- sweep m + 2 * PI) by ring. rewrite cos_plus, sin_plus, cos_2PI, sin_2PI; apply pt_ext; cbn [px py]; toR; ring.
        * replace (- (2 * PI) - sweep m) with (- sweep m - 2 * PI) by ring. rewrite cos_minus, sin_minus, cos_2PI, sin_2PI; apply pt_ext; cbn [px py]; toR; ring.
    - destruct ccw; [rewrite Rabs_right in S by lra|rewrite Rabs_left in S by lra].
      + split; [lra|]. rewrite Rabs_right; lra.
      + split; [lra|]. rewrite Rabs_left; lra. }
  intros d. split; [|intros ->; exact Z]. intros D. exact (svg_arc_unique _ _ _ _ _ _ D Z).
Qed.
(** A full circle is drawn as nothing: no arc has those ends and flags. *)
Theorem C140_full_circle_refuted p r large ccw d : ~ svg_arc p p r large ccw d.
Proof.
  intros (W & A1 & A2 & A3 & A4 & A5). pose proof PI_RGT_0.
  assert (B : 0 < Rabs (sweep d) < 2 * PI). { split; [apply Rabs_pos_lt; destruct ccw; lra|]. destruct large; lra. }
  pose proof (chord_len d W) as L. rewrite A1, A2 in L. replace (euclid p p) with 0 in L by (symmetry; apply euclid_zero; reflexivity).
  destruct W as (R0 & _). assert (Q : Rabs (sin (sweep d / 2)) = 0). { apply Rmult_eq_reg_l with (2 * radius d); lra. }
  assert (Q2 : sin (sweep d / 2) = 0). { destruct (Req_dec (sin (sweep d / 2)) 0) as [|NE]; auto. apply Rabs_pos_lt in NE. lra. }
  destruct (Rle_dec 0 (sweep d)) as [P0|P0].
  - rewrite Rabs_right in B by lra. assert (0 < sin (sweep d / 2)) by (apply sin_gt_0; lra). lra.
  - rewrite Rabs_left in B by lra. assert (0 < sin (- sweep d / 2)) as K by (apply sin_gt_0; lra). replace (- sweep d / 2) with (- (sweep d / 2)) in K by field. rewrite sin_neg in K. lra.
Qed.
(** The marks of an arc of less than half a turn are placed on the machine's arc. *)
Theorem C140_marks {E : Epsilon ROps} p q c ccw m : 0 < EPS -> machine_arc p q c ccw m -> Rabs (sweep m) < PI -> EPS <= euclid p q ->
  mkarc p q (pdist c p) (angle2 c p q) c = m.
Proof.
  intros He (W & A1 & A2 & A3 & A4 & A5) S D. pose proof W as (R0 & R1 & R2). subst p q c.
  assert (Dq : euclid (center m) (ap2 m) = euclid (center m) (ap1 m)). { rewrite R2 at 1. rewrite euclid_sym, turned_dist. apply euclid_sym. }
  assert (P1 : 0 < euclid (center m) (ap1 m)) by (rewrite euclid_sym; lra).
  assert (N1 : center m <> ap1 m). { intros Q. rewrite <- Q in P1. replace (euclid (center m) (center m)) with 0 in P1 by (symmetry; apply euclid_zero; reflexivity). lra. }
  assert (N2 : center m <> ap2 m). { intros Q. rewrite <- Q in Dq. replace (euclid (center m) (center m)) with 0 in Dq by (symmetry; apply euclid_zero; reflexivity). lra. }
  destruct (C39_angle2 (center m) (ap1 m) (ap2 m) He N1 N2 D) as [AR AT].
  assert (AT' : turned (center m) (angle2 (center m) (ap1 m) (ap2 m)) (ap1 m) = turned (center m) (sweep m) (ap1 m)).
  { rewrite AT, <- R2, Dq. replace (euclid (center m) (ap1 m) / euclid (center m) (ap1 m)) with 1 by (field; lra).
    unfold at_param. cbn [p1 p2]. apply pt_ext; cbn [px py]; toR; ring. }
  set (t := angle2 (center m) (ap1 m) (ap2 m)) in *. set (s := sweep m) in *.
  assert (TC : cos t = cos s /\ sin t = sin s).
  { pose proof (f_equal px AT') as X. pose proof (f_equal py AT') as Y. unfold turned in X, Y. cbn [px py] in X, Y.
    pose proof (euclid_sqr' (ap1 m) (center m)) as Q. rewrite R1 in Q.
    set (u := px (ap1 m) - px (center m)) in *. set (v := py (ap1 m) - py (center m)) in *.
    assert (X' : (cos t - cos s) * u - (sin t - sin s) * v = 0) by lra. assert (Y' : (sin t - sin s) * u + (cos t - cos s) * v = 0) by lra.
    assert (PQ : 0 < u * u + v * v) by (rewrite <- Q; nra).
    assert ((cos t - cos s) * (u * u + v * v) = 0) as K1.
    { transitivity (u * ((cos t - cos s) * u - (sin t - sin s) * v) + v * ((sin t - sin s) * u + (cos t - cos s) * v)); [ring|rewrite X', Y'; ring]. }
    assert ((sin t - sin s) * (u * u + v * v) = 0) as K2.
    { transitivity (u * ((sin t - sin s) * u + (cos t - cos s) * v) - v * ((cos t - cos s) * u - (sin t - sin s) * v)); [ring|rewrite X', Y'; ring]. }
    apply Rmult_integral in K1 as [K1|K1]; [|lra]. apply Rmult_integral in K2 as [K2|K2]; [|lra]. split; lra. }
  assert (t = s) as Qt. { destruct TC. apply angle_unique; auto. unfold Rabs in S. destruct (Rcase_abs s); lra. }
  rewrite dist_euclid. replace (euclid (center m) (ap1 m)) with (radius m) by (rewrite euclid_sym; congruence).
  rewrite Qt. unfold s. destruct m; reflexivity.
Qed.
(** A quarter circle about the origin. *)
Example C140_example : machine_arc (P 1 0) (P 0 1) (P 0 0) true (mkarc (P 1 0) (P 0 1) 1 (PI / 2) (P 0 0)) /\ Rabs (PI / 2) < PI.
Proof.
  pose proof PI_RGT_0. rewrite Rabs_right by lra. split; [|lra]. unfold machine_arc, wf_arc. cbn [ap1 ap2 center sweep radius].
  assert (euclid (P 1 0) (P 0 0 : Pt) = 1). { unfold euclid. cbn [px py]. replace ((1 - 0)² + (0 - 0)²) with (1²) by (unfold Rsqr; ring). apply sqrt_Rsqr. lra. }
  rewrite Rabs_right by lra. repeat split; try lra. unfold turned. rewrite cos_PI2, sin_PI2. apply pt_ext; cbn [px py]; toR; ring.
Qed.
