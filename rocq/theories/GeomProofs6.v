(** * GeomProofs6: circle intersections, arc centres, tangents, ellipses over R *)
From Verif Require Import Num NumR Geom GeomR GeomSpec GeomProofs GeomProofs2 GeomProofs3 GeomProofs4 GeomProofs5 Ellipse.
From Coq Require Import ZArith Reals Lra List Bool Psatz.
Import ListNotations.
Local Open Scope R_scope.

Section A.
  Context {E : Epsilon ROps}.
  Hypothesis He : 0 < EPS.

  (** signed distance data of the line with respect to the centre *)
  Definition discriminant (a : Arc_) (l : Line_) : R :=
    radius a * radius a * (seg_len l * seg_len l) - side l (center a) * side l (center a).

  Lemma dsc_eq (a : Arc_) (l : Line_) :
    let l1 := psub (p1 l) (center a) in let l2 := psub (p2 l) (center a) in
    (cross l1 l2 : R) = side l (center a) /\
    ((px l2 - px l1) * (px l2 - px l1) + (py l2 - py l1) * (py l2 - py l1))%num = seg_len l * seg_len l /\
    px l2 - px l1 = px (p2 l) - px (p1 l) /\ py l2 - py l1 = py (p2 l) - py (p1 l).
  Proof.
    destruct a as [? ? r s [c1 c2]], l as [[x1 y1] [x2 y2]]. cbv zeta. cbn [center p1 p2].
    unfold seg_len. rewrite euclid_sqr. unfold cross, psub, side. cbn [px py p1 p2]. rnum. repeat split; toR; ring.
  Qed.

  (** [intersect_line] with its intermediate values as arguments (only to control unfolding) *)
  Definition il_core (a : Arc_) (l : Line_) (oa ol : bool) (dx dy dr2 det : R) : res (list Pt) :=
    let dsc := radius a * radius a * dr2 - det * det in
    if is_zero dsc then rmap (fun q => [q]) (lproj_point l (center a) false)
    else if Rltb 0 dsc then
      let sgn := if Rltb dy 0 then - (1) else 1 in
      let r := R_sqrt.sqrt dsc in
      if Reqb dr2 0 then Raise ZeroDivisionError else
      let q1 := padd (P ((det * dy + sgn * dx * r) / dr2) ((- det * dx + Rabs dy * r) / dr2)) (center a) in
      let q2 := padd (P ((det * dy - sgn * dx * r) / dr2) ((- det * dx - Rabs dy * r) / dr2)) (center a) in
      let keep q := (negb oa || point_on_arc a q) && (negb ol || point_on_line l q false) in
      Ok ((if keep q1 then [q1] else []) ++ (if keep q2 then [q2] else []))
    else Ok [].
  Lemma il_eq (a : Arc_) (l : Line_) oa ol : intersect_line a l oa ol =
    il_core a l oa ol (px (p2 l) - px (p1 l)) (py (p2 l) - py (p1 l)) (seg_len l * seg_len l) (side l (center a)).
  Proof.
    pose proof (dsc_eq a l) as K. cbv zeta in K. destruct K as (K1 & K2 & K3 & K4).
    rewrite <- K2, <- K3, <- K4. unfold T, ROps in *. rewrite <- K1. reflexivity.
  Qed.

  Lemma il_points (a : Arc_) (l : Line_) : EPS <= discriminant a l ->
    exists q1 q2, intersect_line a l false false = Ok [q1; q2] /\
      (forall q, on_line l q -> euclid (center a) q * euclid (center a) q = radius a * radius a -> q = q1 \/ q = q2) /\
      forall q, q = q1 \/ q = q2 -> on_line l q /\ euclid (center a) q * euclid (center a) q = radius a * radius a.
  Proof.
    intros H. rewrite il_eq. unfold il_core. cbv zeta.
    assert (SP : 0 < seg_len l).
    { destruct (seg_len_pos l) as [|Z]; auto. unfold discriminant in H. rewrite <- Z in H. nra. }
    set (D := side l (center a)) in *. set (S2 := seg_len l * seg_len l) in *.
    unfold discriminant in H. fold D S2 in H.
    set (dsc := radius a * radius a * S2 - D * D) in *.
    assert (Z1 : is_zero dsc = false) by (apply isz_false; auto; rewrite Rabs_pos_eq; lra).
    rewrite Z1. destruct (Rltb 0 dsc) eqn:Z2; [|apply Rltb_false in Z2; lra].
    assert (S2p : 0 < S2) by (unfold S2; nra).
    destruct (Reqb S2 0) eqn:Z3; [apply Reqb_true in Z3; lra|].
    cbn [negb orb andb app].
    set (dx := px (p2 l) - px (p1 l)) in *. set (dy := py (p2 l) - py (p1 l)) in *.
    set (r := R_sqrt.sqrt dsc). assert (RR : r * r = dsc) by (apply sqrt_sqrt; lra).
    set (sg := if Rltb dy 0 then - (1) else 1).
    assert (AB : Rabs dy = sg * dy).
    { unfold sg. destruct (Rltb dy 0) eqn:Q; rbool; [rewrite Rabs_left by lra|rewrite Rabs_pos_eq by lra]; ring. }
    assert (SG : sg * sg = 1) by (unfold sg; destruct (Rltb dy 0); ring).
    assert (Q2 : S2 = dx * dx + dy * dy).
    { unfold S2. unfold seg_len. rewrite euclid_sqr. unfold dx, dy. ring. }
    rewrite AB. do 2 eexists. split; [reflexivity|]. 
    assert (SN : forall q : Pt, side l q = D + dx * (py q - py (center a)) - dy * (px q - px (center a))).
    { intros q. unfold D, side, dx, dy. ring. }
    (* the two points, with w the coordinate along the line *)
    assert (PT : forall w : R, w = sg * r \/ w = - (sg * r) ->
      let q : Pt := P (px (center a) + (D * dy + w * dx) / S2) (py (center a) + (- D * dx + w * dy) / S2) in
      on_line l q /\ euclid (center a) q * euclid (center a) q = radius a * radius a).
    { intros w Hw q. assert (W2 : w * w = dsc).
      { assert (sg * r * (sg * r) = dsc) by (replace (sg * r * (sg * r)) with ((sg * sg) * (r * r)) by ring; rewrite SG, RR; ring).
        destruct Hw as [-> | ->]; [auto|lra]. }
      split.
      - apply line_point; auto. rewrite SN. unfold q. cbn [px py].
        replace (px (center a) + (D * dy + w * dx) / S2 - px (center a)) with ((D * dy + w * dx) / S2) by ring.
        replace (py (center a) + (- D * dx + w * dy) / S2 - py (center a)) with ((- D * dx + w * dy) / S2) by ring.
        rewrite Q2. field. rewrite <- Q2. lra.
      - rewrite euclid_sqr. unfold q. cbn [px py].
        replace (px (center a) - (px (center a) + (D * dy + w * dx) / S2)) with (- ((D * dy + w * dx) / S2)) by ring.
        replace (py (center a) - (py (center a) + (- D * dx + w * dy) / S2)) with (- ((- D * dx + w * dy) / S2)) by ring.
        apply Rmult_eq_reg_r with (S2 * S2); [|nra].
        transitivity ((D * D + w * w) * (dx * dx + dy * dy)); [field; lra|].
        rewrite W2, <- Q2. unfold dsc. ring. }
    assert (E1 : padd (P ((D * dy + sg * dx * r) / S2) ((- D * dx + sg * dy * r) / S2)) (center a) =
      P (px (center a) + (D * dy + sg * r * dx) / S2) (py (center a) + (- D * dx + sg * r * dy) / S2) :> Pt).
    { unfold padd. ptx; field; lra. }
    assert (E2 : padd (P ((D * dy - sg * dx * r) / S2) ((- D * dx - sg * dy * r) / S2)) (center a) =
      P (px (center a) + (D * dy + - (sg * r) * dx) / S2) (py (center a) + (- D * dx + - (sg * r) * dy) / S2) :> Pt).
    { unfold padd. ptx; field; lra. }
    rnum. rewrite E1, E2. split.
    - intros q Oq Cq. assert (SQ : side l q = 0).
      { destruct Oq as [u ->]. destruct l as [[? ?] [? ?]]. unfold side, at_param. cbn. ring. }
      rewrite SN in SQ. set (X := px q - px (center a)) in *. set (Y := py q - py (center a)) in *.
      rewrite euclid_sqr in Cq.
      assert (C2 : X * X + Y * Y = radius a * radius a) by (rewrite <- Cq; unfold X, Y; ring).
      set (w := X * dx + Y * dy).
      assert (W2 : w * w = dsc).
      { unfold dsc, w. rewrite <- C2, Q2. assert (D = dy * X - dx * Y) as -> by lra. ring. }
      assert (XE : X = (D * dy + w * dx) / S2).
      { apply Rmult_eq_reg_r with S2; [|lra]. transitivity (D * dy + w * dx); [|field; lra].
        unfold w. rewrite Q2. assert (D = dy * X - dx * Y) as -> by lra. ring. }
      assert (YE : Y = (- D * dx + w * dy) / S2).
      { apply Rmult_eq_reg_r with S2; [|lra]. transitivity (- D * dx + w * dy); [|field; lra].
        unfold w. rewrite Q2. assert (D = dy * X - dx * Y) as -> by lra. ring. }
      assert (WW : w = sg * r \/ w = - (sg * r)).
      { assert (Z : (w - sg * r) * (w + sg * r) = 0).
        { replace ((w - sg * r) * (w + sg * r)) with (w * w - (sg * sg) * (r * r)) by ring. rewrite W2, SG, RR. ring. }
        apply Rmult_integral in Z. destruct Z; [left|right]; lra. }
      destruct WW as [W|W]; rewrite W in *; [left|right]; apply pt_ext; cbn [px py]; unfold X, Y in *; lra.
    - intros q [-> | ->]; apply PT; auto.
  Qed.

  (** with the filters on, the result is a sublist of the unfiltered one *)
  Lemma il_filter (a : Arc_) (l : Line_) oa ol qs : EPS <= discriminant a l ->
    intersect_line a l oa ol = Ok qs ->
    exists q1 q2, intersect_line a l false false = Ok [q1; q2] /\
    forall q, In q qs <-> (q = q1 \/ q = q2) /\ (oa = true -> point_on_arc a q = true) /\ (ol = true -> point_on_line l q false = true).
  Proof.
    intros H HQ. destruct (il_points a l H) as (q1 & q2 & EQ & _ & _). exists q1, q2. split; [exact EQ|].
    rewrite il_eq in EQ, HQ. unfold il_core in EQ, HQ. cbv zeta in EQ, HQ.
    destruct (is_zero _); [destruct (lproj_point _ _ _); discriminate|]. destruct (Rltb 0 _); [|discriminate].
    destruct (Reqb _ _); [discriminate|]. cbn [negb orb andb app] in EQ.
    match type of EQ with Ok [?x; ?y] = _ => set (x1 := x) in *; set (y1 := y) in * end. clearbody x1 y1.
    injection EQ as -> ->. injection HQ as <-. intros q. rewrite in_app_iff.
    assert (K : forall z, In q (if (negb oa || point_on_arc a z) && (negb ol || point_on_line l z false) then [z] else []) <->
      q = z /\ (oa = true -> point_on_arc a q = true) /\ (ol = true -> point_on_line l q false = true)).
    { intros z. destruct oa, ol; cbn [negb orb andb];
      repeat match goal with |- context [if ?b then _ else _] => destruct b eqn:? end; cbn [In];
      rewrite ?andb_true_iff, ?andb_false_iff in *; split; intros HH; 
      try (destruct HH as [->|[]]; intuition congruence); try tauto; try intuition (subst; intuition congruence). }
    rewrite !K. tauto.
  Qed.

  Lemma il_tangent (a : Arc_) (l : Line_) oa ol : Rabs (discriminant a l) < EPS -> EPS <= seg_len l ->
    exists q, intersect_line a l oa ol = Ok [q] /\ on_line l q /\
      (forall q', on_line l q' -> euclid q (center a) <= euclid q' (center a)) /\
      Rabs (radius a * radius a - euclid q (center a) * euclid q (center a)) * (seg_len l * seg_len l) < EPS.
  Proof.
    intros H L. rewrite il_eq. unfold il_core. cbv zeta. fold (discriminant a l). apply isz in H; auto. rewrite H.
    destruct (proj_point_line He l (center a) L) as (q & EQ & Oq & Mq). rewrite EQ. cbn [rmap].
    exists q. split; [reflexivity|split; [exact Oq|split; [exact Mq|]]].
    apply isz in H; auto. unfold discriminant in H.
    (* the distance of q is |side|/len *)
    assert (DD : euclid q (center a) * euclid q (center a) * (seg_len l * seg_len l) = side l (center a) * side l (center a)).
    { destruct (dist_to_line_spec He (center a) (p1 l) (p2 l)) as (r & _ & R1 & q2 & O2 & D2 & M2); [exact L|].
      destruct l as [la lb]. cbn [p1 p2] in *. unfold seg_len in *. cbn [p1 p2] in *.
      assert (DE : euclid q (center a) = Rabs r).
      { apply Rle_antisym; [rewrite <- D2, (euclid_sym _ q2); apply Mq; auto|rewrite euclid_sym; apply M2; auto]. }
      rewrite DE, <- Rabs_mult, (Rabs_pos_eq (r * r)) by nra.
      replace (r * r * (euclid la lb * euclid la lb)) with ((r * euclid la lb) * (r * euclid la lb)) by ring. rewrite R1. ring. }
    assert (SS : 0 <= seg_len l * seg_len l) by (pose proof (seg_len_pos l); nra).
    rewrite <- (Rabs_pos_eq (seg_len l * seg_len l)) at 1 by auto.
    rewrite <- Rabs_mult, Rmult_minus_distr_r, DD. exact H.
  Qed.
  Lemma il_none (a : Arc_) (l : Line_) oa ol : discriminant a l <= - EPS -> intersect_line a l oa ol = Ok [] /\
    forall q, on_line l q -> euclid (center a) q * euclid (center a) q <> radius a * radius a.
  Proof.
    intros H. split.
    - rewrite il_eq. unfold il_core. cbv zeta. fold (discriminant a l).
      assert (Z : is_zero (discriminant a l) = false) by (apply isz_false; auto; rewrite Rabs_left; lra).
      rewrite Z. destruct (Rltb 0 _) eqn:Z2; [apply Rltb_true in Z2; lra|]. reflexivity.
    - intros q [u ->] C. pose proof (side_dist l (center a) u) as S. unfold discriminant in H.
      replace (euclid (center a) (at_param l u) * seg_len l * (euclid (center a) (at_param l u) * seg_len l)) with
       ((euclid (center a) (at_param l u) * euclid (center a) (at_param l u)) * (seg_len l * seg_len l)) in S by ring.
      rewrite C in S. lra.
  Qed.
End A.
