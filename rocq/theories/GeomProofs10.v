(** * GeomProofs10: is a point on an arc? *)
From Verif Require Import Num NumR Geom GeomR GeomSpec GeomSpec2 GeomProofs GeomProofs2 GeomProofs3 GeomProofs4 GeomProofs5 GeomProofs7 GeomProofs8 GeomProofs9.
From Coq Require Import ZArith Reals Lra Lia Bool List Psatz.
Import ListNotations.
Local Open Scope R_scope.

Section M.
  Context {E : Epsilon ROps}.
  Hypothesis He : 0 < EPS.
  Variables (a : Arc_) (p : Pt).
  Hypothesis W : wf_arc a.
  Let s := Rabs (sweep a).
  Let r := radius a.
  Let rho := euclid p (center a).
  Let sg := sgn a.

  Lemma cs : cos (sweep a) = cos s /\ sin (sweep a) = sg * sin s.
  Proof.
    rewrite (sgn_sweep a). fold s sg. destruct (sgn_cases a) as [Q|Q]; fold sg in Q; rewrite Q; [rewrite !Rmult_1_l; auto|].
    replace (-1 * s) with (- s) by ring. rewrite cos_neg, sin_neg. split; [auto|ring].
  Qed.
  Lemma sg2' : sg * sg = 1. Proof. destruct (sgn_cases a) as [Q|Q]; unfold sg; rewrite Q; lra. Qed.

  Lemma meet_eqs f u v : polar (center a) (ap1 a) p sg f -> at_param (Ln (ap1 a) (ap2 a)) u = at_param (Ln (center a) p) v ->
    r * (1 - u + u * cos s) = v * (rho * cos f) /\ r * (u * sin s) = v * (rho * sin f).
  Proof.
    intros [Pc Ps] M. destruct W as (R0 & R1 & R2). destruct cs as [C S]. rewrite R1 in Pc, Ps. fold r in R0, R1, Pc, Ps. fold rho in Pc, Ps.
    pose proof (euclid_sqr' (ap1 a) (center a)) as Q. rewrite R1 in Q.
    pose proof (f_equal px M) as X. pose proof (f_equal py M) as Y. unfold at_param in X, Y. cbn [px py p1 p2] in X, Y.
    rewrite R2 in X, Y. unfold turned in X, Y. cbn [px py] in X, Y. rewrite C, S in X, Y.
    set (ux := px (ap1 a) - px (center a)) in *. set (uy := py (ap1 a) - py (center a)) in *.
    set (vx := px p - px (center a)) in *. set (vy := py p - py (center a)) in *.
    assert (X' : (1 - u) * ux + u * (cos s * ux - sg * sin s * uy) = v * vx).
    { transitivity (px (ap1 a) + u * (px (center a) + (cos s * ux - sg * sin s * uy) - px (ap1 a)) - px (center a)); [unfold ux; ring|]. rewrite X. ring. }
    assert (Y' : (1 - u) * uy + u * (sg * sin s * ux + cos s * uy) = v * vy).
    { transitivity (py (ap1 a) + u * (py (center a) + (sg * sin s * ux + cos s * uy) - py (ap1 a)) - py (center a)); [unfold uy; ring|]. rewrite Y. ring. }
    clear X Y M. split; apply Rmult_eq_reg_l with r; try lra.
    - transitivity ((r * r) * (1 - u + u * cos s)); [ring|]. rewrite Q.
      transitivity (v * (r * rho * cos f)); [|ring]. rewrite <- Pc.
      transitivity (ux * ((1 - u) * ux + u * (cos s * ux - sg * sin s * uy)) + uy * ((1 - u) * uy + u * (sg * sin s * ux + cos s * uy))); [ring|].
      rewrite X', Y'. ring.
    - transitivity ((r * r) * (u * sin s)); [ring|]. rewrite Q.
      transitivity (v * (r * rho * sin f)); [|ring]. rewrite <- Ps. pose proof sg2' as G.
      transitivity (sg * (ux * ((1 - u) * uy + u * (sg * sin s * ux + cos s * uy)) - uy * ((1 - u) * ux + u * (cos s * ux - sg * sin s * uy)))).
      + transitivity ((sg * sg) * ((ux * ux + uy * uy) * (u * sin s))); [rewrite G; ring|ring].
      + rewrite X', Y'. ring.
  Qed.

  Definition near_arc (d : R) : Prop := exists q, on_arc a q /\ euclid p q <= d.

  Lemma poa_unfold : point_on_arc a p = if Rlt_dec (Rabs (r - rho)) EPS then
      match intersection (Ln (ap1 a) (ap2 a)) (Ln (center a) p) true false false with None => Rltb PI s | Some _ => negb (Rltb PI s) end else false.
  Proof.
    unfold point_on_arc, feq. rewrite dist_euclid, euclid_sym. rnum. fold r rho s. unfold Rltb at 1. destruct (Rlt_dec _ _); reflexivity.
  Qed.

  (** The directions of points for which chord and radius meet. *)
  Lemma meets_near f q : 0 < s < PI -> EPS * (r + EPS) < r * cos (s / 2) -> polar (center a) (ap1 a) p sg f -> - PI < f <= PI -> Rabs (r - rho) < EPS ->
    intersection (Ln (ap1 a) (ap2 a)) (Ln (center a) p) true false false = Some q ->
    near_arc (EPS * (1 + 2 * (r + EPS))).
  Proof.
    intros Hs Ec Pf Rf Hd H. unfold intersection in H. destruct (intersection_mu _ _ _ _ _) as [u|] eqn:M; [|discriminate].
    destruct (intersection_mu_spec _ _ _ _ _ _ M He) as (_ & v & Q & Wu & Wv). cbn [orb] in Wu, Wv. specialize (Wu eq_refl). specialize (Wv eq_refl).
    clear H M. destruct (meet_eqs f u v Pf Q) as [E1 E2].
    assert (R0 : 0 < r) by apply W. assert (P0 : 0 <= rho) by apply euclid_pos.
    assert (Hc : 0 < cos (s / 2)) by (apply cos_gt_0; lra).
    assert (Hsn : 0 < sin s) by (apply sin_gt_0; lra).
    pose proof (sin2_cos2 f) as F2. pose proof (sin2_cos2 s) as S2. unfold Rsqr in F2, S2.
    destruct (half_angle s) as [HC _]. pose proof (sin2_cos2 (s / 2)) as H2. unfold Rsqr in H2.
    assert (SQ : (v * rho) * (v * rho) = r * r * (1 - 2 * (u * (1 - u)) * (1 - cos s))).
    { transitivity ((v * (rho * cos f)) * (v * (rho * cos f)) + (v * (rho * sin f)) * (v * (rho * sin f))).
      - transitivity (v * rho * (v * rho) * (sin f * sin f + cos f * cos f)); [rewrite F2; ring|ring].
      - rewrite <- E1, <- E2. transitivity (r * r * ((1 - u) * (1 - u) + 2 * u * (1 - u) * cos s + u * u * (sin s * sin s + cos s * cos s))); [ring|rewrite S2; ring]. }
    assert (Rb : r - EPS < rho < r + EPS) by (apply Rabs_def2 in Hd; lra).
    assert (Vp : 0 < v).
    { destruct (Rlt_le_dec 0 v) as [L|L]; auto. exfalso.
      assert (U4 : u * (1 - u) <= 1/4) by (pose proof (Rle_0_sqr (u - 1/2)) as Z; unfold Rsqr in Z; lra).
      assert (C1 : 0 <= 1 - cos s) by (pose proof (COS_bound s); lra).
      assert (K : r * r * (cos (s / 2) * cos (s / 2)) <= v * rho * (v * rho)).
      { rewrite SQ. apply Rmult_le_compat_l; [apply Rmult_le_pos; lra|].
        replace (cos (s / 2) * cos (s / 2)) with (1 - (1 - cos s) / 2) by lra.
        assert (u * (1 - u) * (1 - cos s) <= 1 / 4 * (1 - cos s)) by (apply Rmult_le_compat_r; lra). lra. }
      assert (L1 : 0 <= - v * rho <= EPS * (r + EPS)).
      { split; [apply Rmult_le_pos; lra|]. apply Rle_trans with (EPS * rho); [apply Rmult_le_compat_r; lra|apply Rmult_le_compat_l; lra]. }
      assert (L2 : 0 < r * cos (s / 2)) by (apply Rmult_lt_0_compat; lra).
      assert (L3 : (- v * rho) * (- v * rho) < (r * cos (s / 2)) * (r * cos (s / 2))) by (apply Rmult_le_0_lt_compat; lra). lra. }
    assert (Pp : 0 < rho).
    { destruct P0 as [P0|P0]; auto. exfalso. rewrite <- P0 in E1, E2. 
      assert (u = 0). { assert (Z : r * (u * sin s) = 0) by (rewrite E2; ring). apply Rmult_integral in Z as [Z|Z]; [lra|]. apply Rmult_integral in Z as [Z|Z]; lra. }
      subst u. lra. }
    assert (VR : 0 < v * rho) by (apply Rmult_lt_0_compat; lra).
    assert (D1 : euclid p (ap1 a) * euclid p (ap1 a) = (r - rho) * (r - rho) + 2 * (r * rho) * (1 - cos f)).
    { pose proof (first_sqr a p sg f W (sgn_cases a) (sgn_sweep a) Pf) as Z. rewrite (euclid_sym p). fold r rho in Z. rewrite Z. ring. }
    assert (D2 : euclid p (ap2 a) * euclid p (ap2 a) = (r - rho) * (r - rho) + 2 * (r * rho) * (1 - cos (s - f))).
    { pose proof (last_sqr a p sg f W (sgn_cases a) (sgn_sweep a) Pf) as Z. rewrite (euclid_sym p). fold r rho s in Z. rewrite Z. ring. }
    assert (E3 : v * (rho * sin (s - f)) = r * ((1 - u) * sin s)).
    { rewrite sin_minus. transitivity (sin s * (v * (rho * cos f)) - cos s * (v * (rho * sin f))); [ring|]. rewrite <- E1, <- E2. ring. }
    assert (E4 : v * (rho * cos (s - f)) = r * (u + (1 - u) * cos s)).
    { rewrite cos_minus. transitivity (cos s * (v * (rho * cos f)) + sin s * (v * (rho * sin f))); [ring|]. rewrite <- E1, <- E2.
      transitivity (r * (u * (sin s * sin s + cos s * cos s) + (1 - u) * cos s)); [ring|rewrite S2; ring]. }
    assert (Bd : (r - rho) * (r - rho) <= EPS * EPS).
    { destruct (Rle_dec 0 (r - rho)); nra. }
    (* close to an end point *)
    assert (End : forall g x, - EPS <= x <= 0 -> v * (rho * sin g) = r * (x * sin s) -> v * (rho * cos g) = r * (1 - x + x * cos s) ->
      (r - rho) * (r - rho) + 2 * (r * rho) * (1 - cos g) <= (EPS * (1 + 2 * (r + EPS))) * (EPS * (1 + 2 * (r + EPS)))).
    { intros g x Hx Gs Gc.
      assert (C1 : 0 <= 1 - cos s) by (pose proof (COS_bound s); lra).
      assert (A1 : r <= v * rho * cos g). { replace (v * rho * cos g) with (r * (1 - x + x * cos s)) by (rewrite <- Gc; ring). 
        replace (1 - x + x * cos s) with (1 + (- x) * (1 - cos s)) by ring. assert (0 <= (- x) * (1 - cos s)) by (apply Rmult_le_pos; lra). nra. }
      assert (A2 : Rabs (v * rho * sin g) <= r * EPS).
      { replace (v * rho * sin g) with (r * (x * sin s)) by (rewrite <- Gs; ring). rewrite !Rabs_mult, (Rabs_pos_eq r) by lra.
        apply Rmult_le_compat_l; [lra|]. rewrite (Rabs_pos_eq (sin s)) by lra. pose proof (SIN_bound s). assert (Rabs x <= EPS) by (rewrite Rabs_left1; lra).
        pose proof (Rabs_pos x). nra. }
      assert (G1 : 0 < cos g). { destruct (Rlt_le_dec 0 (cos g)); auto. exfalso. assert (v * rho * cos g <= 0) by nra. lra. }
      pose proof (sin2_cos2 g) as G2. unfold Rsqr in G2.
      assert (G3 : sin g * sin g <= EPS * EPS).
      { (* |sin g| v rho <= r EPS <= EPS * v rho cos g <= EPS v rho *)
        pose proof (COS_bound g). assert (B1 : r <= v * rho) by nra.
        assert (B2 : (v * rho) * Rabs (sin g) <= (v * rho) * EPS).
        { rewrite Rabs_mult, (Rabs_pos_eq (v * rho)) in A2 by lra. apply Rle_trans with (r * EPS); [exact A2|]. apply Rmult_le_compat_r; lra. }
        apply Rmult_le_reg_l in B2; [|exact VR]. pose proof (Rabs_pos (sin g)).
        replace (sin g * sin g) with (Rabs (sin g) * Rabs (sin g)) by (unfold Rabs; destruct Rcase_abs; ring). apply Rmult_le_compat; lra. }
      assert (G4 : 1 - cos g <= EPS * EPS) by (pose proof (COS_bound g); nra).
      assert (G5 : 0 <= r * rho <= (r + EPS) * (r + EPS)). { split; [apply Rmult_le_pos; lra|]. apply Rmult_le_compat; lra. }
      assert (G6 : 2 * (r * rho) * (1 - cos g) <= 2 * ((r + EPS) * (r + EPS)) * (EPS * EPS)).
      { pose proof (COS_bound g). apply Rmult_le_compat; lra. }
      set (e := r + EPS) in *. assert (0 < e) by (unfold e; lra).
      assert (0 < EPS * EPS) by (apply Rmult_lt_0_compat; lra).
      replace (EPS * (1 + 2 * e) * (EPS * (1 + 2 * e))) with ((EPS * EPS) * (1 + 4 * e + 4 * (e * e))) by ring.
      assert (0 < (EPS * EPS) * e) by (apply Rmult_lt_0_compat; lra). assert (0 < (EPS * EPS) * (e * e)) by (apply Rmult_lt_0_compat; nra). lra. }
    assert (Pos : 0 <= EPS * (1 + 2 * (r + EPS))) by (apply Rmult_le_pos; lra).
    destruct (Rlt_le_dec u 0) as [U0|U0]; [|destruct (Rlt_le_dec 1 u) as [U1|U1]].
    - exists (ap1 a). split; [exists 0; split; [lra|]; rewrite Rmult_0_l, turned_0; reflexivity|].
      apply near_sqr; [apply euclid_pos|exact Pos|]. rewrite D1. apply (End f u); [lra|symmetry; exact E2|symmetry; exact E1].
    - exists (ap2 a). split; [exists 1; split; [lra|]; rewrite Rmult_1_l; apply W|].
      apply near_sqr; [apply euclid_pos|exact Pos|]. rewrite D2. apply (End (s - f) (1 - u)); [lra|exact E3|]. rewrite E4. ring.
    - assert (0 <= sin f). { apply Rmult_le_reg_l with (v * rho); [exact VR|]. rewrite Rmult_0_r. replace (v * rho * sin f) with (r * (u * sin s)) by (rewrite E2; ring). apply Rmult_le_pos; [lra|]. apply Rmult_le_pos; lra. }
      assert (0 <= sin (s - f)). { apply Rmult_le_reg_l with (v * rho); [exact VR|]. rewrite Rmult_0_r. replace (v * rho * sin (s - f)) with (r * ((1 - u) * sin s)) by (rewrite <- E3; ring). apply Rmult_le_pos; [lra|]. apply Rmult_le_pos; lra. }
      assert (F0 : 0 <= f). { destruct (Rle_dec 0 f); auto. assert (sin f < 0). { replace f with (- (- f)) by ring. rewrite sin_neg. assert (0 < sin (- f)) by (apply sin_gt_0; lra). lra. } lra. }
      assert (F1 : f <= s). { destruct (Rle_dec f s); auto. assert (0 < sin (f - s)) by (apply sin_gt_0; lra). replace (s - f) with (- (f - s)) in * by ring. rewrite sin_neg in *. lra. }
      destruct (in_cone a p sg f W (sgn_cases a) (sgn_sweep a) Pf (conj F0 F1)) as [(q' & Q1 & Q2) _].
      exists q'. split; [exact Q1|]. rewrite Q2. fold r rho. rewrite Rabs_minus_sym. nra.
  Qed.

  Theorem poa_sound : 0 < s < PI -> EPS * (r + EPS) < r * cos (s / 2) -> point_on_arc a p = true -> near_arc (EPS * (1 + 2 * (r + EPS))).
  Proof.
    intros Hs Ec H. rewrite poa_unfold in H. destruct (Rlt_dec _ _) as [D|]; [|discriminate].
    destruct (intersection _ _ _ _ _) as [q|] eqn:Iq.
    - destruct (polar_exists (center a) (ap1 a) p) as (f & _ & Rf & Pf).
      assert (Q : polar (center a) (ap1 a) p sg (sg * f)).
      { destruct (sgn_cases a) as [G|G]; fold sg in G; rewrite G; [rewrite Rmult_1_l; exact Pf|]. replace (-1 * f) with (- f) by ring. apply polar_flip, Pf. }
      destruct (Req_dec f PI) as [Z|Z].
      + apply (meets_near PI q); auto; [|pose proof PI_RGT_0; lra]. destruct (sgn_cases a) as [G|G]; fold sg in G; rewrite G, Z in *; [rewrite Rmult_1_l in Q; exact Q|].
        eapply polar_period; [| |exact Q]; replace (-1 * PI) with (- PI) by ring; [rewrite cos_neg; reflexivity|rewrite sin_neg, sin_PI; ring].
      + apply (meets_near (sg * f) q); auto. destruct (sgn_cases a) as [G|G]; fold sg in G; rewrite G; lra.
    - rewrite (proj2 (Rltb_false PI s)) in H by lra. discriminate.
  Qed.

  Theorem poa_complete : 0 < s < PI -> EPS <= r * r * sin s -> on_arc a p -> point_on_arc a p = true.
  Proof.
    intros Hs Ep (t & Ht & Hp). assert (R0 : 0 < r) by apply W.
    assert (Rad : radially a t p). { exists 1. split; [lra|]. rewrite <- Hp. destruct (center a), p. unfold at_param. cbn [p1 p2]. ptx; ring. }
    destruct (radial_polar a p W t Rad) as [_ Pf]. fold sg s in Pf.
    assert (RR : rho = r). { unfold rho. rewrite Hp, turned_dist. apply W. }
    rewrite poa_unfold. destruct (Rlt_dec _ _) as [_|N]; [|rewrite RR, Rminus_diag_eq, Rabs_R0 in N; lra].
    set (f := t * s) in *. assert (Rf : 0 <= f <= s) by (unfold f; nra).
    assert (S1 : 0 <= sin f) by (apply sin_ge_0; lra). assert (S2 : 0 <= sin (s - f)) by (apply sin_ge_0; lra).
    assert (Ss : 0 < sin s) by (apply sin_gt_0; lra).
    assert (C1 : 0 < 1 + cos s). { pose proof (sin2_cos2 s) as Q. unfold Rsqr in Q. pose proof (COS_bound s). nra. }
    assert (Sum : sin s <= sin f + sin (s - f)).
    { (* sin s = sin f cos (s-f) + cos f sin (s-f) *)
      pose proof (sin_plus f (s - f)) as Q. replace (f + (s - f)) with s in Q by ring. rewrite Q.
      pose proof (COS_bound f). pose proof (COS_bound (s - f)). nra. }
    set (d := sin f + sin (s - f)) in *. assert (D0 : 0 < d) by lra.
    assert (DI : 0 < / d) by (apply Rinv_0_lt_compat; lra).
    assert (Meet : at_param (Ln (ap1 a) (ap2 a)) (sin f / d) = at_param (Ln (center a) p) (sin s / d)).
    { destruct W as (_ & R1 & R2). rewrite R2, Hp. unfold at_param, turned. cbn [px py p1 p2].
      assert (CS : cos (t * sweep a) = cos f /\ sin (t * sweep a) = sg * sin f).
      { unfold f. rewrite (sgn_sweep a). fold s sg. destruct (sgn_cases a) as [G|G]; fold sg in G; rewrite G; [rewrite !Rmult_1_l; auto|].
        replace (t * (-1 * s)) with (- (t * s)) by ring. rewrite cos_neg, sin_neg. split; [auto|ring]. }
      destruct CS as [-> ->]. destruct cs as [-> ->]. pose proof (sin_minus s f) as SM.
      assert (U : 1 - sin f / d = sin (s - f) / d) by (unfold d; field; unfold d in D0; lra).
      assert (X1 : 1 - sin f / d + sin f / d * cos s = sin s / d * cos f).
      { rewrite U, SM. field. lra. }
      set (ux := px (ap1 a) - px (center a)). set (uy := py (ap1 a) - py (center a)).
      apply pt_ext; cbn [px py].
      - transitivity (px (center a) + ((1 - sin f / d + sin f / d * cos s) * ux - sg * (sin f / d) * sin s * uy)); [unfold ux, uy; toR; ring|rewrite X1; toR; field; lra].
      - transitivity (py (center a) + ((1 - sin f / d + sin f / d * cos s) * uy + sg * (sin f / d) * sin s * ux)); [unfold ux, uy; toR; ring|rewrite X1; toR; field; lra]. }
    assert (DC : Rabs (dir_cross (Ln (ap1 a) (ap2 a)) (Ln (center a) p)) = r * r * d).
    { destruct W as (_ & R1 & R2). pose proof (euclid_sqr' (ap1 a) (center a)) as Q. rewrite R1 in Q. fold r in Q.
      assert (CS : cos (t * sweep a) = cos f /\ sin (t * sweep a) = sg * sin f).
      { unfold f. rewrite (sgn_sweep a). fold s sg. destruct (sgn_cases a) as [G|G]; fold sg in G; rewrite G; [rewrite !Rmult_1_l; auto|].
        replace (t * (-1 * s)) with (- (t * s)) by ring. rewrite cos_neg, sin_neg. split; [auto|ring]. }
      assert (K : dir_cross (Ln (ap1 a) (ap2 a)) (Ln (center a) p) = - sg * (r * r * d)).
      { unfold dir_cross. cbn [p1 p2]. rewrite R2, Hp. unfold turned. cbn [px py]. destruct CS as [-> ->]. destruct cs as [-> ->]. unfold d. rewrite sin_minus, Q.
        set (ux := px (ap1 a) - px (center a)). set (uy := py (ap1 a) - py (center a)).
        replace (px (center a) + (cos s * ux - sg * sin s * uy) - px (ap1 a)) with (cos s * ux - sg * sin s * uy - ux) by (unfold ux; ring).
        replace (py (center a) + (sg * sin s * ux + cos s * uy) - py (ap1 a)) with (sg * sin s * ux + cos s * uy - uy) by (unfold uy; ring). ring. }
      rewrite K. assert (0 < r * r * d) by (repeat apply Rmult_lt_0_compat; lra).
      destruct (sgn_cases a) as [G|G]; fold sg in G; rewrite G; unfold Rabs; destruct Rcase_abs; lra. }
    assert (Some_ : exists q, intersection (Ln (ap1 a) (ap2 a)) (Ln (center a) p) true false false = Some q).
    { unfold intersection. erewrite (intersection_mu_complete _ _ true false false _ _ He); [eexists; reflexivity| |exact Meet| |].
      - rewrite DC. assert (r * r * sin s <= r * r * d) by (apply Rmult_le_compat_l; [apply Rmult_le_pos|]; lra). lra.
      - intros _. assert (0 <= sin f / d <= 1). { split; [apply Rmult_le_pos; lra|]. apply Rmult_le_reg_r with d; [lra|]. unfold Rdiv. rewrite Rmult_assoc, Rinv_l by lra. unfold d. lra. } lra.
      - intros _. assert (0 <= sin s / d <= 1). { split; [apply Rmult_le_pos; lra|]. apply Rmult_le_reg_r with d; [lra|]. unfold Rdiv. rewrite Rmult_assoc, Rinv_l by lra. lra. } lra. }
    destruct Some_ as (q & ->). rewrite (proj2 (Rltb_false PI s)) by lra. reflexivity.
  Qed.
End M.

(** The rest of the circle. *)
Definition rest (a : Arc_) : Arc_ := mkarc (ap1 a) (ap2 a) (radius a) (sweep a - sgn a * (2 * PI))%R (center a).
Lemma rest_wf a : wf_arc a -> wf_arc (rest a).
Proof.
  intros (R0 & R1 & R2). split; [exact R0|]. split; [exact R1|]. unfold rest. cbn [ap1 ap2 center sweep]. rewrite R2 at 1. unfold turned.
  replace (cos (sweep a - sgn a * (2 * PI))) with (cos (sweep a)).
  replace (sin (sweep a - sgn a * (2 * PI))) with (sin (sweep a)). reflexivity.
  - destruct (sgn_cases a) as [-> | ->]; [rewrite <- (sin_period_Z (sweep a) (-1))|rewrite <- (sin_period_Z (sweep a) 1)]; f_equal; ring.
  - destruct (sgn_cases a) as [-> | ->]; [rewrite <- (cos_period_Z (sweep a) (-1))|rewrite <- (cos_period_Z (sweep a) 1)]; f_equal; ring.
Qed.
Lemma rest_sweep a : 0 < Rabs (sweep a) < 2 * PI -> Rabs (sweep (rest a)) = 2 * PI - Rabs (sweep a).
Proof.
  intros H. cbn [rest sweep]. unfold sgn, Rabs in *. destruct Rlt_dec, Rcase_abs, Rcase_abs; lra.
Qed.
Lemma poa_major {E : Epsilon ROps} a p : PI < Rabs (sweep a) < 2 * PI -> Rabs (radius a - euclid p (center a)) < EPS ->
  point_on_arc a p = negb (point_on_arc (rest a) p).
Proof.
  intros H D. rewrite !poa_unfold. rewrite rest_sweep by (pose proof PI_RGT_0; lra). cbn [rest radius center ap1 ap2].
  destruct (Rlt_dec _ _); [|lra]. rewrite (proj2 (Rltb_true PI (Rabs (sweep a)))), (proj2 (Rltb_false PI (2 * PI - Rabs (sweep a)))) by lra.
  destruct (intersection _ _ _ _ _); reflexivity.
Qed.
