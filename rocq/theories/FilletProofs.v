(** * FilletProofs: the fillet between two lines, over R. *)
From Verif Require Import Num NumR Geom GeomR GeomSpec GeomProofs GeomProofs2 GeomProofs3 GeomProofs4 GeomProofs5 GeomProofs7 Gcode Cam Offset OffsetSpec OffsetProofs Fillet.
From Coq Require Import ZArith Reals Lra Lia Bool List Psatz.
Import ListNotations.
Local Open Scope R_scope.

Section F.
  Context {E : Epsilon ROps}.
  Hypothesis He : 0 < EPS.

  (** The clamped projection of a point whose foot has parameter [u]. *)
  Lemma lproj_seg (l : Line_) (p : Pt) u : EPS <= seg_len l ->
    (px p - px (p1 l)) * (px (p2 l) - px (p1 l)) + (py p - py (p1 l)) * (py (p2 l) - py (p1 l)) = u * (seg_len l * seg_len l) ->
    lproj_point l p true = Ok (at_param l (Rmax 0 (Rmin u 1))).
  Proof.
    intros H Hu. destruct (proj_exists He l p H) as (v & Hv & Q). unfold lproj_point. rewrite Hv. cbn [rmap andb]. rnum.
    assert (v = u). { apply (Rmult_eq_reg_r (seg_len l * seg_len l)); [|nra]. rewrite Q. exact Hu. }
    subst v. destruct (Rleb u 0) eqn:L; [|destruct (Rleb 1 u) eqn:G]; rbool.
    - rewrite Rmin_left, Rmax_left by lra. now rewrite at_param_0.
    - rewrite Rmin_right, Rmax_right by lra. now rewrite at_param_1.
    - rewrite Rmin_left, Rmax_right by lra. now rewrite <- at_param_model.
  Qed.
  Lemma lproj_line (l : Line_) (p : Pt) u : EPS <= seg_len l ->
    (px p - px (p1 l)) * (px (p2 l) - px (p1 l)) + (py p - py (p1 l)) * (py (p2 l) - py (p1 l)) = u * (seg_len l * seg_len l) ->
    lproj_point l p false = Ok (at_param l u).
  Proof.
    intros H Hu. destruct (proj_exists He l p H) as (v & Hv & Q). unfold lproj_point. rewrite Hv. cbn [rmap andb]. rnum.
    assert (v = u). { apply (Rmult_eq_reg_r (seg_len l * seg_len l)); [|nra]. rewrite Q. exact Hu. }
    subst v. now rewrite <- at_param_model.
  Qed.
  Lemma atan2_sign y x : 0 < y -> 0 < Ratan2 y x < PI.
  Proof.
    intros Hy. destruct (atan2_polar y x) as [_ S]. pose proof (atan2_range y x) as [R1 R2]. pose proof (hypot_pos x y).
    assert (0 < Rhypot x y). { destruct H as [H|H]; [exact H|]. rewrite <- H in S. lra. }
    assert (0 < sin (Ratan2 y x)) by nra.
    destruct (Rle_dec (Ratan2 y x) 0).
    - exfalso. pose proof (sin_ge_0 (- Ratan2 y x) ltac:(lra) ltac:(lra)) as Z. rewrite sin_neg in Z. lra.
    - split; [lra|]. destruct R2 as [R2|R2]; [exact R2|]. rewrite R2, sin_PI in H1. lra.
  Qed.
  Lemma atan2_sign_neg y x : y < 0 -> - PI < Ratan2 y x < 0.
  Proof.
    intros Hy. destruct (atan2_polar y x) as [_ S]. pose proof (atan2_range y x) as [R1 R2]. pose proof (hypot_pos x y).
    assert (0 < Rhypot x y). { destruct H as [H|H]; [exact H|]. rewrite <- H in S. lra. }
    assert (sin (Ratan2 y x) < 0) by nra. split; [lra|].
    destruct (Rlt_dec (Ratan2 y x) 0); [assumption|]. exfalso.
    pose proof (sin_ge_0 (Ratan2 y x) ltac:(lra) ltac:(lra)). lra.
  Qed.

  (** The corner at (x, y) between the unit directions (a, b) and (c, d). *)
  Section Corner.
    Variables x y a b c d L1 L2 r : R.
    Hypothesis U1 : a * a + b * b = 1.
    Hypothesis U2 : c * c + d * d = 1.
    Hypothesis HL1 : EPS <= L1.
    Hypothesis HL2 : EPS <= L2.
    Hypothesis Hr : EPS <= r.
    Let l1 : Line_ := Ln (P (x - L1 * a)%R (y - L1 * b)%R) (P x y).
    Let l2 : Line_ := Ln (P x y) (P (x + L2 * c)%R (y + L2 * d)%R).
    Let s := a * d - b * c.
    Let q := a * c + b * d.
    Let k := if Rle_dec 0 s then 1 else -1.
    Let t := r * Rabs s / (1 + q).
    Let ctr : Pt := P (x - t * a - k * r * b)%R (y - t * b + k * r * a)%R.

    Lemma len1 : seg_len l1 = L1.
    Proof. unfold seg_len. apply euclid_unique; [lra|]. cbn [px py p1 p2 l1]. transitivity (L1 * L1 * (a * a + b * b)); [rewrite U1; ring|ring]. Qed.
    Lemma len2 : seg_len l2 = L2.
    Proof. unfold seg_len. apply euclid_unique; [lra|]. cbn [px py p1 p2 l2]. transitivity (L2 * L2 * (c * c + d * d)); [rewrite U2; ring|ring]. Qed.
    Lemma sq1 : s * s + q * q = 1.
    Proof. unfold s, q. transitivity ((a * a + b * b) * (c * c + d * d)); [ring|rewrite U1, U2; ring]. Qed.
    Lemma ks : k * s = Rabs s.
    Proof. unfold k. destruct (Rle_dec 0 s); [rewrite Rabs_right; lra|rewrite Rabs_left; lra]. Qed.
    Lemma kk : k * k = 1.
    Proof. unfold k. destruct (Rle_dec 0 s); lra. Qed.
    Lemma cross12 : dir_cross l1 l2 = L1 * L2 * s.
    Proof. unfold dir_cross, s. cbn [px py p1 p2 l1 l2]. ring. Qed.
    Hypothesis Hs : EPS <= Rabs (dir_cross l1 l2).
    Lemma s0 : s <> 0.
    Proof. intros Z. rewrite cross12, Z, Rmult_0_r, Rabs_R0 in Hs. lra. Qed.
    Lemma q1 : 0 < 1 + q.
    Proof. pose proof sq1. pose proof s0. assert (0 < s * s) by nra. nra. Qed.
    Lemma t_pos : 0 < t.
    Proof. unfold t. pose proof q1. assert (0 < Rabs s) by (apply Rabs_pos_lt, s0). apply Rdiv_lt_0_compat; [nra|lra]. Qed.
    Lemma meet_point : ctr = P (x + t * c - k * r * d)%R (y + t * d + k * r * c)%R.
    Proof.
      pose proof q1 as Hq. pose proof ks as K.
      assert (Tq : t * (1 + q) = r * (k * s)) by (unfold t; rewrite K; field; lra).
      assert (X : t * (a + c) = k * r * (d - b)).
      { apply (Rmult_eq_reg_r (1 + q)); [|lra]. transitivity ((t * (1 + q)) * (a + c)); [ring|]. rewrite Tq.
        transitivity (r * k * (s * (a + c))); [ring|]. transitivity (r * k * ((1 + q) * (d - b))); [|ring]. f_equal.
        unfold s, q. transitivity (d * (a * a + b * b) - b * (c * c + d * d) + a * c * d + b * d * d - a * b * c - b * b * d); [ring|rewrite U1, U2; ring]. }
      assert (Y : t * (b + d) = k * r * (a - c)).
      { apply (Rmult_eq_reg_r (1 + q)); [|lra]. transitivity ((t * (1 + q)) * (b + d)); [ring|]. rewrite Tq.
        transitivity (r * k * (s * (b + d))); [ring|]. transitivity (r * k * ((1 + q) * (a - c))); [|ring]. f_equal.
        unfold s, q. transitivity (a * (c * c + d * d) - c * (a * a + b * b) + a * (a * c + b * d) - c * (a * c + b * d)); [ring|rewrite U1, U2; ring]. }
      unfold ctr. apply pt_ext; cbn [px py]; match goal with |- ?a = ?b => change (@eq R a b) end; lra.
    Qed.
    Lemma side_corner : which_side l1 (p2 l2) false = if Rle_dec 0 s then 1%Z else (-1)%Z.
    Proof.
      unfold which_side. cbn [andb]. unfold cross, vec, psub. cbn [px py p1 p2 l1 l2]. rnum.
      replace ((x - (x - L1 * a)) * (y + L2 * d - (y - L1 * b)) - (x + L2 * c - (x - L1 * a)) * (y - (y - L1 * b))) with (L1 * L2 * s) by (unfold s; ring).
      assert (0 < L1 * L2) by nra. destruct (Rle_dec 0 s).
      - destruct (Rleb 0 (L1 * L2 * s)) eqn:Z; [reflexivity|]. apply Rleb_false in Z. nra.
      - destruct (Rleb 0 (L1 * L2 * s)) eqn:Z; [|reflexivity]. apply Rleb_true in Z. nra.
    Qed.
    Lemma center_corner : intersection (loffset l1 (r * k)%R) (loffset l2 (r * k)%R) false false false = Some ctr.
    Proof.
      assert (Ho : EPS <= Rabs (r * k)).
      { unfold k. destruct (Rle_dec 0 s); [rewrite Rmult_1_r, Rabs_right; lra|]. replace (r * -1) with (- r) by ring. rewrite Rabs_Ropp, Rabs_right; lra. }
      assert (O1 : loffset l1 (r * k)%R = Ln (P (x - L1 * a - k * r * b)%R (y - L1 * b + k * r * a)%R) (P (x - k * r * b)%R (y + k * r * a)%R)).
      { rewrite offset_spec; [|exact Ho|rewrite len1; exact HL1]. rewrite len1. unfold moved. cbn [px py p1 p2 l1].
        f_equal; apply pt_ext; cbn [px py]; match goal with |- ?a = ?b => change (@eq R a b) end; field; lra. }
      assert (O2 : loffset l2 (r * k)%R = Ln (P (x - k * r * d)%R (y + k * r * c)%R) (P (x + L2 * c - k * r * d)%R (y + L2 * d + k * r * c)%R)).
      { rewrite offset_spec; [|exact Ho|rewrite len2; exact HL2]. rewrite len2. unfold moved. cbn [px py p1 p2 l2].
        f_equal; apply pt_ext; cbn [px py]; match goal with |- ?a = ?b => change (@eq R a b) end; field; lra. }
      unfold intersection. rewrite O1, O2. 
      rewrite (intersection_mu_complete _ _ _ _ _ (1 - t / L1) (t / L2)); [| | | | |].
      - rewrite at_param_model. f_equal. unfold at_param, ctr. cbn [px py p1 p2]. 
        apply pt_ext; cbn [px py]; match goal with |- ?a = ?b => change (@eq R a b) end; field; lra.
      - exact He.
      - match goal with |- EPS <= Rabs ?z => replace z with (dir_cross l1 l2) end; [exact Hs|].
        rewrite cross12. unfold dir_cross, s. cbn [px py p1 p2]. ring.
      - transitivity ctr; [|rewrite meet_point]; unfold at_param, ctr; cbn [px py p1 p2];
        apply pt_ext; cbn [px py]; match goal with |- ?a = ?b => change (@eq R a b) end; field; lra.
      - intros ?; discriminate.
      - intros ?; discriminate.
    Qed.
    Lemma foot1 : lproj_point l1 ctr true = Ok (at_param l1 (Rmax 0 (1 - t / L1))).
    Proof.
      pose proof t_pos. rewrite (lproj_seg l1 ctr (1 - t / L1)); [| |].
      - rewrite (Rmin_left (1 - t / L1) 1); [reflexivity|]. assert (0 < t / L1) by (apply Rdiv_lt_0_compat; lra). lra.
      - rewrite len1; exact HL1.
      - rewrite len1. unfold ctr. cbn [px py p1 p2 l1].
        transitivity (L1 * (L1 - t) * (a * a + b * b)); [ring|]. rewrite U1. field. lra.
    Qed.
    Lemma foot2 : lproj_point l2 ctr true = Ok (at_param l2 (Rmin (t / L2) 1)).
    Proof.
      pose proof t_pos. rewrite (lproj_seg l2 ctr (t / L2)); [| |].
      - rewrite Rmax_right; [reflexivity|]. apply Rmin_glb; [|lra]. apply Rlt_le, Rdiv_lt_0_compat; lra.
      - rewrite len2; exact HL2.
      - rewrite len2, meet_point. cbn [px py p1 p2 l2].
        transitivity (t * L2 * (c * c + d * d)); [ring|]. rewrite U2. field. lra.
    Qed.
    Lemma foot1_dist u : euclid (at_param l1 u) ctr * euclid (at_param l1 u) ctr = r * r + (t - (1 - u) * L1) * (t - (1 - u) * L1).
    Proof.
      rewrite euclid_sqr. unfold at_param, ctr. cbn [px py p1 p2 l1].
      transitivity ((a * a + b * b) * ((k * k) * (r * r) + (t - (1 - u) * L1) * (t - (1 - u) * L1))); [ring|]. rewrite U1, kk. ring.
    Qed.
    Lemma foot2_dist u : euclid (at_param l2 u) ctr * euclid (at_param l2 u) ctr = r * r + (t - u * L2) * (t - u * L2).
    Proof.
      rewrite meet_point, euclid_sqr. unfold at_param. cbn [px py p1 p2 l2].
      transitivity ((c * c + d * d) * ((k * k) * (r * r) + (t - u * L2) * (t - u * L2))); [ring|]. rewrite U2, kk. ring.
    Qed.
    Lemma off_side : (r * (of_Z (n := ROps) (which_side l1 (p2 l2) false)))%R = (r * k)%R.
    Proof. rewrite side_corner. unfold k. destruct (Rle_dec 0 s); reflexivity. Qed.

    (** It fits. *)
    Lemma corner_fits : t <= L1 -> t <= L2 ->
      EPS <= euclid (at_param l1 (1 - t / L1)) (at_param l2 (t / L2)) ->
      exists f, fillet_line_line l1 l2 r = Ok (Some f) /\ wf_arc f /\ radius f = r /\ center f = ctr /\
        ap1 f = at_param l1 (1 - t / L1) /\ ap2 f = at_param l2 (t / L2) /\
        - PI < sweep f < PI /\ sweep f <> 0 /\
        heading (SArc f) 0 = P a b /\ heading (SArc f) 1 = P c d.
    Proof.
      intros T1 T2 Hd. pose proof t_pos as Tp.
      assert (A1 : t / L1 <= 1) by (apply (Rmult_le_reg_r L1); [lra|]; replace (t / L1 * L1) with t by (field; lra); lra).
      assert (A2 : t / L2 <= 1) by (apply (Rmult_le_reg_r L2); [lra|]; replace (t / L2 * L2) with t by (field; lra); lra).
      unfold fillet_line_line. pose proof off_side as OS. cbn [mul ROps] in *. rewrite OS, center_corner, foot1, foot2. cbn [rbind].
      rewrite (Rmax_right 0 (1 - t / L1)) by lra. rewrite (Rmin_left (t / L2) 1) by lra.
      set (f1 := at_param l1 (1 - t / L1)) in *. set (f2 := at_param l2 (t / L2)) in *.
      assert (D1 : euclid f1 ctr = r).
      { pose proof (foot1_dist (1 - t / L1)) as Q. fold f1 in Q. replace (t - (1 - (1 - t / L1)) * L1) with 0 in Q by (field; lra).
        pose proof (euclid_pos f1 ctr). nra. }
      assert (D2 : euclid f2 ctr = r).
      { pose proof (foot2_dist (t / L2)) as Q. fold f2 in Q. replace (t - t / L2 * L2) with 0 in Q by (field; lra).
        pose proof (euclid_pos f2 ctr). nra. }
      assert (Z : peq f1 f2 = false) by (apply peq_false; assumption).
      rewrite Z, (dist_euclid f1), (dist_euclid f2), D1, D2. cbn [negb andb]. unfold feq. rnum. rewrite Rminus_eq_0, Rabs_R0.
      destruct (Rltb 0 EPS) eqn:Z0; [|apply Rltb_false in Z0; lra]. cbn [andb].
      eexists. split; [reflexivity|]. unfold arc_from_center. cbn [radius center ap1 ap2 sweep]. rewrite dist_euclid, D1.
      assert (TU : turned ctr (angle2 ctr f1 f2) f1 = f2) by (apply (angle2_turned He _ _ _ r); auto; lra).
      assert (F1 : f1 = P (px ctr + k * r * b)%R (py ctr - k * r * a)%R).
      { unfold f1, at_param, ctr. cbn [px py p1 p2 l1]. apply pt_ext; cbn [px py]; match goal with |- ?a = ?b => change (@eq R a b) end; field; lra. }
      assert (F2 : f2 = P (px ctr + k * r * d)%R (py ctr - k * r * c)%R).
      { rewrite meet_point. unfold f2, at_param. cbn [px py p1 p2 l2]. apply pt_ext; cbn [px py]; match goal with |- ?a = ?b => change (@eq R a b) end; field; lra. }
      assert (AN : (s > 0 -> 0 < angle2 ctr f1 f2 < PI) /\ (s < 0 -> - PI < angle2 ctr f1 f2 < 0)).
      { unfold angle2. 
        assert (F : peq (psub f1 ctr) (psub f2 ctr) = false).
        { apply (peq_false He). replace (euclid (psub f1 ctr) (psub f2 ctr)) with (euclid f1 f2); auto.
          unfold euclid, Rsqr. f_equal. unfold psub; cbn [px py]; rnum. ring. }
        rewrite F. rnum.
        assert (CR : cross (psub f1 ctr) (psub f2 ctr) = (r * r * s)%R).
        { rewrite F1, F2. unfold cross, psub. cbn [px py]. rnum. match goal with |- ?a = ?b => change (@eq R a b) end.
          transitivity (k * k * (r * r * s)); [unfold s; ring|rewrite kk; ring]. }
        rewrite CR. assert (0 < r * r) by nra. split; intros; [apply atan2_sign|apply atan2_sign_neg]; nra. }
      assert (KS : k = if Rlt_dec (angle2 ctr f1 f2) 0 then -1 else 1).
      { pose proof s0. unfold k. destruct (Rle_dec 0 s); destruct (Rlt_dec (angle2 ctr f1 f2) 0); auto; destruct AN as [AN1 AN2]; exfalso.
        - assert (s > 0) by lra. specialize (AN1 H0). lra.
        - assert (s < 0) by lra. specialize (AN2 H0). lra. }
      split; [unfold wf_arc; cbn [radius center ap1 ap2 sweep]; repeat split; [lra|exact D1|symmetry; exact TU]|].
      do 4 (split; [reflexivity|]).
      split; [pose proof s0; destruct AN as [AN1 AN2]; pose proof PI_RGT_0; destruct (Rlt_dec s 0); [specialize (AN2 r0)|specialize (AN1 ltac:(lra))]; lra|].
      split; [pose proof s0; destruct AN as [AN1 AN2]; pose proof PI_RGT_0; destruct (Rlt_dec s 0); [specialize (AN2 r0)|specialize (AN1 ltac:(lra))]; lra|].
      pose proof kk as KK. cbn [heading radius center ap1 sweep]. rewrite <- KS. split.
      - rewrite Rmult_0_l, turned_0, F1. cbn [px py].
        apply pt_ext; cbn [px py]; match goal with |- ?a = ?b => change (@eq R a b) end.
        + transitivity (k * k * a); [field; lra|rewrite KK; ring].
        + transitivity (k * k * b); [field; lra|rewrite KK; ring].
      - rewrite Rmult_1_l, TU, F2. cbn [px py].
        apply pt_ext; cbn [px py]; match goal with |- ?a = ?b => change (@eq R a b) end.
        + transitivity (k * k * c); [field; lra|rewrite KK; ring].
        + transitivity (k * k * d); [field; lra|rewrite KK; ring].
    Qed.
    (** It does not fit. *)
    Lemma corner_misfits : (L1 < t /\ EPS * EPS + 2 * r * EPS <= (t - L1) * (t - L1)) \/ (L2 < t /\ EPS * EPS + 2 * r * EPS <= (t - L2) * (t - L2)) ->
      fillet_line_line l1 l2 r = Ok None.
    Proof.
      intros H. unfold fillet_line_line. pose proof off_side as OS. cbn [mul ROps] in *. rewrite OS, center_corner, foot1, foot2. cbn [rbind].
      rewrite (dist_euclid (at_param l1 _)), (dist_euclid (at_param l2 _)). unfold feq. rnum.
      assert (F : forall e z, 0 <= e -> e * e = r * r + z * z -> EPS * EPS + 2 * r * EPS <= z * z -> Rltb (Rabs (e - r)) EPS = false).
      { intros e z H1 H2 H3. apply Rltb_false. rewrite Rabs_right; nra. }
      destruct H as [[H1 H2]|[H1 H2]].
      - assert (Rmax 0 (1 - t / L1) = 0) as ->.
        { apply Rmax_left. assert (1 < t / L1); [|lra]. apply (Rmult_lt_reg_r L1); [lra|]. replace (t / L1 * L1) with t by (field; lra). lra. }
        rewrite (F (euclid (at_param l1 0) ctr) (t - L1)); [now rewrite andb_false_r|apply euclid_pos| |exact H2].
        rewrite foot1_dist. ring.
      - assert (Rmin (t / L2) 1 = 1) as ->.
        { apply Rmin_right. assert (1 < t / L2); [|lra]. apply (Rmult_lt_reg_r L2); [lra|]. replace (t / L2 * L2) with t by (field; lra). lra. }
        rewrite (F (euclid (at_param l2 1) ctr) (t - L2)); [now rewrite andb_false_r|apply euclid_pos| |exact H2].
        rewrite foot2_dist. ring.
    Qed.
  End Corner.
End F.
