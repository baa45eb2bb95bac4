(** * FilletProofs3: the fillet between a line and an arc, over R. *)
From Verif Require Import Num NumR Geom GeomR GeomSpec GeomProofs GeomProofs2 GeomProofs3 GeomProofs4 GeomProofs5 GeomProofs7 Gcode Cam Offset OffsetSpec OffsetProofs Fillet FilletSpec FilletProofs FilletProofs2.
From Coq Require Import ZArith Reals Lra Lia Bool List Psatz.
Import ListNotations.
Local Open Scope R_scope.

Section F.
  Context {E : Epsilon ROps}.
  Hypothesis He : 0 < EPS.

  (** The part of fillet_line_arc after the two segments have been put in the order line - arc. *)
  Definition line_arc_body (rev : bool) (l : Line_) (a : Arc_) (r : R) : res (option Arc_) :=
    let side := which_side_angle l (astart_tangent a) false in
    let '(h, alpha1) :=
      if ((Z.gtb side 0 && is_clockwise a) || (Z.ltb side 0 && negb (is_clockwise a)))%bool
      then (radius a + r, langle l + PI)%R else (radius a - r, langle l)%R in
    let l3 := loffset l (r * IZR side)%R in
    rbind (lproj_point l3 (center a) false) (fun p5 =>
    let b := pdist p5 (center a) in
    let a2 := (h * h - b * b)%R in
    if Rltb a2 0 then Ok None else
    let c := p2 (l_from_polar p5 (sqrt a2) alpha1) in
    let alpha2 := Rabs (angle2 (center a) (ap1 a) c) in
    rbind (lproj_point l c true) (fun fp1 =>
    Ok (match apoint_at_angle_seg a alpha2 with
        | None => None
        | Some fp2 =>
            if (negb (peq fp1 fp2) && feq (pdist c fp1) (pdist c fp2))%bool
            then Some (if rev then arc_from_center fp2 fp1 c false else arc_from_center fp1 fp2 c false)
            else None
        end))).
  Lemma line_arc_forward (l : Line_) (a : Arc_) r : EPS <= euclid (ap2 a) (p1 l) -> fillet_line_arc l a r = line_arc_body false l a r.
  Proof.
    intros H. unfold fillet_line_arc. pose proof (dist_euclid (ap2 a) (p1 l)) as D. 
    assert (Z : ltb (pdist (ap2 a) (p1 l)) EPS = false) by (toR; rewrite D; apply Rltb_false; lra). rewrite Z. reflexivity.
  Qed.
  Lemma line_arc_backward (l : Line_) (a : Arc_) r : euclid (ap2 a) (p1 l) < EPS -> fillet_line_arc l a r = line_arc_body true (lreversed l) (areversed a) r.
  Proof.
    intros H. unfold fillet_line_arc. pose proof (dist_euclid (ap2 a) (p1 l)) as D. 
    assert (Z : ltb (pdist (ap2 a) (p1 l)) EPS = true) by (toR; rewrite D; apply Rltb_true; lra). rewrite Z. reflexivity.
  Qed.

  (** ** What is returned, in any case. *)
  Lemma clamped (l : Line_) (c q : Pt) : EPS <= seg_len l -> lproj_point l c true = Ok q ->
    on_segment l q /\ (q = p1 l \/ q = p2 l \/ (px c - px q) * (px (p2 l) - px (p1 l)) + (py c - py q) * (py (p2 l) - py (p1 l)) = 0).
  Proof.
    intros Hl H. split; [eapply lproj_on_segment; eauto|].
    destruct (proj_exists He l c Hl) as (u & Hu & Q). unfold lproj_point in H. rewrite Hu in H. cbn [rmap andb] in H.
    destruct (Num.leb u (of_Z 0)); [injection H as <-; auto|]. destruct (Num.leb (of_Z 1) u); [injection H as <-; auto|].
    injection H as <-. right. right. pose proof (at_param_model l u) as M. unfold lpoint_at in M.
    pose proof (euclid_sqr (p1 l) (p2 l)) as S. fold (seg_len l) in S. rewrite S in Q.
    unfold padd, pmul, vec, psub. cbn [px py]. toR. nra.
  Qed.

  Lemma body_sound rev (l : Line_) (a : Arc_) r f : EPS <= seg_len l -> EPS <= r -> wf_arc a ->
    line_arc_body rev l a r = Ok (Some f) ->
    exists q1 q2 k h ang, (ap1 f, ap2 f) = (if rev then (q2, q1) else (q1, q2)) /\
      (k = 1 \/ k = -1) /\ side l (center f) = k * r * seg_len l /\
      (h = radius a + r \/ h = radius a - r) /\ euclid (center f) (center a) = Rabs h /\
      on_segment l q1 /\ (q1 = p1 l \/ q1 = p2 l \/ euclid (center f) q1 = r) /\
      0 <= ang <= Rabs (sweep a) /\ q2 = turned (center a) (if Rltb (sweep a) 0 then - ang else ang) (ap1 a) /\
      EPS <= euclid q1 q2 /\ Rabs (euclid (center f) q1 - euclid (center f) q2) < EPS.
  Proof.
    intros Hl Hr W. unfold line_arc_body. set (sd := which_side_angle _ _ _).
    assert (Sd : sd = 1%Z \/ sd = (-1)%Z) by (unfold sd, which_side_angle, which_side; cbn [andb]; destruct (Num.leb _ _); auto).
    set (k := IZR sd). assert (K : k = 1 \/ k = -1) by (unfold k; destruct Sd as [-> | ->]; auto).
    assert (Kk : k * k = 1) by (destruct K as [-> | ->]; ring).
    match goal with |- context [if ?z then ((radius a + r)%R, ?y) else ?w] => set (pr := if z then ((radius a + r)%R, y) else w) end. destruct pr as [h al] eqn:Pr.
    assert (Hh : (h = radius a + r \/ h = radius a - r) /\ (al = langle l \/ al = langle l + PI)%R).
    { unfold pr in Pr. destruct (_ || _)%bool; injection Pr as <- <-; auto. } clear pr Pr.
    assert (Ho : EPS <= Rabs (r * k)).
    { destruct K as [-> | ->]; [rewrite Rmult_1_r, Rabs_right; lra|]. replace (r * -1) with (- r) by ring. rewrite Rabs_Ropp, Rabs_right; lra. }
    set (L := seg_len l) in *. 
    assert (SL : L * L = (px (p1 l) - px (p2 l)) * (px (p1 l) - px (p2 l)) + (py (p1 l) - py (p2 l)) * (py (p1 l) - py (p2 l))) by (apply euclid_sqr).
    destruct l as [A B]. cbn [p1 p2] in *.
    set (l3 := loffset _ _). assert (O : l3 = Ln (P (px A - (py B - py A) * (r * k / L))%R (py A + (px B - px A) * (r * k / L))%R) (P (px B - (py B - py A) * (r * k / L))%R (py B + (px B - px A) * (r * k / L))%R)).
    { unfold l3. rewrite offset_spec by assumption. fold L. unfold moved. cbn [px py p1 p2]. f_equal; apply pt_ext; cbn [px py]; toR; fold k; ring. }
    assert (L3 : seg_len l3 = L). { rewrite O. unfold seg_len. apply euclid_unique; [lra|]. cbn [px py p1 p2]. toR. rewrite SL. ring. }
    destruct (proj_exists He l3 (center a)) as (u & Hu & Q); [rewrite L3; exact Hl|].
    assert (P5 : lproj_point l3 (center a) false = Ok (at_param l3 u)).
    { unfold lproj_point. rewrite Hu. cbn [rmap andb]. now rewrite <- at_param_model. }
    rewrite P5. cbn [rbind]. set (p5 := at_param l3 u) in *. 
    pose proof (dist_euclid p5 (center a)) as D5. set (b := pdist p5 (center a)) in *.
    destruct (Rltb (h * h - b * b) 0) eqn:A2; [discriminate|]. apply Rltb_false in A2.
    set (w := sqrt (h * h - b * b)). assert (Ww : w * w = h * h - b * b) by (apply sqrt_sqrt; lra).
    set (c := p2 (l_from_polar p5 w al)).
    destruct (line_angle (Ln A B)) as [LC LS]; [fold L; lra|]. fold L in LC, LS. cbn [p1 p2] in LC, LS.
    set (e := if Rle_dec 0 0 then 1 else 1).
    assert (Cx : exists e, (e = 1 \/ e = -1) /\ px c = px p5 + e * w * (px B - px A) / L /\ py c = py p5 + e * w * (py B - py A) / L).
    { unfold c, l_from_polar, padd, from_polar. cbn [px py p2]. toR. destruct Hh as [_ [-> | ->]].
      - exists 1. split; [auto|]. rewrite <- LC, <- LS. split; field; lra.
      - exists (-1). split; [auto|]. rewrite neg_cos, neg_sin. rewrite <- LC, <- LS. split; field; lra. }
    clear e. destruct Cx as (e & He1 & Cx & Cy). assert (Ee : e * e = 1) by (destruct He1 as [-> | ->]; ring).
    (* the foot is perpendicular *)
    assert (Pp : (px p5 - px (center a)) * (px B - px A) + (py p5 - py (center a)) * (py B - py A) = 0).
    { rewrite L3 in Q. unfold p5, at_param. rewrite O in *. cbn [px py p1 p2] in *. toR. rewrite SL in Q.
      match type of Q with ?z = ?y => transitivity (z - y)%R; [toR; ring|rewrite Q; toR; ring] end. }
    assert (Cd : euclid c (center a) = Rabs h).
    { apply euclid_unique; [apply Rabs_pos|]. transitivity (h * h); [rewrite <- Rabs_mult, Rabs_right; [reflexivity|nra]|].
      pose proof (euclid_sqr p5 (center a)) as B2. rewrite <- D5 in B2. 
      rewrite Cx, Cy. transitivity (b * b + w * w); [rewrite Ww; ring|]. rewrite B2.
      transitivity ((px p5 - px (center a)) * (px p5 - px (center a)) + (py p5 - py (center a)) * (py p5 - py (center a)) +
        2 * e * w / L * ((px p5 - px (center a)) * (px B - px A) + (py p5 - py (center a)) * (py B - py A)) + (e * e) * (w * w) * ((L * L) / (L * L))).
      - rewrite Pp, Ee. toR. field. lra.
      - rewrite SL at 1. toR. field. lra. }
    assert (Cs : side (Ln A B) c = k * r * L).
    { unfold side. cbn [p1 p2]. rewrite Cx, Cy. unfold p5, at_param. rewrite O. cbn [px py p1 p2]. toR.
      transitivity ((r * k / L) * (L * L)); [rewrite SL; field; lra|field; lra]. }
    set (al2 := Rabs _). destruct (lproj_point (Ln A B) c true) as [q1|] eqn:F1; cbn [rbind]; [|discriminate].
    apply clamped in F1 as [F1 F1']; [|fold L; lra].
    destruct (apoint_at_angle_seg a al2) as [q2|] eqn:F2; [|discriminate].
    destruct (_ && _)%bool eqn:Z; [|discriminate]. apply andb_true_iff in Z as [Z1 Z2].
    apply negb_true_iff in Z1. apply (peq_false He) in Z1.
    intros H. injection H as H. exists q1, q2, k, h, al2.
    assert (Fc : center f = c) by (rewrite <- H; destruct rev; reflexivity).
    split; [rewrite <- H; destruct rev; reflexivity|]. split; [exact K|]. rewrite Fc. split; [exact Cs|]. split; [exact (proj1 Hh)|]. split; [exact Cd|].
    split; [exact F1|]. split.
    { destruct F1' as [?|[?|F1']]; auto. right. right. destruct F1 as (v & Hv & Qv). cbn [p1 p2] in F1'.
      apply euclid_unique; [lra|]. 
      (* (c - q1) is normal to the line, so its square is side^2 / L^2 *)
      assert (Ss : side (Ln A B) c = (px B - px A) * (py c - py q1) - (py B - py A) * (px c - px q1)).
      { unfold side. cbn [p1 p2]. rewrite Qv. unfold at_param. cbn [px py p1 p2]. toR. ring. }
      rewrite Cs in Ss. apply (Rmult_eq_reg_r (L * L)); [|nra].
      transitivity ((k * r * L) * (k * r * L)); [transitivity (k * k * (r * r * (L * L))); [rewrite Kk; ring|ring]|].
      transitivity ((k * r * L) * (k * r * L) + ((px c - px q1) * (px B - px A) + (py c - py q1) * (py B - py A)) * ((px c - px q1) * (px B - px A) + (py c - py q1) * (py B - py A))).
      - rewrite F1'. ring.
      - rewrite Ss, SL. toR. ring. }
    unfold apoint_at_angle_seg in F2. rnum. 
    destruct (Rltb al2 0 || Rltb (Rabs (sweep a)) al2)%bool eqn:Z3; [discriminate|]. apply orb_false_iff in Z3 as [Z3 Z4]. apply Rltb_false in Z3, Z4.
    split; [lra|]. split.
    { injection F2 as <-. destruct W as (W0 & W1 & W2).
      destruct (Req_dec al2 0) as [Za|Za]; [|destruct (Req_dec al2 (Rabs (sweep a))) as [Zb|Zb]].
      - rewrite Za. unfold apoint_at_angle. rnum. destruct (Rleb 0 0) eqn:Q0; [|apply Rleb_false in Q0; lra].
        replace (if Rltb (sweep a) 0 then - 0 else 0) with 0 by (destruct (Rltb (sweep a) 0); ring). now rewrite turned_0.
      - unfold apoint_at_angle. rnum. destruct (Rleb al2 0) eqn:Q0; [apply Rleb_true in Q0; lra|].
        destruct (Rleb (Rabs (sweep a)) al2) eqn:Q1; [|apply Rleb_false in Q1; lra]. rewrite W2. f_equal. rewrite Zb.
        destruct (Rltb (sweep a) 0) eqn:Q2; [apply Rltb_true in Q2; rewrite Rabs_left; lra|apply Rltb_false in Q2; rewrite Rabs_right; lra].
      - apply apoint_turned; [exact W1|lra]. }
    split; [exact Z1|].
    unfold feq in Z2. rnum. pose proof (dist_euclid c q1) as D1. pose proof (dist_euclid c q2) as D2. rewrite D1, D2 in Z2. apply Rltb_true in Z2. exact Z2.
  Qed.

  (** ** When a circle that touches both exists, it is found. *)
  Lemma angle2_of (o p : Pt) m ang : p <> o -> 0 < m -> - PI < ang <= PI -> EPS <= euclid p (at_param (Ln o (turned o ang p)) m) ->
    angle2 o p (at_param (Ln o (turned o ang p)) m) = ang.
  Proof.
    intros Hp Hm Ha Hd. unfold angle2. set (q := at_param _ _) in *.
    assert (F : peq (psub p o) (psub q o) = false).
    { apply (peq_false He). replace (euclid (psub p o) (psub q o)) with (euclid p q); auto. unfold euclid, Rsqr. f_equal. unfold psub; cbn [px py]; rnum. ring. }
    rewrite F. set (e := euclid p o). assert (Pe : 0 < e).
    { destruct (euclid_pos p o) as [Z|Z]; [exact Z|]. symmetry in Z. apply euclid_zero in Z. congruence. }
    assert (S : e * e = (px p - px o) * (px p - px o) + (py p - py o) * (py p - py o)) by apply euclid_sqr.
    assert (C1 : cross (psub p o) (psub q o) = ((m * (e * e)) * sin ang)%R).
    { unfold q, at_param, turned, cross, psub. cbn [px py p1 p2]. rnum. rewrite S. toR. ring. }
    assert (C2 : dot (psub p o) (psub q o) = ((m * (e * e)) * cos ang)%R).
    { unfold q, at_param, turned, dot, psub. cbn [px py p1 p2]. rnum. rewrite S. toR. ring. }
    rewrite C1, C2. apply atan2_of_polar; [|exact Ha]. assert (0 < e * e) by nra. nra.
  Qed.
  Lemma normal_part (x y ux uy : R) : ux * ux + uy * uy = 1 -> x * ux + y * uy = 0 -> x * x + y * y = (x * uy - y * ux) * (x * uy - y * ux).
  Proof. intros H1 H2. transitivity ((x * x + y * y) * (ux * ux + uy * uy)); [rewrite H1; ring|]. transitivity ((x * uy - y * ux) * (x * uy - y * ux) + (x * ux + y * uy) * (x * ux + y * uy)); [ring|rewrite H2; ring]. Qed.

  Section Touch.
    Variables (A : Pt) (ux uy L : R) (Z ctr : Pt) (rd sw r t th k K : R).
    Let B : Pt := P (px A + L * ux)%R (py A + L * uy)%R.
    Let l : Line_ := Ln A B.
    Let a : Arc_ := mkarc B Z rd sw ctr.
    Hypothesis U : ux * ux + uy * uy = 1.
    Hypothesis HL : EPS <= L.
    Hypothesis Hr : EPS <= r.
    Hypothesis W : wf_arc a.
    Hypothesis Hk : k = 1 \/ k = -1.
    Hypothesis HK : K = if Rlt_dec sw 0 then -1 else 1.
    Hypothesis Hsw : sw <> 0.
    (** the arc leaves on the side [k] *)
    Hypothesis Hs : 0 < k * (ux * py (heading (SArc a) 0) - uy * px (heading (SArc a) 0)).
    Hypothesis Ht : 0 <= t <= L.
    Hypothesis Hth : 0 < th <= Rabs sw.
    Hypothesis Hpi : th < PI.
    Let F1 : Pt := P (px B - t * ux)%R (py B - t * uy)%R.
    Let F2 : Pt := turned ctr (K * th) B.
    Let c : Pt := P (px F1 - k * r * uy)%R (py F1 + k * r * ux)%R.
    Let h := rd - k * K * r.
    Hypothesis Hh : 0 < h.
    Hypothesis Hc : c = at_param (Ln ctr F2) (h / rd).
    Hypothesis Hw : 0 < k * K * ((px c - px ctr) * ux + (py c - py ctr) * uy).
    Hypothesis Hd : EPS <= euclid F1 F2.

    Lemma tl_len : seg_len l = L.
    Proof. unfold seg_len, l, B. apply euclid_unique; [lra|]. cbn [px py p1 p2]. transitivity (L * L * (ux * ux + uy * uy)); [rewrite U; ring|toR; ring]. Qed.
    Lemma tl_head : heading (SLine l) 0 = P ux uy.
    Proof. unfold heading. rewrite tl_len. unfold l, B. cbn [px py p1 p2]. apply pt_ext; cbn [px py]; match goal with |- ?a = ?b => change (@eq R a b) end; field; lra. Qed.
    Lemma t_K : K = 1 \/ K = -1.
    Proof. rewrite HK. destruct (Rlt_dec sw 0); auto. Qed.
    Lemma t_side : IZR (which_side_angle l (astart_tangent a) false) = k.
    Proof.
      pose proof (start_heading (SArc a) (conj W Hsw)) as Sh. cbn [s_start_tangent] in Sh.
      unfold which_side_angle, which_side. cbn [andb]. 
      assert (X : cross (vec l) (psub (padd (from_polar (of_Z 1) (astart_tangent a)) (p2 l)) (p1 l)) = (L * (ux * py (heading (SArc a) 0) - uy * px (heading (SArc a) 0)))%R).
      { rewrite <- Sh. unfold unit_at. set (tg := astart_tangent a). unfold cross, vec, psub, padd, from_polar, l, B. cbn [px py p1 p2]. rnum.
        match goal with |- ?a = ?b => change (@eq R a b) end. ring. }
      rewrite X. set (s := _ - _) in *. rnum. destruct Hk as [Q | Q]; rewrite Q in Hs |- *.
      - destruct (Rleb 0 (L * s)) eqn:Z0; [reflexivity|]. apply Rleb_false in Z0. nra.
      - destruct (Rleb 0 (L * s)) eqn:Z0; [|reflexivity]. apply Rleb_true in Z0. nra.
    Qed.
    Lemma t_c1 : euclid c F1 = r.
    Proof.
      apply euclid_unique; [lra|]. unfold c. cbn [px py]. toR. transitivity ((k * k) * (r * r) * (ux * ux + uy * uy)).
      - rewrite U. destruct Hk as [-> | ->]; ring.
      - ring.
    Qed.
    Lemma t_rd : euclid F2 ctr = rd.
    Proof. unfold F2. rewrite turned_dist. destruct W as (_ & W1 & _). exact W1. Qed.
    Lemma t_c2 : euclid c F2 = r.
    Proof.
      pose proof t_rd as D. destruct W as (W0 & _ & _). cbn [radius a] in W0. apply euclid_unique; [lra|]. rewrite Hc. 
      pose proof (euclid_sqr F2 ctr) as Q. rewrite D in Q. unfold at_param. cbn [px py p1 p2]. toR.
      transitivity ((1 - h / rd) * (1 - h / rd) * (rd * rd)).
      - unfold h. transitivity ((k * k) * (K * K) * (r * r)); [|field; lra]. destruct Hk as [-> | ->], t_K as [-> | ->]; ring.
      - rewrite Q. ring.
    Qed.
    Lemma t_ch : (px c - px ctr) * (px c - px ctr) + (py c - py ctr) * (py c - py ctr) = h * h.
    Proof.
      pose proof t_rd as D. destruct W as (W0 & _ & _). cbn [radius a] in W0. rewrite Hc.
      pose proof (euclid_sqr F2 ctr) as Q. rewrite D in Q. unfold at_param. cbn [px py p1 p2]. toR.
      transitivity (h / rd * (h / rd) * (rd * rd)); [rewrite Q; ring|field; lra].
    Qed.
    Lemma t_far : EPS <= euclid B c.
    Proof.
      apply Rle_trans with r; [lra|]. apply Rsqr_incr_0_var; [|apply euclid_pos]. unfold Rsqr. rewrite euclid_sqr. unfold c, F1. cbn [px py]. toR.
      apply Rle_trans with ((k * k * (r * r) + t * t) * (ux * ux + uy * uy)); [rewrite U; assert (k * k = 1) as -> by (destruct Hk as [-> | ->]; ring); nra|].
      apply Req_le. ring.
    Qed.

    Lemma touch_found rev : exists f, line_arc_body rev l a r = Ok (Some f) /\ center f = c /\ radius f = r /\ wf_arc f /\
      (ap1 f, ap2 f) = (if rev then (F2, F1) else (F1, F2)) /\
      (if rev then
        heading (SArc f) 1 = P (- ux)%R (- uy)%R /\ heading (SArc f) 0 = heading (SArc (areversed a)) (1 - th / Rabs sw)
       else heading (SArc f) 0 = P ux uy /\ heading (SArc f) 1 = heading (SArc a) (th / Rabs sw)).
    Proof.
      pose proof tl_len as TL. pose proof t_side as TS. pose proof t_c1 as C1. pose proof t_c2 as C2. pose proof t_ch as CH. pose proof t_far as TF.
      pose proof t_K as TK. pose proof t_rd as RD. assert (W0 : 0 < rd) by (destruct W as (W0 & _); exact W0).
      assert (kk : k * k = 1) by (destruct Hk as [-> | ->]; ring). assert (KK : K * K = 1) by (destruct TK as [-> | ->]; ring).
      unfold line_arc_body. set (sd := which_side_angle _ _ _) in *. rewrite TS.
      set (w := k * K * ((px c - px ctr) * ux + (py c - py ctr) * uy)) in *.
      match goal with |- context [if ?z then ((radius a + r)%R, ?y) else ?w] => set (pr := if z then ((radius a + r)%R, y) else w) end.
      assert (Pr : exists al, pr = (h, al) /\ cos al = k * K * ux /\ sin al = k * K * uy).
      { assert (LA : cos (langle l) = ux /\ sin (langle l) = uy).
        { destruct (line_angle l) as [P1 P2]; [rewrite TL; lra|]. rewrite TL in P1, P2. unfold l, B in P1, P2. cbn [px py p1 p2] in P1, P2.
          split; apply (Rmult_eq_reg_l L); try lra; [etransitivity; [exact P1|]|etransitivity; [exact P2|]]; toR; ring. }
        destruct LA as [LA1 LA2].
        assert (Cw : is_clockwise a = if Rlt_dec sw 0 then true else false).
        { unfold is_clockwise. cbn [sweep a]. rnum. destruct (Rlt_dec sw 0) as [q|q]; [apply Rltb_true; exact q|apply Rltb_false; lra]. }
        assert (Sd : sd = if Rlt_dec k 0 then (-1)%Z else 1%Z).
        { assert (sd = 1%Z \/ sd = (-1)%Z) by (unfold sd, which_side_angle, which_side; cbn [andb]; destruct (Num.leb _ _); auto).
          destruct (Rlt_dec k 0); destruct H as [H|H]; auto; rewrite H in TS; lra. }
        unfold pr. rewrite Cw, Sd. unfold h. rewrite HK. destruct Hk as [-> | ->]; destruct (Rlt_dec sw 0);
          (destruct (Rlt_dec _ 0) as [q|q]; [try (exfalso; lra)|try (exfalso; lra)]); cbn [Z.gtb Z.ltb Z.compare andb orb negb]; eexists; (split; [f_equal; cbn [radius a]; ring|]);
          rewrite ?neg_cos, ?neg_sin, LA1, LA2; split; ring. }
      destruct Pr as (al & -> & Ca & Sa).
      assert (Ho : EPS <= Rabs (r * k)).
      { destruct Hk as [-> | ->]; [rewrite Rmult_1_r, Rabs_right; lra|]. replace (r * -1) with (- r) by ring. rewrite Rabs_Ropp, Rabs_right; lra. }
      set (l3 := loffset _ _).
      assert (O : l3 = Ln (P (px A - r * k * uy)%R (py A + r * k * ux)%R) (P (px B - r * k * uy)%R (py B + r * k * ux)%R)).
      { unfold l3. rewrite offset_spec; [|exact Ho|rewrite TL; exact HL]. rewrite TL. unfold moved, l, B. cbn [px py p1 p2].
        f_equal; apply pt_ext; cbn [px py]; match goal with |- ?a = ?b => change (@eq R a b) end; field; lra. }
      assert (L3 : seg_len l3 = L).
      { rewrite O. unfold seg_len. apply euclid_unique; [lra|]. unfold B. cbn [px py p1 p2]. toR. transitivity (L * L * (ux * ux + uy * uy)); [rewrite U; ring|ring]. }
      (* the foot of the centre on the offset line is [c] moved back by k K w along the line *)
      set (p5 := P (px c - k * K * w * ux)%R (py c - k * K * w * uy)%R : Pt).
      assert (P5 : lproj_point l3 (center a) false = Ok p5).
      { rewrite (lproj_line He l3 (center a) ((L - t - k * K * w) / L)); [|rewrite L3; exact HL|].
        - f_equal. rewrite O. unfold at_param, p5, c, F1, B. cbn [px py p1 p2]. apply pt_ext; cbn [px py]; match goal with |- ?a = ?b => change (@eq R a b) end; field; lra.
        - rewrite L3, O. unfold B at 1 3. cbn [px py p1 p2 center a]. 
          transitivity ((L - t - (k * K) * (k * K) * ((px c - px ctr) * ux + (py c - py ctr) * uy)) * L).
          + replace ((k * K) * (k * K)) with 1 by (transitivity ((k * k) * (K * K)); [rewrite kk, KK; ring|ring]).
            unfold c, F1, B. cbn [px py]. toR.
            transitivity (L * ((px ctr - px A) * ux + (py ctr - py A) * uy)); [ring|].
            transitivity (L * ((L - t) * (1 - (ux * ux + uy * uy)) + (px ctr - px A) * ux + (py ctr - py A) * uy)); [rewrite U; ring|ring].
          + unfold w. field. lra. }
      rewrite P5. cbn [rbind]. pose proof (dist_euclid p5 (center a)) as D5.
      assert (B2 : pdist p5 (center a) * pdist p5 (center a) = h * h - w * w).
      { rewrite D5, euclid_sqr. cbn [center a]. unfold p5. cbn [px py].
        transitivity ((px c - px ctr) * (px c - px ctr) + (py c - py ctr) * (py c - py ctr) - 2 * w * (k * K * ((px c - px ctr) * ux + (py c - py ctr) * uy)) + (k * k) * (K * K) * (w * w) * (ux * ux + uy * uy)); [toR; ring|].
        fold w. rewrite CH, kk, KK, U. ring. }
      rewrite B2. replace (h * h - (h * h - w * w)) with (w * w) by ring.
      destruct (Rltb (w * w) 0) eqn:Zw; [apply Rltb_true in Zw; nra|]. rewrite sqrt_square by lra.
      assert (Cc : p2 (l_from_polar p5 w al) = c).
      { unfold l_from_polar, padd, from_polar, p5. cbn [px py p2]. rnum. rewrite Ca, Sa. apply pt_ext; cbn [px py]; match goal with |- ?a = ?b => change (@eq R a b) end; ring. }
      rewrite Cc.
      assert (KT : - PI < K * th <= PI) by (destruct TK as [-> | ->]; lra).
      assert (A2 : Rabs (angle2 (center a) (ap1 a) c) = th).
      { cbn [center ap1 a]. rewrite Hc. unfold F2. rewrite angle2_of.
        - destruct TK as [-> | ->]; [rewrite Rmult_1_l, Rabs_right; lra|]. replace (-1 * th) with (- th) by ring. rewrite Rabs_Ropp, Rabs_right; lra.
        - intros Q. destruct W as (_ & W1 & _). cbn [ap1 center radius a] in W1. rewrite Q in W1. replace (euclid ctr ctr) with 0 in W1 by (symmetry; now apply euclid_zero). lra.
        - apply Rdiv_lt_0_compat; lra.
        - exact KT.
        - fold F2. rewrite <- Hc. exact TF. }
      rewrite A2.
      assert (Q1 : lproj_point l c true = Ok F1).
      { rewrite (lproj_seg He l c (1 - t / L)); [|rewrite TL; exact HL|].
        - assert (0 <= t / L) by (apply Rmult_le_pos; [lra|apply Rlt_le, Rinv_0_lt_compat; lra]).
          assert (t / L <= 1) by (apply (Rmult_le_reg_r L); [lra|]; replace (t / L * L) with t by (field; lra); lra).
          rewrite Rmin_left, Rmax_right by lra. f_equal. unfold at_param, l, F1, B. cbn [px py p1 p2]. apply pt_ext; cbn [px py]; match goal with |- ?a = ?b => change (@eq R a b) end; field; lra.
        - rewrite TL. unfold l, c, F1, B. cbn [px py p1 p2]. toR. transitivity (L * (L - t) * (ux * ux + uy * uy)); [ring|]. rewrite U. field. lra. }
      rewrite Q1. cbn [rbind].
      assert (Q2 : apoint_at_angle_seg a th = Some F2).
      { unfold apoint_at_angle_seg. cbn [sweep a]. rnum.
        destruct (Rltb th 0) eqn:Z1; [apply Rltb_true in Z1; lra|]. destruct (Rltb (Rabs sw) th) eqn:Z2; [apply Rltb_true in Z2; lra|]. cbn [orb]. f_equal.
        destruct W as (_ & W1 & W2). destruct (Req_dec th (Rabs sw)) as [Zb|Zb].
        - unfold apoint_at_angle. rnum. destruct (Rleb th 0) eqn:Q0; [apply Rleb_true in Q0; lra|]. cbn [sweep a].
          destruct (Rleb (Rabs sw) th) eqn:Q3; [|apply Rleb_false in Q3; lra]. rewrite W2. unfold F2. cbn [center sweep ap1 a]. f_equal. rewrite Zb, HK.
          destruct (Rlt_dec sw 0); [rewrite Rabs_left; lra|rewrite Rabs_right; lra].
        - rewrite apoint_turned; [|exact W1|cbn [sweep a]; lra]. unfold F2. cbn [center ap1 sweep a]. f_equal. rewrite HK.
          destruct (Rltb sw 0) eqn:Z3; [apply Rltb_true in Z3|apply Rltb_false in Z3]; destruct (Rlt_dec sw 0); lra. }
      rewrite Q2.
      assert (Zp : peq F1 F2 = false) by (apply (peq_false He); exact Hd). rewrite Zp. cbn [negb andb].
      pose proof (dist_euclid c F1) as D1. pose proof (dist_euclid c F2) as D2. unfold feq. rnum. rewrite D1, D2, C1, C2, Rminus_eq_0, Rabs_R0.
      destruct (Rltb 0 EPS) eqn:Z0; [|apply Rltb_false in Z0; lra].
      (* the direction of the turn about c *)
      assert (F1c : px F1 - px c = k * r * uy /\ py F1 - py c = - (k * r * ux)) by (unfold c; cbn [px py]; toR; split; ring).
      assert (F2c : px F2 - px c = k * K * r / h * (px c - px ctr) /\ py F2 - py c = k * K * r / h * (py c - py ctr)).
      { rewrite Hc. unfold at_param. cbn [px py p1 p2]. unfold h. toR. fold h.
        assert (RH : k * K * r = rd - h) by (unfold h; ring). rewrite RH. split; field; lra. }
      assert (CR : (px F1 - px c) * (py F2 - py c) - (py F1 - py c) * (px F2 - px c) = k * (r * r * w / h)).
      { destruct F1c as [-> ->]. destruct F2c as [-> ->]. unfold w. 
        transitivity (k * (r * r * (k * K * ((px c - px ctr) * ux + (py c - py ctr) * uy)) / h)); [toR; field; lra|toR; reflexivity]. }
      assert (Pos : 0 < r * r * w / h) by (apply Rdiv_lt_0_compat; [apply Rmult_lt_0_compat; [apply Rmult_lt_0_compat; lra|exact Hw]|exact Hh]).
      set (e := r * r * w / h) in *. clearbody e.
      assert (E1 : euclid F1 c = r) by (rewrite euclid_sym; exact C1). assert (E2 : euclid F2 c = r) by (rewrite euclid_sym; exact C2).
      assert (Hd' : EPS <= euclid F2 F1) by (rewrite euclid_sym; exact Hd).
      assert (Nz : forall p q : Pt, EPS <= euclid p q -> peq (psub p c) (psub q c) = false).
      { intros p q Hpq. apply (peq_false He). replace (euclid (psub p c) (psub q c)) with (euclid p q); auto. unfold euclid, Rsqr. f_equal. unfold psub; cbn [px py]; rnum. ring. }
      assert (AN : forall p q e0, EPS <= euclid p q -> (px p - px c) * (py q - py c) - (py p - py c) * (px q - px c) = e0 -> 
        (0 < e0 -> 0 < angle2 c p q) /\ (e0 < 0 -> angle2 c p q < 0)).
      { intros p q e0 Hpq He0. unfold angle2. rewrite (Nz p q Hpq). rnum.
        assert (CE : cross (psub p c) (psub q c) = e0) by (rewrite <- He0; unfold cross, psub; cbn [px py]; rnum; match goal with |- ?a = ?b => change (@eq R a b) end; ring).
        rewrite CE. split; intros; [apply atan2_sign; assumption|apply atan2_sign_neg; assumption]. }
      assert (HD2 : heading (SArc a) (th / Rabs sw) = P (- K * (py F2 - py ctr) / rd)%R (K * (px F2 - px ctr) / rd)%R).
      { unfold heading. cbn [center sweep ap1 radius a]. rewrite <- HK. replace (th / Rabs sw * sw) with (K * th); [reflexivity|].
        rewrite HK. destruct (Rlt_dec sw 0); [rewrite Rabs_left by assumption; field; lra|rewrite Rabs_right by lra; field; lra]. }
      assert (FC : px F2 - px ctr = rd / h * (px c - px ctr) /\ py F2 - py ctr = rd / h * (py c - py ctr)).
      { rewrite Hc. unfold at_param. cbn [px py p1 p2]. toR. split; field; lra. }
      destruct rev; eexists; (split; [reflexivity|]); unfold arc_from_center; cbn [radius center ap1 ap2 sweep].
      - pose proof (dist_euclid F2 c) as D3. rewrite D3, E2.
        assert (TU : turned c (angle2 c F2 F1) F2 = F1) by (apply (angle2_turned He _ _ _ r); auto; lra).
        assert (KS : - k = if Rlt_dec (angle2 c F2 F1) 0 then -1 else 1).
        { destruct (AN F2 F1 (- k * e) Hd') as [AN1 AN2]; [transitivity (- (k * e)); [rewrite <- CR; toR; ring|ring]|].
          destruct (Rlt_dec (angle2 c F2 F1) 0) as [q|q]; destruct Hk as [Hk' | Hk']; rewrite Hk' in AN1, AN2; rewrite ?Hk'; [lra|exfalso|exfalso|lra].
          - assert (ZZ : 0 < - -1 * e) by (clear - Pos; lra). exact (Rlt_asym _ _ (AN1 ZZ) q).
          - assert (ZZ : - 1 * e < 0) by (clear - Pos; lra). exact (q (AN2 ZZ)). }
        split; [reflexivity|]. split; [reflexivity|].
        split; [unfold wf_arc; cbn [radius center ap1 ap2 sweep]; repeat split; [lra|exact E2|symmetry; exact TU]|]. split; [reflexivity|].
        cbn [heading radius center ap1 sweep]. rewrite <- KS. split.
        + rewrite Rmult_1_l, TU. destruct F1c as [X1 Y1]. rewrite X1, Y1. apply pt_ext; cbn [px py]; match goal with |- ?a = ?b => change (@eq R a b) end.
          * transitivity (- (k * k) * ux); [field; lra|rewrite kk; ring].
          * transitivity (- (k * k) * uy); [field; lra|rewrite kk; ring].
        + rewrite Rmult_0_l, turned_0. destruct F2c as [X2 Y2]. rewrite X2, Y2.
          match goal with |- _ = ?h0 => change h0 with (let q := turned ctr ((1 - th / Rabs sw) * (- sw))%R Z in let k0 := if Rlt_dec (- sw) 0 then -1 else 1 in
             P (- k0 * (py q - py ctr) / rd)%R (k0 * (px q - px ctr) / rd)%R) end. cbv zeta.
          assert (NK : (if Rlt_dec (- sw) 0 then -1 else 1) = - K) by (rewrite HK; destruct (Rlt_dec (- sw) 0), (Rlt_dec sw 0); lra). rewrite NK.
          assert (TQ : turned ctr ((1 - th / Rabs sw) * (- sw)) Z = F2).
          { destruct W as (_ & _ & W2). cbn [ap2 center sweep ap1 a] in W2. rewrite W2, turned_add. unfold F2. f_equal. rewrite HK.
            destruct (Rlt_dec sw 0); [rewrite Rabs_left by assumption; field; lra|rewrite Rabs_right by lra; field; lra]. }
          rewrite TQ.
          destruct FC as [X3 Y3]. rewrite X3, Y3. apply pt_ext; cbn [px py]; match goal with |- ?a = ?b => change (@eq R a b) end.
          * transitivity (k * k * K * (py c - py ctr) / h); [toR; field; lra|rewrite kk; toR; field; lra].
          * transitivity (- (k * k * K) * (px c - px ctr) / h); [toR; field; lra|rewrite kk; toR; field; lra].
      - pose proof (dist_euclid F1 c) as D3. rewrite D3, E1.
        assert (TU : turned c (angle2 c F1 F2) F1 = F2) by (apply (angle2_turned He _ _ _ r); auto; lra).
        assert (KS : k = if Rlt_dec (angle2 c F1 F2) 0 then -1 else 1).
        { destruct (AN F1 F2 (k * e) Hd) as [AN1 AN2]; [exact CR|].
          destruct (Rlt_dec (angle2 c F1 F2) 0) as [q|q]; destruct Hk as [Hk' | Hk']; rewrite Hk' in AN1, AN2; rewrite ?Hk'; [exfalso|lra|lra|exfalso].
          - assert (ZZ : 0 < 1 * e) by (clear - Pos; lra). exact (Rlt_asym _ _ (AN1 ZZ) q).
          - assert (ZZ : -1 * e < 0) by (clear - Pos; lra). exact (q (AN2 ZZ)). }
        split; [reflexivity|]. split; [reflexivity|].
        split; [unfold wf_arc; cbn [radius center ap1 ap2 sweep]; repeat split; [lra|exact E1|symmetry; exact TU]|]. split; [reflexivity|].
        rewrite HD2. cbn [heading radius center ap1 sweep]. rewrite <- KS. split.
        + rewrite Rmult_0_l, turned_0. destruct F1c as [X1 Y1]. rewrite X1, Y1. apply pt_ext; cbn [px py]; match goal with |- ?a = ?b => change (@eq R a b) end.
          * transitivity ((k * k) * ux); [field; lra|rewrite kk; ring].
          * transitivity ((k * k) * uy); [field; lra|rewrite kk; ring].
        + rewrite Rmult_1_l, TU. destruct F2c as [X2 Y2]. rewrite X2, Y2. destruct FC as [X3 Y3]. rewrite X3, Y3. 
          apply pt_ext; cbn [px py]; match goal with |- ?a = ?b => change (@eq R a b) end.
          * transitivity (- (k * k * K) * (py c - py ctr) / h); [toR; field; lra|rewrite kk; toR; field; lra].
          * transitivity ((k * k * K) * (px c - px ctr) / h); [toR; field; lra|rewrite kk; toR; field; lra].
    Qed.
  End Touch.
End F.
