(** * FilletProofs4: the fillet between two arcs, over R. *)
From Verif Require Import Num NumR Geom GeomR GeomSpec GeomSpec2 GeomProofs GeomProofs2 GeomProofs3 GeomProofs4 GeomProofs5 GeomProofs6 GeomProofs7 GeomProofs10 Ellipse Gcode Cam Offset OffsetSpec OffsetProofs Fillet FilletSpec FilletProofs FilletProofs2 FilletProofs3
  PropsGeom2 PropsEllipse.
From Coq Require Import ZArith Reals Lra Lia Bool List Psatz.
Import ListNotations.
Local Open Scope R_scope.

Lemma only_head {A} (c : A) l : In c l -> (forall x, In x l -> x = c) -> exists t, l = c :: t.
Proof. destruct l as [|x t]; [intros []|]. intros _ H. exists t. f_equal. apply H. now left. Qed.
Lemma turned_at (o p : Pt) m t : turned o t (at_param (Ln o p) m) = at_param (Ln o (turned o t p)) m.
Proof. destruct o, p. unfold turned, at_param. ptx; ring. Qed.

Section F.
  Context {E : Epsilon ROps}.
  Hypothesis He : 0 < EPS.

  (** The offset arc. *)
  Lemma offset_beside (a : Arc_) d : wf_arc a -> 0 < radius a + d ->
    exists o, aoffset a d = Ok o /\ wf_arc o /\ radius o = radius a + d /\ center o = center a /\ sweep o = sweep a /\
      forall u, reached (SArc o) u = beside a (radius a + d) u.
  Proof.
    intros W H. destruct (arc_offset a d W H) as (o & A & B & C & D & F & G). exists o. repeat (split; [assumption|]).
    assert (Q : ap1 o = at_param (Ln (center a) (ap1 a)) ((radius a + d) / radius a)).
    { specialize (G 0 ltac:(lra)). unfold apoint_at, apoint_at_angle in G.
      assert (Z : forall x : R, @Num.leb ROps (x * 0) (of_Z 0) = true) by (intros x; rewrite Rmult_0_r; apply Rleb_true; cbn; lra).
      match type of G with (if ?x then _ else _) = at_param (Ln _ (if ?y then _ else _)) _ => replace x with true in G by (symmetry; apply Z); replace y with true in G by (symmetry; apply Z) end.
      exact G. }
    intros u. unfold beside. cbn [reached]. rewrite Q, D, F. apply turned_at.
  Qed.
  Lemma minor_sin_cos (a : Arc_) d : 0 < d -> clearly_minor EPS a d -> EPS * (d + EPS) < d * cos (Rabs (sweep a) / 2).
  Proof. intros Hd (A & B & C). set (z := d * cos _) in *. nra. Qed.
  (** Which points count as on an arc. *)
  Lemma accepted (o : Arc_) u : wf_arc o -> clearly_minor EPS o (radius o) -> 0 <= u <= 1 -> point_on_arc o (reached (SArc o) u) = true.
  Proof. intros W (A & B & C) Hu. apply (C104_minor_complete_partial); auto. exists u. split; [exact Hu|reflexivity]. Qed.
  Lemma close (o : Arc_) q : wf_arc o -> clearly_minor EPS o (radius o) -> point_on_arc o q = true ->
    exists u, 0 <= u <= 1 /\ euclid q (reached (SArc o) u) <= EPS * (1 + 2 * (radius o + EPS)).
  Proof.
    intros W M H. pose proof W as (W0 & _). pose proof (minor_sin_cos o (radius o) W0 M) as Q. destruct M as (A & B & C).
    destruct (C104_minor_sound_partial He o q W A Q H) as (p & (u & Hu & ->) & D). exists u. split; [exact Hu|exact D].
  Qed.
  (** The line from the centre of the fillet through the centre of the arc meets it at the touching point only. *)
  Lemma foot (a : Arc_) h u : wf_arc a -> clearly_minor EPS a (radius a) -> 0 < h -> 0 <= u <= 1 -> EPS <= (radius a * h) * (radius a * h) ->
    exists t, intersect_line a (Ln (beside a h u) (center a)) true false = Ok (reached (SArc a) u :: t).
  Proof.
    intros W M Hh Hu Hd. pose proof W as (W0 & W1 & W2). set (q := reached (SArc a) u). set (l := Ln (beside a h u) (center a)).
    assert (DQ : euclid q (center a) = radius a) by (unfold q; cbn [reached]; rewrite turned_dist; exact W1).
    pose proof (euclid_sqr q (center a)) as DS. rewrite DQ in DS.
    assert (LS : seg_len l * seg_len l = h * h).
    { unfold seg_len, l. cbn [p1 p2]. rewrite euclid_sqr. unfold beside, at_param. fold q. cbn [px py p1 p2]. toR.
      transitivity (h / radius a * (h / radius a) * (radius a * radius a)); [rewrite DS; ring|field; lra]. }
    assert (SD : side l (center a) = 0) by (unfold side, l; cbn [p1 p2]; toR; ring).
    assert (DI : discriminant a l = (radius a * h) * (radius a * h)) by (unfold discriminant; rewrite LS, SD; ring).
    destruct (il_points He a l) as (x & y & Q1 & Q2 & Q3); [rewrite DI; exact Hd|].
    assert (TOT : exists qs, intersect_line a l true false = Ok qs).
    { rewrite il_eq in Q1 |- *. unfold il_core in Q1 |- *. cbv zeta in Q1 |- *.
      destruct (is_zero _); [destruct (lproj_point _ _ _); [eexists; reflexivity|discriminate]|]. destruct (Rltb 0 _); [|discriminate]. destruct (Reqb _ _); [discriminate|]. eexists. reflexivity. }
    destruct TOT as [qs QS]. destruct (il_filter He a l true false qs) as (x' & y' & Q1' & Q4); [rewrite DI; exact Hd|exact QS|].
    rewrite Q1 in Q1'. injection Q1' as <- <-.
    assert (HR : 0 < h / radius a) by (apply Rdiv_lt_0_compat; lra).
    (* points of the circle on that line *)
    assert (PT : forall p, on_line l p -> euclid (center a) p * euclid (center a) p = radius a * radius a ->
      p = q \/ p = at_param (Ln (center a) q) (-1)).
    { intros p [w ->] Hp. assert (PE : at_param l w = at_param (Ln (center a) q) ((1 - w) * (h / radius a))).
      { unfold l, beside, at_param. fold q. cbn [px py p1 p2]. ptx; toR; ring. }
      rewrite PE in *. set (m := (1 - w) * (h / radius a)) in *. clearbody m.
      assert (m * m = 1).
      { rewrite euclid_sqr in Hp. unfold at_param in Hp. cbn [px py p1 p2] in Hp. toR.
        apply (Rmult_eq_reg_r (radius a * radius a)); [|nra]. rewrite Rmult_1_l. etransitivity; [|exact Hp]. rewrite DS at 1. toR. ring. }
      assert ((m - 1) * (m + 1) = 0) as Z by lra. apply Rmult_integral in Z as [Z|Z].
      - left. assert (m = 1) as -> by lra. destruct q, (center a). unfold at_param. ptx; ring.
      - right. assert (m = -1) as -> by lra. reflexivity. }
    assert (IQ : In q qs).
    { apply Q4. split; [|split; [intros _; now apply accepted|discriminate]]. apply Q2.
      - exists (1 - radius a / h). unfold l, beside, at_param. fold q. cbn [px py p1 p2]. destruct q, (center a). ptx; toR; field; lra.
      - rewrite euclid_sym, DQ. reflexivity. }
    apply (only_head q qs) in IQ as [t ->]; [exists t; exact QS|].
    intros p Hp. apply Q4 in Hp as (Hxy & On & _). destruct (Q3 p Hxy) as [O1 O2]. destruct (PT p O1 O2) as [-> | ->]; [reflexivity|exfalso].
    destruct (close a _ W M (On eq_refl)) as (v & Hv & D). pose proof M as (MS & _ & MC).
    (* the antipode is far from the arc *)
    set (s := sweep a) in *. set (r0 := radius a) in *.
    assert (DD : euclid (at_param (Ln (center a) q) (-1)) (reached (SArc a) v) * euclid (at_param (Ln (center a) q) (-1)) (reached (SArc a) v) = 2 * (r0 * r0) * (1 + cos ((u - v) * s))).
    { rewrite euclid_sqr. unfold q. cbn [reached]. fold s. unfold at_param, turned. cbn [px py p1 p2].
      pose proof (euclid_sqr (ap1 a) (center a)) as DA. rewrite W1 in DA. fold r0 in DA.
      replace ((u - v) * s) with (u * s - v * s) by ring. rewrite cos_minus.
      pose proof (sin2_cos2 (u * s)) as S1. pose proof (sin2_cos2 (v * s)) as S2. unfold Rsqr in S1, S2.
      set (cu := cos (u * s)) in *. set (su := sin (u * s)) in *. set (cv := cos (v * s)) in *. set (sv := sin (v * s)) in *.
      set (X := px (ap1 a) - px (center a)) in *. set (Y := py (ap1 a) - py (center a)) in *.
      toR. transitivity ((X * X + Y * Y) * ((su * su + cu * cu) + (sv * sv + cv * cv) + 2 * (cu * cv + su * sv))); [unfold X, Y; toR; ring|].
      rewrite S1, S2, <- DA. ring. }
    assert (CM : cos (Rabs s) <= cos ((u - v) * s)).
    { assert (CA : cos (Rabs ((u - v) * s)) = cos ((u - v) * s)) by (unfold Rabs; destruct (Rcase_abs _); [apply cos_neg|reflexivity]). rewrite <- CA. pose proof PI_RGT_0. apply cos_decr_1; try apply Rabs_pos; try lra.
      - rewrite Rabs_mult. assert (Rabs (u - v) <= 1) by (unfold Rabs; destruct (Rcase_abs _); lra). pose proof (Rabs_pos (u - v)). pose proof (Rabs_pos s). nra.
      - rewrite Rabs_mult. assert (Rabs (u - v) <= 1) by (unfold Rabs; destruct (Rcase_abs _); lra). pose proof (Rabs_pos (u - v)). pose proof (Rabs_pos s). nra. }
    assert (HC : 1 + cos (Rabs s) = 2 * (cos (Rabs s / 2) * cos (Rabs s / 2))).
    { replace (Rabs s) with (2 * (Rabs s / 2)) at 1 by field. rewrite cos_2a_cos. ring. }
    set (cs := cos (Rabs s / 2)) in *. match type of D with ?x <= _ => set (dd := x) in * end. set (ee := EPS * (1 + 2 * (r0 + EPS))) in *.
    assert (0 <= dd) by apply euclid_pos. assert (0 < ee) by (unfold ee; nra).
    assert (dd * dd >= (2 * (r0 * cs)) * (2 * (r0 * cs))) 
      by (replace ((2 * (r0 * cs)) * (2 * (r0 * cs))) with (2 * (r0 * r0) * (2 * (cs * cs))) by ring; rewrite <- HC, DD; apply Rle_ge, Rmult_le_compat_l; [nra|lra]).
    assert (ee * ee < (2 * (r0 * cs)) * (2 * (r0 * cs))) by (apply Rmult_le_0_lt_compat; lra). assert (dd * dd <= ee * ee) by (apply Rmult_le_compat; lra). lra.
  Qed.

  (** The side on which the second arc leaves. *)
  Lemma side_arcs (a b : Arc_) k : wf_arc a -> wf_arc b -> sweep a <> 0 -> sweep b <> 0 -> (k = 1 \/ k = -1) ->
    0 < k * (px (heading (SArc a) 1) * py (heading (SArc b) 0) - py (heading (SArc a) 1) * px (heading (SArc b) 0)) ->
    IZR (awhich_side_angle a (astart_tangent b) false) = k.
  Proof.
    intros W1 W2 Z1 Z2 Hk Hs.
    pose proof (end_heading (SArc a) (conj W1 Z1)) as Ea. pose proof (start_heading (SArc b) (conj W2 Z2)) as Sb. cbn [s_end_tangent s_start_tangent] in Ea, Sb.
    unfold awhich_side_angle, which_side. cbn [andb].
    match goal with |- context[cross ?x ?y] => assert (X : cross x y = (px (heading (SArc a) 1) * py (heading (SArc b) 0) - py (heading (SArc a) 1) * px (heading (SArc b) 0))%R) end.
    { rewrite <- Ea, <- Sb. unfold unit_at. set (ta := aend_tangent a). set (tb := astart_tangent b). unfold cross, vec, psub, padd, from_polar. cbn [px py p1 p2]. rnum.
      match goal with |- ?a = ?b => change (@eq R a b) end. ring. }
    rewrite X. set (s := _ - _) in *. rnum. destruct Hk as [Q | Q]; rewrite Q in Hs |- *.
    - destruct (Rleb 0 s) eqn:Z0; [reflexivity|]. apply Rleb_false in Z0. nra.
    - destruct (Rleb 0 s) eqn:Z0; [|reflexivity]. apply Rleb_true in Z0. nra.
  Qed.
  Lemma cw_sign (a : Arc_) : (if is_clockwise a then of_Z (n:=ROps) 1 else opp (of_Z 1)) = - turn_sign a.
  Proof.
    unfold is_clockwise, turn_sign. change (ltb (sweep a) (of_Z 0)) with (Rltb (sweep a) 0).
    destruct (Rlt_dec (sweep a) 0) as [H|H]; [rewrite (proj2 (Rltb_true _ _) H)|rewrite (proj2 (Rltb_false _ _)) by lra]; cbn; lra.
  Qed.
  Lemma turn_sq (a : Arc_) : turn_sign a * turn_sign a = 1.
  Proof. unfold turn_sign. destruct (Rlt_dec _ _); ring. Qed.

  (** Heading of an arc of the touching circle at the touching point. *)
  Lemma beside_gap (a : Arc_) (r k u : R) (c : Pt) : wf_arc a -> (k = 1 \/ k = -1) -> c = beside a (radius a - k * turn_sign a * r) u ->
    px (reached (SArc a) u) - px c = k * turn_sign a * r * ((px (reached (SArc a) u) - px (center a)) / radius a) /\
    py (reached (SArc a) u) - py c = k * turn_sign a * r * ((py (reached (SArc a) u) - py (center a)) / radius a).
  Proof.
    intros (W0 & _) Hk ->. unfold beside, at_param. cbn [px py p1 p2]. set (q := reached (SArc a) u). toR. split; field; lra.
  Qed.
  Lemma gap_length (a : Arc_) (r k u : R) (c : Pt) : 0 <= r -> wf_arc a -> (k = 1 \/ k = -1) -> c = beside a (radius a - k * turn_sign a * r) u ->
    euclid (reached (SArc a) u) c = r.
  Proof.
    intros Hr W Hk Hc. destruct (beside_gap a r k u c W Hk Hc) as [A B]. destruct W as (W0 & W1 & _).
    apply euclid_unique; [exact Hr|]. rewrite A, B. pose proof (turn_sq a) as T2. assert (k * k = 1) as K2 by (destruct Hk as [-> | ->]; ring).
    assert (DQ : euclid (reached (SArc a) u) (center a) = radius a) by (cbn [reached]; rewrite turned_dist; exact W1).
    pose proof (euclid_sqr (reached (SArc a) u) (center a)) as DS. rewrite DQ in DS. set (q := reached (SArc a) u) in *. set (s := turn_sign a) in *.
    transitivity ((k * k) * (s * s) * (r * r) * ((radius a * radius a) / (radius a * radius a))); [rewrite K2, T2; field; lra|]. rewrite DS at 1. toR. field. lra.
  Qed.
  Lemma heading_touch (a : Arc_) (r k u : R) (c : Pt) : 0 < r -> wf_arc a -> (k = 1 \/ k = -1) -> c = beside a (radius a - k * turn_sign a * r) u ->
    heading (SArc a) u = P (- k * (py (reached (SArc a) u) - py c) / r)%R (k * (px (reached (SArc a) u) - px c) / r)%R.
  Proof.
    intros Hr W Hk Hc. destruct (beside_gap a r k u c W Hk Hc) as [A B]. rewrite A, B. assert (k * k = 1) as K2 by (destruct Hk as [-> | ->]; ring).
    destruct W as (W0 & _). unfold heading. fold (turn_sign a). change (turned (center a) (u * sweep a) (ap1 a)) with (reached (SArc a) u).
    set (q := reached (SArc a) u) in *. set (s := turn_sign a) in *. apply pt_ext; cbn [px py]; match goal with |- ?a = ?b => change (@eq R a b) end.
    - transitivity (- (k * k) * s * (py q - py (center a)) / radius a); [rewrite K2; field; lra|field; lra].
    - transitivity ((k * k) * s * (px q - px (center a)) / radius a); [rewrite K2; field; lra|field; lra].
  Qed.

  Theorem arcs_found (a b : Arc_) (r k u v : R) (c : Pt) : wf_arc a -> wf_arc b -> EPS <= r -> touches_arcs r a b k u v c ->
    let h1 := radius a - k * turn_sign a * r in let h2 := radius b - k * turn_sign b * r in
    clearly_minor EPS a (radius a) -> clearly_minor EPS b (radius b) -> clearly_minor EPS a h1 -> clearly_minor EPS b h2 ->
    EPS <= (radius a * h1) * (radius a * h1) -> EPS <= (radius b * h2) * (radius b * h2) ->
    EPS <= euclid (center a) (center b) -> EPS <= Rabs (euclid (center a) (center b) - (h1 + h2)) ->
    EPS <= euclid (reached (SArc a) u) (reached (SArc b) v) -> only_circle EPS r a b k c ->
    exists f, fillet_arc_arc a b r = Ok (Some f) /\ center f = c /\ radius f = r /\ wf_arc f /\
      ap1 f = reached (SArc a) u /\ ap2 f = reached (SArc b) v /\
      heading (SArc a) u = heading (SArc f) 0 /\ heading (SArc f) 1 = heading (SArc b) v.
  Proof.
    intros Wa Wb Hr (Hk & Hu & Hv & Hh1 & Hh2 & Hs & Hc1 & Hc2 & Ht). cbv zeta in *.
    set (h1 := radius a - k * turn_sign a * r) in *. set (h2 := radius b - k * turn_sign b * r) in *.
    intros Ma Mb Mo1 Mo2 Da Db Dc Dt Dq On.
    assert (Za : sweep a <> 0) by (intros Z; destruct Ma as ((Q & _) & _); rewrite Z, Rabs_R0 in Q; lra).
    assert (Zb : sweep b <> 0) by (intros Z; destruct Mb as ((Q & _) & _); rewrite Z, Rabs_R0 in Q; lra).
    unfold fillet_arc_arc.
    assert (SD : IZR (awhich_side_angle a (astart_tangent b) false) = k) by (apply side_arcs; auto).
    rewrite !cw_sign. change (of_Z (awhich_side_angle a (astart_tangent b) false)) with (IZR (awhich_side_angle a (astart_tangent b) false)). rewrite SD.
    destruct (offset_beside a (r * k * - turn_sign a)) as (o1 & O1 & Wo1 & Ro1 & Co1 & So1 & P1); [exact Wa|replace (radius a + r * k * - turn_sign a) with h1 by (unfold h1; ring); exact Hh1|].
    destruct (offset_beside b (r * k * - turn_sign b)) as (o2 & O2 & Wo2 & Ro2 & Co2 & So2 & P2); [exact Wb|replace (radius b + r * k * - turn_sign b) with h2 by (unfold h2; ring); exact Hh2|].
    replace (radius a + r * k * - turn_sign a) with h1 in * by (unfold h1; ring). replace (radius b + r * k * - turn_sign b) with h2 in * by (unfold h2; ring).
    match goal with |- context[aoffset a ?x] => replace (aoffset a x) with (Ok o1) by (symmetry; exact O1) end.
    match goal with |- context[aoffset b ?x] => replace (aoffset b x) with (Ok o2) by (symmetry; exact O2) end. cbn [rbind].
    assert (Mo1' : clearly_minor EPS o1 (radius o1)) by (unfold clearly_minor in *; rewrite So1, Ro1; exact Mo1).
    assert (Mo2' : clearly_minor EPS o2 (radius o2)) by (unfold clearly_minor in *; rewrite So2, Ro2; exact Mo2).
    assert (IX : exists t, intersect_arc o1 o2 true = Ok (c :: t)).
    { unfold intersect_arc. rewrite Co1, Co2, Ro1, Ro2.
      destruct (C44_circles_complete He (center a) (center b) h1 h2) as (qs & Q1 & Q2 & _); try lra; auto.
      match goal with |- context[intersect_circle ?x1 ?x2 ?x3 ?x4] => replace (intersect_circle x1 x2 x3 x4) with (Ok qs) by (symmetry; exact Q1) end.
      cbn [rmap]. destruct (only_head c (filter (fun q => point_on_arc o1 q && point_on_arc o2 q)%bool qs)) as [t Q]; [| |exists t; now rewrite Q].
      - apply filter_In. split.
        + apply Q2. split.
          * unfold on_circle. rewrite Hc1, <- P1, euclid_sym. cbn [reached]. rewrite <- Co1, turned_dist. destruct Wo1 as (_ & -> & _). exact Ro1.
          * unfold on_circle. rewrite Hc2, <- P2, euclid_sym. cbn [reached]. rewrite <- Co2, turned_dist. destruct Wo2 as (_ & -> & _). exact Ro2.
        + apply andb_true_iff. split; [rewrite Hc1, <- P1|rewrite Hc2, <- P2]; apply accepted; auto.
      - intros x Hx. apply filter_In in Hx as [I1 I2]. apply andb_true_iff in I2 as [I2 I3]. apply Q2 in I1 as [I0 I1].
        apply (On x); auto.
        + destruct (close o1 x Wo1 Mo1' I2) as (w & Hw & D). exists w. split; [exact Hw|]. fold h1. rewrite <- P1, <- Ro1. exact D.
        + destruct (close o2 x Wo2 Mo2' I3) as (w & Hw & D). exists w. split; [exact Hw|]. fold h2. rewrite <- P2, <- Ro2. exact D. }
    destruct IX as [t IX]. rewrite IX. cbn [rbind].
    destruct (foot a h1 u Wa Ma Hh1 Hu Da) as [t1 F1]. destruct (foot b h2 v Wb Mb Hh2 Hv Db) as [t2 F2].
    rewrite <- Hc1 in F1. rewrite <- Hc2 in F2.
    match goal with |- context[intersect_line a ?x true false] => replace (intersect_line a x true false) with (Ok (reached (SArc a) u :: t1)) by (symmetry; exact F1) end.
    match goal with |- context[intersect_line b ?x true false] => replace (intersect_line b x true false) with (Ok (reached (SArc b) v :: t2)) by (symmetry; exact F2) end.
    cbn [rbind]. assert (Hr0 : 0 <= r) by lra.
    pose proof (gap_length a r k u c Hr0 Wa Hk Hc1) as G1. pose proof (gap_length b r k v c Hr0 Wb Hk Hc2) as G2.
    pose proof (heading_touch a r k u c ltac:(lra) Wa Hk Hc1) as H1. pose proof (heading_touch b r k v c ltac:(lra) Wb Hk Hc2) as H2.
    set (q1 := reached (SArc a) u) in *. set (q2 := reached (SArc b) v) in *.
    destruct (C103_small_partial He q1 q2 c) as (Wf & X1 & X2 & X3 & X4 & X5); [lra|lra|exact Dq|].
    set (f := arc_from_center q1 q2 c false) in *. exists f. split; [reflexivity|]. split; [exact X3|].
    assert (RF : radius f = r) by (unfold f, arc_from_center; cbn [radius]; rewrite <- G1; apply dist_euclid).
    split; [exact RF|]. split; [exact Wf|]. split; [exact X1|]. split; [exact X2|].
    assert (KS : k = if Rlt_dec (sweep f) 0 then -1 else 1).
    { assert (SF : sweep f = Ratan2 ((px q1 - px c) * (py q2 - py c) - (py q1 - py c) * (px q2 - px c)) (dot (psub q1 c) (psub q2 c))).
      { unfold f, arc_from_center. cbn [sweep]. unfold angle2.
        assert (peq (psub q1 c) (psub q2 c) = false) as ->.
        { apply (peq_false He). replace (euclid (psub q1 c) (psub q2 c)) with (euclid q1 q2); auto. unfold euclid, Rsqr. f_equal. unfold psub; cbn [px py]; rnum. ring. }
        rnum. f_equal. unfold cross, psub. cbn [px py]. rnum. match goal with |- ?a = ?b => change (@eq R a b) end. ring. }
      rewrite SF. match type of Ht with 0 < _ * ?x => set (cr := x) in * end. destruct Hk as [Q | Q]; rewrite Q in Ht |- *.
      - pose proof (atan2_sign cr (dot (psub q1 c) (psub q2 c)) ltac:(lra)). destruct (Rlt_dec _ _); lra.
      - pose proof (atan2_sign_neg cr (dot (psub q1 c) (psub q2 c)) ltac:(lra)). destruct (Rlt_dec _ _); lra. }
    split.
    - rewrite H1. unfold heading. rewrite <- KS, X1, X3, RF, Rmult_0_l, turned_0. reflexivity.
    - rewrite H2. unfold heading. rewrite <- KS, Rmult_1_l. destruct Wf as (_ & _ & <-). rewrite X2, X3, RF. reflexivity.
  Qed.
End F.
