(** * OffsetProofs: lemmas about the tool trail offset over R. *)
From Verif Require Import Num NumR Geom GeomR GeomSpec GeomProofs GeomProofs2 GeomProofs3 GeomProofs4 GeomProofs5 GeomProofs7 Gcode Cam Offset OffsetSpec PropsGeom.
From Coq Require Import ZArith Reals Lra Lia Bool List Psatz.
Import ListNotations.
Local Open Scope R_scope.

Lemma reached_0 (s : Seg) : reached s 0 = s_p1 s.
Proof. destruct s as [l|a]; cbn [reached s_p1]; [apply at_param_0|]. rewrite Rmult_0_l. apply turned_0. Qed.
Lemma reached_1 (s : Seg) : proper s -> reached s 1 = s_p2 s.
Proof.
  destruct s as [l|a]; cbn [reached s_p2]; [intros _; apply at_param_1|]. intros [(_ & _ & W) _].
  rewrite Rmult_1_l. symmetry. exact W.
Qed.

(** Headings and the tangent angles of the code. *)
Lemma line_angle (l : Line_) : 0 < seg_len l ->
  seg_len l * cos (langle l) = px (p2 l) - px (p1 l) /\ seg_len l * sin (langle l) = py (p2 l) - py (p1 l).
Proof.
  intros H. unfold langle, pangle, vec. destruct (atan2_polar (py (p2 l) - py (p1 l)) (px (p2 l) - px (p1 l))) as [A B].
  assert (K : Rhypot (px (p2 l) - px (p1 l)) (py (p2 l) - py (p1 l)) = seg_len l).
  { unfold seg_len. rewrite euclid_sym, euclid_hypot. reflexivity. }
  rewrite K in A, B. split; assumption.
Qed.
Lemma start_heading (s : Seg) : proper s -> unit_at (s_start_tangent s) = heading s 0.
Proof.
  destruct s as [l|a]; cbn [proper heading s_start_tangent].
  - intros H. destruct (line_angle l H) as [A B]. unfold unit_at. apply pt_ext; cbn [px py];
      [apply (Rmult_eq_reg_l (seg_len l)); [|lra]; etransitivity; [exact A|]; field; lra|
       apply (Rmult_eq_reg_l (seg_len l)); [|lra]; etransitivity; [exact B|]; field; lra].
  - intros [W S]. rewrite Rmult_0_l, turned_0. destruct (C42_tangents a W S) as ((A & B) & _). destruct W as (R0 & _).
    unfold unit_at. apply pt_ext; cbn [px py];
      [apply (Rmult_eq_reg_l (radius a)); [|lra]; etransitivity; [exact A|]; field; lra|
       apply (Rmult_eq_reg_l (radius a)); [|lra]; etransitivity; [exact B|]; field; lra].
Qed.
Lemma end_heading (s : Seg) : proper s -> unit_at (s_end_tangent s) = heading s 1.
Proof.
  destruct s as [l|a]; cbn [proper heading s_end_tangent].
  - exact (start_heading (SLine l)).
  - intros [W S]. destruct (C42_tangents a W S) as (_ & (A & B) & _). destruct W as (R0 & _ & W).
    rewrite Rmult_1_l, <- W.
    unfold unit_at. apply pt_ext; cbn [px py];
      [apply (Rmult_eq_reg_l (radius a)); [|lra]; etransitivity; [exact A|]; field; lra|
       apply (Rmult_eq_reg_l (radius a)); [|lra]; etransitivity; [exact B|]; field; lra].
Qed.
Lemma heading_unit (s : Seg) u : proper s -> px (heading s u) * px (heading s u) + py (heading s u) * py (heading s u) = 1.
Proof.
  destruct s as [l|a]; cbn [proper heading].
  - intros H. pose proof (euclid_sqr (p1 l) (p2 l)) as Q. fold (seg_len l) in Q. cbn [px py].
    apply (Rmult_eq_reg_l (seg_len l * seg_len l)); [|nra]. rewrite Q at 2.
    match goal with |- ?a = ?b => change (@eq R a b) end. field. lra.
  - intros [(R0 & R1 & _) _]. pose proof (turned_dist (center a) (ap1 a) (u * sweep a)) as D. rewrite R1 in D.
    pose proof (euclid_sqr (turned (center a) (u * sweep a) (ap1 a)) (center a)) as Q. rewrite D in Q.
    cbn [px py]. set (q := turned _ _ _) in *. destruct (Rlt_dec (sweep a) 0);
    (apply (Rmult_eq_reg_l (radius a * radius a)); [|nra]; rewrite Q at 2;
     match goal with |- ?a = ?b => change (@eq R a b) end; field; lra).
Qed.

Section O.
  Context {E : Epsilon ROps}.
  Hypothesis He : 0 < EPS.

  Lemma long_proper (s : Seg) : peq (s_p1 s) (s_p2 s) = false -> match s with SLine l => 0 < seg_len l | _ => True end.
  Proof. destruct s as [l|a]; [|trivial]. intros H. apply peq_false in H; [|exact He]. cbn in H. unfold seg_len. lra. Qed.

  (** The offset of one segment. *)
  Lemma offset_seg_carries (s : CSeg) (o : R) : proper (geo s) -> exists os, offset_seg s o = Ok os /\ carries o s os.
  Proof.
    cut (proper (geo s) -> exists os, offset_seg s o = Ok os /\
      (proper (geo os) /\ forall u, reached (geo os) u = ahead (reached (geo s) u) (heading (geo s) u) o) /\
      tool_start os = heading (geo s) 0 /\ tool_end os = heading (geo s) 1).
    { intros C Pr. destruct (C Pr) as (os & A & (B & B') & D). exists os. unfold carries. auto. }
    intros Pr. destruct s as [g z sa ea ia ig g1']. cbn [geo] in *. unfold offset_seg. cbn [geo]. destruct g as [l|a].
    - cbn [proper] in Pr. unfold Geom.shift, pydiv. rewrite seg_len_llen. rnum.
      destruct (Reqb (seg_len l) 0) eqn:Z; [apply Reqb_true in Z; lra|]. cbn [rmap rbind]. eexists. split; [reflexivity|].
      set (d := pmul (vec l) (o / seg_len l)%R).
      assert (L : seg_len (Ln (padd (p1 l) d) (padd (p2 l) d)) = seg_len l).
      { unfold seg_len, padd. cbn [p1 p2 px py]. unfold euclid. cbn [px py]. rnum. f_equal. unfold Rsqr. ring. }
      split; [split|split].
      + cbn [geo plain proper]. rewrite L. exact Pr.
      + intros u. cbn [geo plain reached heading]. unfold ahead, at_param, padd, d, pmul, vec, psub. cbn [px py p1 p2]. rnum.
        apply pt_ext; cbn [px py]; match goal with |- ?a = ?b => change (@eq R a b) end; field; lra.
      + unfold tool_start. cbn [geo plain inline_sa heading]. rewrite L. unfold padd. cbn [px py p1 p2]. rnum. f_equal; f_equal; ring.
      + unfold tool_end. cbn [geo plain inline_ea heading]. rewrite L. unfold padd. cbn [px py p1 p2]. rnum. f_equal; f_equal; ring.
    - eexists. split; [reflexivity|]. pose proof Pr as [W S]. pose proof W as (R0 & R1 & R2).
      assert (HP : 0 < Rhypot o (radius a)).
      { pose proof (hypot_pos o (radius a)). assert (Rhypot o (radius a) <> 0); [|lra]. rewrite hypot_zero. lra. }
      assert (K : forall u, turned (center a) (u * sweep a) (padd (ap1 a) (from_polar o (astart_tangent a))) =
                  ahead (reached (SArc a) u) (heading (SArc a) u) o).
      { intros u. pose proof (start_heading (SArc a) Pr) as H. cbn [s_start_tangent] in H. unfold unit_at in H.
        cbn [heading] in H. rewrite Rmult_0_l, turned_0 in H. pose proof (f_equal px H) as Hc. pose proof (f_equal py H) as Hs. cbn [px py] in Hc, Hs.
        set (t := astart_tangent a) in *. unfold padd, from_polar. cbn [px py]. rnum. rewrite Hc, Hs. cbn [reached heading].
        unfold ahead, turned. cbn [px py]. destruct (Rlt_dec (sweep a) 0);
        apply pt_ext; cbn [px py]; match goal with |- ?a = ?b => change (@eq R a b) end; field; lra. }
      assert (K2 : padd (ap2 a) (from_polar o (aend_tangent a)) = ahead (reached (SArc a) 1) (heading (SArc a) 1) o).
      { pose proof (end_heading (SArc a) Pr) as H. cbn [s_end_tangent] in H. rewrite <- H. rewrite reached_1 by exact Pr.
        unfold unit_at, ahead, padd, from_polar. cbn [px py s_p2]. rnum. reflexivity. }
      split; [split|split].
      + unfold offset_arc, set_ea, set_sa, plain. cbn [geo proper]. split; [|exact S]. unfold wf_arc. cbn [ap1 ap2 center radius sweep].
        split; [exact HP|]. split.
        * rewrite <- (turned_0 (center a) (padd (ap1 a) _)). rewrite <- (Rmult_0_l (sweep a)). rewrite K.
          apply euclid_unique; [apply hypot_pos|]. rnum. rewrite hypot_sqr. 
          rewrite reached_0. cbn [s_p1 heading]. rewrite Rmult_0_l, turned_0. unfold ahead. cbn [px py].
          pose proof (euclid_sqr (ap1 a) (center a)) as Q. rewrite R1 in Q. destruct (Rlt_dec (sweep a) 0).
          -- match goal with |- ?a = ?b => change (@eq R a b) end. apply (Rmult_eq_reg_l (radius a * radius a)); [|nra].
             transitivity ((o * o + radius a * radius a) * (radius a * radius a)); [rewrite Rmult_comm; reflexivity|].
             rewrite Q at 2.
             match goal with |- ?a = ?b => change (@eq R a b) end. field_simplify; [|lra]. 
             pose proof Q. replace (radius a ^ 2) with (radius a * radius a) by ring. rewrite Q. ring.
          -- match goal with |- ?a = ?b => change (@eq R a b) end. apply (Rmult_eq_reg_l (radius a * radius a)); [|nra].
             transitivity ((o * o + radius a * radius a) * (radius a * radius a)); [rewrite Rmult_comm; reflexivity|].
             rewrite Q at 2.
             match goal with |- ?a = ?b => change (@eq R a b) end. field_simplify; [|lra]. 
             pose proof Q. replace (radius a ^ 2) with (radius a * radius a) by ring. rewrite Q. ring.
        * rewrite K2, <- K, Rmult_1_l. reflexivity.
      + intros u. unfold offset_arc, set_ea, set_sa, plain. cbn [geo]. cbn [reached center ap1 sweep]. apply K.
      + exact (start_heading (SArc a) Pr).
      + exact (end_heading (SArc a) Pr).
  Qed.

  Lemma angle2_turned (q a b : Pt) r : 0 < r -> euclid a q = r -> euclid b q = r -> EPS <= euclid a b ->
    turned q (angle2 q a b) a = b.
  Proof.
    intros Hr Ha Hb Hd. rewrite angle2_turns; auto.
    - rewrite (euclid_sym q a), (euclid_sym q b), Ha, Hb. replace (r / r) with 1 by (field; lra). apply at_param_1.
    - intros ->. replace (euclid a a) with 0 in Ha by (symmetry; now apply euclid_zero). lra.
    - intros ->. replace (euclid b b) with 0 in Hb by (symmetry; now apply euclid_zero). lra.
  Qed.
  Lemma palmost_true (a b : Pt) tol : 0 <= tol -> palmost a b tol = true -> euclid a b < tol.
  Proof.
    intros Ht. unfold palmost. rnum. rewrite Rltb_true. intros H. pose proof (euclid_sqr a b) as Q. pose proof (euclid_pos a b). nra.
  Qed.
  Lemma ahead_dist (q h : Pt) o : 0 < o -> px h * px h + py h * py h = 1 -> euclid (ahead q h o) q = o.
  Proof.
    intros Ho Hh. apply euclid_unique; [lra|]. unfold ahead. cbn [px py].
    transitivity (o * o * (px h * px h + py h * py h)); [rewrite Hh; ring|ring].
  Qed.

  Lemma loop_woven (o m tol : R) r : 0 < o -> 0 <= tol -> forall (s os : CSeg) acc,
    (forall x, In x (s :: r) -> proper (geo x) /\ EPS <= euclid (starts x) (ends x)) -> meets (s :: r) -> carries o s os ->
    exists os' out, offset_loop o m tol (Some (s, os)) acc r = Ok (acc ++ os' :: out) /\
      woven EPS o m tol (s :: r) (os' :: out) /\ geo os' = geo os /\ inline_sa os' = inline_sa os /\ inline_ea os' = inline_ea os.
  Proof.
    intros Ho Ht. induction r as [|t r IH]; intros s os acc Hp Hm Hc.
    - exists os, []. cbn [offset_loop]. repeat split; auto. constructor. exact Hc.
    - cbn [offset_loop]. destruct Hm as [Hm1 Hm2].
      destruct (Hp t) as [Tp Tl]; [cbn; auto|]. destruct (Hp s) as [Sp Sl]; [cbn; auto|].
      unfold starts, ends in Tl. rewrite reached_0, reached_1 in Tl by exact Tp. unfold c_p1 at 1, c_p2 at 1.
      destruct (peq (s_p1 (geo t)) (s_p2 (geo t))) eqn:Z; [apply peq_true in Z; [lra|exact He]|].
      destruct (offset_seg_carries t o Tp) as (ot & Q & Ct). rewrite Q. cbn [rbind].
      set (acc' := if negb (peq (c_p2 os) (c_p1 ot)) then _ else _).
      destruct (IH t ot acc') as (ot' & out & E1 & W & G & G2 & G3); auto.
      { intros x Hx. apply Hp. now right. }
      rewrite E1. 
      destruct Hc as (Op & Oc & Os & Oe). destruct Ct as (Tp' & Tc & Ts & Te).
      assert (E_os : c_p2 os = ahead (ends s) (heading (geo s) 1) o).
      { unfold c_p2. rewrite <- reached_1 by exact Op. apply Oc. }
      assert (E_ot : c_p1 ot = ahead (ends s) (heading (geo t) 0) o).
      { rewrite Hm1. unfold c_p1. rewrite <- reached_0. apply Tc. }
      assert (D : euclid (ends os) (starts ot') = euclid (c_p2 os) (c_p1 ot)).
      { unfold starts, ends. rewrite G, reached_0, reached_1 by exact Op. reflexivity. }
      unfold acc'. destruct (peq (c_p2 os) (c_p1 ot)) eqn:Z2; cbn [negb].
      + apply peq_true in Z2; [|exact He].
        set (os' := if (segments_are_g1 (geo s) (geo t) tol && negb (ignore_g1 s) && negb (ignore_g1 t))%bool then set_g1 os else os).
        exists os', (ot' :: out). assert (K : geo os' = geo os /\ inline_sa os' = inline_sa os /\ inline_ea os' = inline_ea os).
        { unfold os'. destruct (_ && _ && _)%bool; auto. }
        destruct K as (K1 & K2 & K3). split; [|split; [|auto]].
        * unfold os'. destruct (_ && _ && _)%bool; rewrite <- app_assoc; reflexivity.
        * apply wv_meet; auto.
          -- unfold carries, tool_start, tool_end in *. rewrite K1, K2, K3. auto.
          -- unfold ends. rewrite K1. fold (ends os). rewrite D. exact Z2.
      + apply peq_false in Z2; [|exact He].
        exists os, (connector o m tol s os t ot :: ot' :: out). split; [rewrite <- app_assoc; reflexivity|]. split; [|auto].
        apply wv_join; auto.
        * unfold carries. auto.
        * rewrite D. exact Z2.
        * unfold tool_start, connector. destruct (_ || _)%bool; cbn [set_sa set_ea plain inline_sa]; apply end_heading; exact Sp.
        * unfold tool_end, connector. destruct (_ || _)%bool; cbn [set_sa set_ea plain inline_ea]; apply start_heading; exact Tp.
        * rewrite D. unfold connector. rewrite dist_euclid. rnum.
          destruct (Rltb (euclid (c_p2 os) (c_p1 ot)) m || segments_are_g1 (geo os) (geo ot) tol)%bool eqn:B.
          -- right. split.
             ++ unfold steps. cbn [set_ea set_sa plain geo]. now rewrite E_os, E_ot.
             ++ apply orb_true_iff in B as [B|B].
                ** apply Rltb_true in B. eapply Rlt_le_trans; [exact B|apply Rmax_l].
                ** unfold segments_are_g1 in B. apply andb_true_iff in B as [B _]. apply palmost_true in B; [|exact Ht].
                   eapply Rlt_le_trans; [exact B|apply Rmax_r].
          -- left. apply orb_false_iff in B as [B _]. apply Rltb_false in B. split; [|exact B].
             assert (Es : c_p2 s = ends s) by (unfold ends, c_p2; now rewrite reached_1).
             rewrite Es. eexists. split; [reflexivity|]. cbn [center radius sweep geo set_ea set_sa plain reached ap1].
             split; [reflexivity|]. split; [reflexivity|]. split; [apply angle2_range; exact He|].
             split; [intros u; now rewrite E_os|]. split; [rewrite Rmult_0_l, turned_0; exact E_os|].
             rewrite Rmult_1_l. rewrite <- E_ot. apply (angle2_turned _ _ _ o); auto.
             ++ rewrite E_os. apply ahead_dist; [exact Ho|apply heading_unit; exact Sp].
             ++ rewrite E_ot. apply ahead_dist; [exact Ho|apply heading_unit; exact Tp].
  Qed.

  (** The start hint of the first segment. *)
  Lemma first_hint (q h : Pt) o : 0 < o -> px h * px h + py h * py h = 1 ->
    unit_at (pangle (psub (ahead q h o) q)) = h.
  Proof.
    intros Ho Hh. unfold pangle, psub, ahead. cbn [px py]. rnum.
    destruct (atan2_polar (py q + o * py h - py q) (px q + o * px h - px q)) as [A B].
    assert (K : Rhypot (px q + o * px h - px q) (py q + o * py h - py q) = o).
    { apply hypot_unique; [lra|]. transitivity (o * o * (px h * px h + py h * py h)); [rewrite Hh; ring|ring]. }
    rewrite K in A, B. unfold unit_at. apply pt_ext; cbn [px py]; (apply (Rmult_eq_reg_l o); [|lra]).
    - etransitivity; [exact A|]. ring.
    - etransitivity; [exact B|]. ring.
  Qed.
  Lemma woven_first (o m tol : R) p os os' out : geo os' = geo os -> inline_ea os' = inline_ea os ->
    tool_start os' = tool_start os -> woven EPS o m tol p (os :: out) -> woven EPS o m tol p (os' :: out).
  Proof.
    intros G A T W.
    assert (C : forall s, carries o s os -> carries o s os').
    { intros s. unfold carries, tool_end in *. now rewrite T, G, A. }
    assert (D : ends os' = ends os) by (unfold ends; now rewrite G).
    inversion W; subst.
    - apply wv_last; auto.
    - apply wv_meet; auto. now rewrite D.
    - apply wv_join; auto; rewrite D; auto.
  Qed.

  (** Any path: the joints. *)
  Definition near_joint (a b : CSeg) : Prop := euclid (s_p2 (geo a)) (s_p1 (geo b)) < EPS.
  Fixpoint near_joints (p : Path) : Prop :=
    match p with s :: ((t :: _) as r) => near_joint s t /\ near_joints r | _ => True end.
  Lemma near_joints_snoc p x y : near_joints (p ++ [x]) -> near_joint x y -> near_joints (p ++ [x; y]).
  Proof.
    induction p as [|a [|b r] IH]; cbn; intros H J; [auto|tauto|]. destruct H as [H1 H2]. split; [exact H1|].
    apply IH; auto.
  Qed.
  Lemma near_joints_last p x x' : geo x' = geo x -> near_joints (p ++ [x]) -> near_joints (p ++ [x']).
  Proof.
    intros G. induction p as [|a [|b r] IH]; cbn; intros H; [auto| |].
    - unfold near_joint in *. rewrite G. tauto.
    - destruct H as [H1 H2]. split; [exact H1|]. apply IH; auto.
  Qed.
  Lemma self_close (a : Pt) : euclid a a < EPS.
  Proof. replace (euclid a a) with 0 by (symmetry; now apply euclid_zero). exact He. Qed.
  Lemma loop_joints (o m tol : R) r : forall prev acc out,
    match prev with None => near_joints acc /\ acc = [] | Some (_, po) => near_joints (acc ++ [po]) end ->
    offset_loop o m tol prev acc r = Ok out -> near_joints out.
  Proof.
    induction r as [|t r IH]; intros prev acc out Hp; cbn [offset_loop].
    - intros H. injection H as <-. destruct prev as [[ps po]|]; tauto.
    - destruct (peq (c_p1 t) (c_p2 t)); [now apply IH|].
      destruct (offset_seg t o) as [ot|] eqn:Q; cbn [rbind]; [|discriminate].
      destruct prev as [[ps po]|].
      + apply IH. destruct (peq (c_p2 po) (c_p1 ot)) eqn:Z; cbn [negb].
        * apply peq_true in Z; [|exact He]. destruct (_ && _ && _)%bool; rewrite <- app_assoc; cbn [app].
          -- apply near_joints_snoc; [|exact Z]. eapply near_joints_last; [|exact Hp]. reflexivity.
          -- apply near_joints_snoc; [exact Hp|exact Z].
        * rewrite <- app_assoc. cbn [app].
          set (c := connector o m tol ps po t ot).
          assert (C1 : c_p1 c = c_p2 po) by (unfold c, connector, c_p1; destruct (_ || _)%bool; reflexivity).
          assert (C2 : c_p2 c = c_p1 ot) by (unfold c, connector, c_p2; destruct (_ || _)%bool; reflexivity).
          change (acc ++ [po; c; ot]) with (acc ++ ([po] ++ [c; ot])). rewrite app_assoc.
          apply near_joints_snoc.
          -- rewrite <- app_assoc. cbn [app]. apply near_joints_snoc; [exact Hp|]. unfold near_joint. fold (c_p2 po). fold (c_p1 c). rewrite C1. apply self_close.
          -- unfold near_joint. fold (c_p2 c). fold (c_p1 ot). rewrite C2. apply self_close.
      + destruct Hp as [Hp ->]. apply IH. cbn. trivial.
  Qed.
  (** The loop fails on no segment. *)
  Lemma offset_seg_total (s : CSeg) (o : R) : peq (c_p1 s) (c_p2 s) = false -> exists os, offset_seg s o = Ok os.
  Proof.
    intros H. pose proof (long_proper (geo s) H) as L. unfold offset_seg. destruct (geo s) as [l|a]; [|eauto].
    unfold Geom.shift, pydiv. rewrite seg_len_llen. rnum. destruct (Reqb (seg_len l) 0) eqn:Z; [apply Reqb_true in Z; lra|]. cbn. eauto.
  Qed.
  Lemma loop_total (o m tol : R) r : forall prev acc, exists out, offset_loop o m tol prev acc r = Ok out /\
    (out = [] <-> acc = [] /\ prev = None /\ forall s, In s r -> peq (c_p1 s) (c_p2 s) = true).
  Proof.
    induction r as [|t r IH]; intros prev acc; cbn [offset_loop].
    - eexists. split; [reflexivity|]. destruct prev as [[ps po]|].
      + split; [intros H; now apply app_eq_nil in H as [_ ?]|intros (_ & ? & _); discriminate].
      + split; [intros ->; repeat split; intros ? []|tauto].
    - destruct (peq (c_p1 t) (c_p2 t)) eqn:Z.
      + destruct (IH prev acc) as (out & A & B). exists out. split; [exact A|]. rewrite B. split; intros (H1 & H2 & H3); repeat split; auto.
        * intros s [<-|Hs]; auto.
        * intros s Hs. apply H3. now right.
      + destruct (offset_seg_total t o Z) as (ot & Q). rewrite Q. cbn [rbind].
        assert (K : forall acc' p', exists out, offset_loop o m tol (Some p') acc' r = Ok out /\ (out = [] <-> acc = [] /\ prev = None /\ (forall s, In s (t :: r) -> peq (c_p1 s) (c_p2 s) = true))).
        { intros acc' p'. destruct (IH (Some p') acc') as (out & A & B). exists out. split; [exact A|]. rewrite B.
          split; [intros (_ & H & _); discriminate|intros (_ & _ & H)]. rewrite (H t) in Z by (now left). discriminate. }
        destruct prev as [[ps po]|]; apply K.
  Qed.
End O.
