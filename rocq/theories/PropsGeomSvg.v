(** * PropsGeomSvg: from SVG shapes to geometry (C120-C123).  Over R. *)
From Verif Require Import Num NumR Geom GeomR GeomSpec GeomSpec2 GeomProofs GeomProofs2 GeomProofs3 GeomProofs4 GeomProofs5 GeomProofs7 GeomProofs8 GeomProofs9
  OffsetSpec OffsetProofs Ellipse Bezier BezierSpec BezierProofs BezierProofs2 Str Svg SvgSpec SvgProofs2 SvgDoc GeomSvg GeomSvgSpec GeomSvgProofs
  PropsGeom PropsGeom2 PropsBezier PropsEllipse PropsSvg.
From Coq Require Import ZArith Reals Lra Lia Bool List Psatz Ascii String.
Import ListNotations.
Local Open Scope R_scope.

(** ** C120: path data becomes the drawn curves *)
Section C120.
  Context {E : Epsilon ROps}.
  Hypothesis He : 0 < EPS.
  (** An arc that the conversion handles: circular, the short way round, its chord between
      a millionth of the radius and the diameter. *)
  Definition tame (x : piece) : Prop :=
    match snd x with
    | DArc rx ry _ large _ p =>
        rx = ry /\ large = false /\ EPS <= rx /\ EPS * rx <= euclid (spot (fst x)) (spot p) < 2 * rx
    | _ => True
    end.
  Lemma pflag_flag b : pflag (N:=ROps) (flag b) = b.
  Proof. destruct b; reflexivity. Qed.
  Lemma cmd_shows (s : xy R) (d : drawn ROps) tb : tame (s, d) -> (forall p, d <> DMove p) ->
    exists g, cmd_segments (fst (tuple d)) (snd (tuple d)) (spot s) (spot (stop d)) tb = Ok [g] /\ shows (s, d) g.
  Proof.
    intros Ht Hm. destruct d as [p|p|a b p|a p|rx ry rot large fl p]; [destruct (Hm p); reflexivity| | | |].
    - exists (GLine (Ln (spot s) (spot p))). split; [reflexivity|]. cbn. eexists. repeat split.
    - exists (GCurve (Bz (spot s) (spot a) (spot b) (spot p))). split; [reflexivity|]. cbn. eexists. repeat split.
    - exists (GCurve (from_quadratic (spot s) (spot a) (spot p))). split; [reflexivity|]. cbn. eexists. split; [reflexivity|].
      intros t. apply C45_from_quadratic.
    - destruct Ht as (-> & -> & Hr & Hd). cbn [stop fst snd] in *.
      destruct (circle_arc He (spot s) (spot p) ry false fl rot tb Hr Hd) as (c & Q & W & A & B & C & D).
      exists (GArc c). split.
      + cbn [tuple fst snd]. change (cmd_segments "A" ([F ry; F ry; F rot; flag false; flag fl] ++ Fxy p) (spot s) (spot p) tb)
          with (arc_segments (spot s) (spot p) ry ry rot (pflag (N:=ROps) (flag false)) (pflag (N:=ROps) (flag fl)) tb).
        rewrite !pflag_flag. exact Q.
      + cbn. split; [reflexivity|]. exists c. split; [reflexivity|]. unfold svg_arc. split; [exact W|]. split; [exact A|]. split; [exact B|].
        split; [exact C|]. pose proof PI_RGT_0. destruct fl; cbn [Bool.eqb] in D; (split; [apply D|]).
        * rewrite Rabs_pos_eq; lra.
        * rewrite Rabs_left; lra.
  Qed.
  Lemma geom_loop_shows tb : forall (l : list (drawn ROps)) (s : xy R) (pre : list piece) (sub : list Gseg) done,
    Forall tame (located s l) -> Forall2 shows pre sub ->
    exists sub' done' gs, geom_loop (map tuple l) (spot s) sub done tb = Ok (sub', done') /\
      match sub' with [] => done' | _ => done' ++ [sub'] end = done ++ gs /\
      Forall2 (Forall2 shows) (runs pre (located s l)) gs.
  Proof.
    induction l as [|d l IH]; intros s pre sub done Ht Hs.
    - cbn. inversion Hs; subst.
      + exists [], done, []. rewrite app_nil_r. repeat split. constructor.
      + do 3 eexists. split; [reflexivity|]. split; [reflexivity|]. constructor; [constructor; auto|constructor].
    - cbn [located] in Ht. inversion Ht as [|? ? T1 T2]; subst. 
      assert (DM : (exists p, d = DMove p) \/ forall p, d <> DMove p) by (destruct d; eauto; right; discriminate).
      assert (EQ : geom_loop (map tuple (d :: l)) (spot s) sub done tb =
        if Ascii.eqb (fst (tuple d)) "M" then
          match sub with [] => geom_loop (map tuple l) (spot (stop d)) [] done tb | _ => geom_loop (map tuple l) (spot (stop d)) [] (done ++ [sub]) tb end
        else rbind (cmd_segments (fst (tuple d)) (snd (tuple d)) (spot s) (spot (stop d)) tb)
          (fun ss => geom_loop (map tuple l) (spot (stop d)) (sub ++ ss) done tb)) by (destruct d; reflexivity).
      rewrite EQ. clear EQ. destruct DM as [[p ->]|DM].
      + cbn [tuple fst Ascii.eqb]. cbn [located runs]. 
        destruct sub as [|g sub].
        * inversion Hs; subst. destruct (IH p [] [] done T2 (Forall2_nil _)) as (sub' & done' & gs & Q1 & Q2 & Q3).
          exists sub', done', gs. repeat split; auto.
        * destruct pre as [|x pre]; [inversion Hs|].
          destruct (IH p [] [] (done ++ [g :: sub]) T2 (Forall2_nil _)) as (sub' & done' & gs & Q1 & Q2 & Q3).
          exists sub', done', ((g :: sub) :: gs). repeat split; auto.
          -- rewrite Q2, <- app_assoc. reflexivity.
          -- cbn [run app]. constructor; auto.
      + destruct (cmd_shows s d tb T1 DM) as (g & Q & Sg).
        replace (Ascii.eqb (fst (tuple d)) "M") with false by (destruct d; try reflexivity; destruct (DM p); reflexivity).
        rewrite Q. cbn [rbind].
        assert (Hs' : Forall2 shows (pre ++ [(s, d)]) (sub ++ [g])) by (apply Forall2_app; [auto|constructor; [auto|constructor]]).
        destruct (IH (stop d) _ _ done T2 Hs') as (sub' & done' & gs & Q1 & Q2 & Q3).
        exists sub', done', gs. repeat split; auto.
        cbn [located]. replace (runs pre ((s, d) :: located (stop d) l)) with (runs (pre ++ [(s, d)]) (located (stop d) l))
          by (destruct d; try reflexivity; destruct (DM p); reflexivity). exact Q3.
  Qed.
  Theorem C120_path_partial (p : list pathcmd) (s : pystr) (to_bezier : bool) :
    path_ok p -> smooth_directly p -> Forall item_ok (path_items p) -> written (path_items p) s ->
    Forall tame (located (XY 0 0) (drawing p)) ->
    exists gs, parse_path_geom s to_bezier = Ok gs /\ Forall2 (Forall2 shows) (subpaths (drawing p)) gs.
  Proof.
    intros H1 H2 H3 H4 H5. unfold parse_path_geom. rewrite (C54_smooth_partial (N:=ROps) p s H1 H2 H3 H4).
    destruct (geom_loop_shows to_bezier (drawing p) (XY 0 0) [] [] [] H5 (Forall2_nil _)) as (sub & done & gs & Q1 & Q2 & Q3).
    match goal with |- context [geom_loop ?a ?b ?c ?d ?e] => replace (geom_loop a b c d e) with (Ok (sub, done)) by (symmetry; exact Q1) end.
    cbn [rbind]. exists gs. split; [|exact Q3]. rewrite Q2. reflexivity.
  Qed.
End C120.
(** Two subpaths: a line and a quadratic curve; an arc and the closing line. *)
Definition c120_sample : list pathcmd :=
  [Segs false (Move (XY n1 n1)) [Line (XY n2 n1)]; Segs false (Quad (XY n3 n2) (XY n4 n1)) [];
   Segs false (Move (XY n5 n5)) []; Segs false (Arc n2 n2 n1 false true (XY n6 n6)) []; Close false].
Definition c120_text : pystr := L "M1 1 2 1Q3 2 4 1M5 5A2 2 1 0 1 6 6Z".
Lemma nat_value d : numeral_value (N:=ROps) (nat_num [d]) = IZR (digit_value d).
Proof. destruct d; cbn; unfold Rlit; cbn; lra. Qed.
Example C120_example : path_ok c120_sample /\ smooth_directly c120_sample /\ Forall item_ok (path_items c120_sample) /\
  written (path_items c120_sample) c120_text /\
  Forall (@tame eps6) (located (XY 0 0) (drawing c120_sample)) /\
  exists g1 g2 g3 g4, parse_path_geom (E:=eps6) c120_text true = Ok [[g1; g2]; [g3; g4]] /\
    point_on g1 1 = P 2 1 /\ point_on g4 1 = P 5 5.
Proof.
  assert (H1 : path_ok c120_sample). { split; [repeat constructor|]. right. do 4 eexists. reflexivity. }
  assert (H2 : smooth_directly c120_sample) by (cbn; repeat split).
  assert (H3 : Forall item_ok (path_items c120_sample)).
  { cbn. repeat (constructor; [first [exact Logic.I|apply numeral_ok_dec; reflexivity|cbn; unfold is_letter; cbn; tauto]|]). constructor. }
  assert (H4 : written (path_items c120_sample) c120_text).
  { unfold c120_text. let t := eval compute in (L "M1 1 2 1Q3 2 4 1M5 5A2 2 1 0 1 6 6Z") in change (L "M1 1 2 1Q3 2 4 1M5 5A2 2 1 0 1 6 6Z") with t.
    eexists [], _. split; [constructor|]. split; [|reflexivity].
    change (path_items c120_sample) with
      [Cmd "M"; Num n1; Num n1; Num n2; Num n1; Cmd "Q"; Num n3; Num n2; Num n4; Num n1; Cmd "M"; Num n5; Num n5; Cmd "A"; Num n2; Num n2; Num n1;
       Flag false; Flag true; Num n6; Num n6; Cmd "Z"]%char.
    next ""%string. next " "%string. next " "%string. next " "%string. next ""%string. next ""%string. next " "%string. next " "%string. next " "%string.
    next ""%string. next ""%string. next " "%string. next ""%string. next ""%string. next " "%string. next " "%string. next " "%string. next " "%string.
    next " "%string. next " "%string. next ""%string.
    change (spells [Cmd "Z"%char] (item_text (Cmd "Z"%char) ++ L "")). apply sp_last. constructor. }
  assert (DR : drawing (N:=ROps) c120_sample =
    [DMove (XY 1 1); DLine (XY 2 1); DQuad (XY 3 2) (XY 4 1); DMove (XY 5 5); DArc 2 2 1 false true (XY 6 6); DLine (XY 5 5)]).
  { cbn [drawing sem_path c120_sample sem_cmd sem_segs sem_seg val place origin start here prev xx yy app].
    unfold n1, n2, n3, n4, n5, n6. rewrite !nat_value. reflexivity. }
  assert (H5 : Forall (@tame eps6) (located (XY 0 0) (drawing c120_sample))).
  { rewrite DR. cbn [located stop]. repeat (constructor; [exact Logic.I|]). constructor; [|repeat constructor].
    cbn [tame snd fst]. split; [reflexivity|]. split; [reflexivity|]. unfold EPS, eps6.
    assert (Q : euclid (spot (XY 5 5)) (spot (XY 6 6)) * euclid (spot (XY 5 5)) (spot (XY 6 6)) = 2).
    { rewrite euclid_sqr'. cbn. lra. }
    pose proof (euclid_pos (spot (XY 5 5)) (spot (XY 6 6))).
    assert (0 < / 1000000) by lra. cbn. nra. }
  repeat (split; [assumption|]).
  assert (He : 0 < @EPS ROps eps6) by (unfold EPS, eps6; cbn; lra).
  destruct (@C120_path_partial eps6 He c120_sample c120_text true H1 H2 H3 H4 H5) as (gs & Q & F).
  rewrite DR in F. cbn in F. inversion F as [|? l1 ? r1 F1 F2]; subst. inversion F2 as [|? l2 ? r2 F3 F4]; subst. inversion F4; subst.
  inversion F1 as [|? g1 ? r1 S1 F5]; subst. inversion F5 as [|? g2 ? r2 S2 F6]; subst. inversion F6; subst.
  inversion F3 as [|? g3 ? r3 S3 F7]; subst. inversion F7 as [|? g4 ? r4 S4 F8]; subst. inversion F8; subst.
  exists g1, g2, g3, g4. split; [exact Q|]. cbn in S1, S4. destruct S1 as (l & -> & A & B). destruct S4 as (l' & -> & A' & B').
  cbn [point_on]. rewrite !at_param_1, B, B'. split; reflexivity.
Qed.

(** ** C121: arc commands *)
(** The path data M a A rx ry rot large flag b, written in some way, and the values of its numbers. *)
Definition arc_path (a : xy numeral) (rx ry rot : numeral) (large flag : bool) (b : xy numeral) : list pathcmd :=
  [Segs false (Move a) []; Segs false (Arc rx ry rot large flag b) []].
Definition V (n : numeral) : R := numeral_value (N:=ROps) n.
Definition Vxy (p : xy numeral) : Pt := P (V (xx p)) (V (yy p)).
Definition writes_arc (s : pystr) a rx ry rot large flag b : Prop :=
  Forall item_ok (path_items (arc_path a rx ry rot large flag b)) /\ written (path_items (arc_path a rx ry rot large flag b)) s.
Section C121.
  Context {E : Epsilon ROps}.
  Hypothesis He : 0 < EPS.
  Variables (s : pystr) (a b : xy numeral) (rx ry rot : numeral) (large flag to_bezier : bool).
  Hypothesis W : writes_arc s a rx ry rot large flag b.
  Notation chord := (euclid (Vxy a) (Vxy b)).
  Lemma arc_path_geom : parse_path_geom s to_bezier =
    rmap (fun l => match l with [] => [] | _ => [l] end) (arc_segments (Vxy a) (Vxy b) (V rx) (V ry) (V rot) large flag to_bezier).
  Proof.
    destruct W as [W1 W2]. unfold parse_path_geom. rewrite (C54_smooth_partial (N:=ROps) (arc_path a rx ry rot large flag b) s); auto.
    2:{ split; [repeat constructor|]. right. do 4 eexists. reflexivity. }
    2:{ cbn. repeat split. }
    match goal with |- context [geom_loop ?l0 ?p ?c ?d ?e] =>
      replace (geom_loop l0 p c d e) with (rmap (fun l : list Gseg => (l, @nil (list Gseg)))
        (arc_segments (Vxy a) (Vxy b) (V rx) (V ry) (V rot) (pflag (N:=ROps) (SvgProofs2.flag large)) (pflag (N:=ROps) (SvgProofs2.flag flag)) to_bezier)) end.
    - rewrite !pflag_flag. destruct (arc_segments _ _ _ _ _ _ _ _) as [l|e]; cbn; [destruct l; reflexivity|reflexivity].
    - symmetry. change (drawing (arc_path a rx ry rot large flag b)) with
        [DMove (XY (V (xx a)) (V (yy a))); DArc (V rx) (V ry) (V rot) large flag (XY (V (xx b)) (V (yy b)))].
      cbn [map tuple Fxy app geom_loop Svg.pneg List.length Nat.ltb Nat.leb nth_error Nat.sub rbind Ascii.eqb pnum].
      unfold cmd_segments. cbn [Ascii.eqb Bool.eqb]. cbn [pidx nth_error rbind pnum Fxy app].
      change (P (xx (XY (V (xx a)) (V (yy a)))) (yy (XY (V (xx a)) (V (yy a))))) with (Vxy a).
      change (P (xx (XY (V (xx b)) (V (yy b)))) (yy (XY (V (xx b)) (V (yy b))))) with (Vxy b).
      match goal with |- context [arc_segments ?a ?b ?c ?d ?e ?f ?g ?h] => destruct (arc_segments a b c d e f g h) end; reflexivity.
  Qed.
  (** A circular arc taken the short way round is the arc of the specification. *)
  Theorem C121_circular_partial : V rx = V ry -> EPS <= V rx -> EPS * V rx <= chord < 2 * V rx -> large = false ->
    exists c, parse_path_geom s to_bezier = Ok [[GArc c]] /\ svg_arc (Vxy a) (Vxy b) (V rx) large flag c.
  Proof.
    intros E1 E2 E3 EL. rewrite arc_path_geom, <- E1, EL.
    destruct (circle_arc He (Vxy a) (Vxy b) (V rx) false flag (V rot) to_bezier E2 E3) as (c & Q & Q1 & Q2 & Q3 & Q4 & Q5).
    exists c. rewrite Q. split; [reflexivity|]. pose proof PI_RGT_0. destruct flag; cbn in Q5; repeat split; try assumption; try apply Q1; try lra; cbn.
    - rewrite Rabs_pos_eq; lra.
    - rewrite Rabs_left; lra.
  Qed.
  (** A zero radius gives the straight line, as the specification wants. *)
  Theorem C121_zero_radius : V rx = 0 \/ V ry = 0 -> parse_path_geom s to_bezier = Ok [[GLine (Ln (Vxy a) (Vxy b))]].
  Proof.
    intros Z. rewrite arc_path_geom. unfold arc_segments, earc_from_endpoints.
    replace (is_zero (V rx) || is_zero (V ry)) with true; [reflexivity|]. symmetry. apply orb_true_iff.
    destruct Z as [Z|Z]; [left|right]; rewrite Z; apply isz; rewrite Rabs_R0; exact He.
  Qed.
  (** The long way round: the centre is right, but the arc is the other part of the circle. *)
  Theorem C121_large_refuted : V rx = V ry -> EPS <= V rx -> EPS * V rx <= chord < 2 * V rx -> large = true ->
    exists c c', parse_path_geom s to_bezier = Ok [[GArc c]] /\ svg_arc (Vxy a) (Vxy b) (V rx) large flag c' /\
      center c = center c' /\ ap1 c = ap1 c' /\ ap2 c = ap2 c' /\ Rabs (sweep c) = 2 * PI - Rabs (sweep c') /\
      ~ svg_arc (Vxy a) (Vxy b) (V rx) large flag c.
  Proof.
    intros E1 E2 E3 EL. rewrite arc_path_geom, <- E1, EL.
    destruct (circle_arc He (Vxy a) (Vxy b) (V rx) true flag (V rot) to_bezier E2 E3) as (c & Q & Q1 & Q2 & Q3 & Q4 & Q5).
    rewrite Q. pose proof PI_RGT_0 as PP.
    set (w := if flag then sweep c + 2 * PI else sweep c - 2 * PI).
    exists c, (mkarc (ap1 c) (ap2 c) (radius c) w (center c)). split; [reflexivity|]. split; [|repeat split].
    - destruct Q1 as (A1 & A2 & A3). unfold svg_arc, wf_arc. cbn [ap1 ap2 radius sweep center]. split; [|split; [auto|split; [auto|split; [auto|]]]].
      + split; [exact A1|]. split; [exact A2|]. assert (CW : cos w = cos (sweep c) /\ sin w = sin (sweep c)).
        { unfold w. generalize (sweep c : R). intros x. destruct flag.
          - replace (x + 2 * PI) with (x + 2 * INR 1 * PI) by (cbn; lra). split; [apply cos_period|apply sin_period].
          - rewrite <- (cos_period (x - 2 * PI) 1), <- (sin_period (x - 2 * PI) 1).
            replace (x - 2 * PI + 2 * INR 1 * PI) with x by (cbn; lra). split; reflexivity. }
        rewrite A3. unfold turned. rewrite (proj1 CW), (proj2 CW). reflexivity.
      + unfold w. destruct flag; cbn [Bool.eqb] in Q5.
        * split; [lra|]. rewrite Rabs_pos_eq; lra.
        * split; [lra|]. rewrite Rabs_left; lra.
    - unfold w. cbn [sweep]. destruct flag; cbn [Bool.eqb] in Q5.
      + rewrite (Rabs_left (sweep c)), (Rabs_pos_eq (sweep c + _)) by lra. eqR. lra.
      + rewrite (Rabs_pos_eq (sweep c)), (Rabs_left (sweep c - _)) by lra. eqR. lra.
    - intros (_ & _ & _ & _ & _ & L). unfold Rabs in L. destruct (Rcase_abs (sweep c)), flag; cbn [Bool.eqb] in Q5; lra.
  Qed.
  (** A radius that is too small is not enlarged: the arc does not have the radius it says. *)
  Theorem C121_small_radius_refuted : V rx = V ry -> EPS <= V rx -> EPS < 1 -> 2 * V rx < chord ->
    exists c, parse_path_geom s to_bezier = Ok [[GArc c]] /\ radius c = V rx /\ 2 * euclid (ap1 c) (center c) = chord /\ ~ wf_arc c.
  Proof.
    intros E1 E2 E3 E4. rewrite arc_path_geom, <- E1, circle_half by (auto; lra).
    eexists. split; [reflexivity|]. cbn [radius ap1 center]. 
    assert (D : euclid (Vxy a) (P ((px (Vxy a) + px (Vxy b)) / 2) ((py (Vxy a) + py (Vxy b)) / 2)) = chord / 2).
    { apply euclid_unique; [pose proof (euclid_pos (Vxy a) (Vxy b)); lra|]. cbn [px py].
      transitivity (chord * chord / 4); [field|]. rewrite euclid_sqr'. field. }
    split; [reflexivity|]. split; [rewrite D; field|]. intros (_ & A & _). cbn [radius ap1 center] in A. rewrite D in A. lra.
  Qed.
  (** Half a circle goes the same way whatever the flags. *)
  Theorem C121_half_refuted : V rx = V ry -> EPS <= V rx -> EPS < 1 -> 2 * V rx = chord ->
    exists c, parse_path_geom s to_bezier = Ok [[GArc c]] /\ sweep c = PI.
  Proof. intros E1 E2 E3 E4. rewrite arc_path_geom, <- E1, circle_half by (auto; lra). eexists. split; reflexivity. Qed.
  (** An arc back to its start raises an exception (the specification omits it). *)
  Theorem C121_same_point_refuted : EPS <= Rabs (V rx) -> EPS <= Rabs (V ry) -> Vxy a = Vxy b -> parse_path_geom s to_bezier = Raise ZeroDivisionError.
  Proof.
    intros Hx Hy Q. rewrite arc_path_geom, Q. unfold arc_segments, earc_from_endpoints.
    rewrite (proj2 (isz_false _) Hx), (proj2 (isz_false _) Hy). cbn [orb]. unfold protate. rewrite apply_rotate.
    replace (psub (Vxy b) (Vxy b)) with (P 0 0 : Pt) by (unfold psub; apply pt_ext; cbn; lra).
    cbn [px py]. unfold pydiv. rnum. set (X := Rabs (V rx)) in *. set (Y := Rabs (V ry)) in *.
    destruct (Reqb (X * X) 0) eqn:Z1; [apply Reqb_true in Z1; nra|]. cbn [rbind].
    destruct (Reqb (Y * Y) 0) eqn:Z2; [apply Reqb_true in Z2; nra|]. cbn [rbind].
    destruct (if Rltb 1 _ then _ else _) as [u v]. 
    match goal with |- context [Reqb ?e 0] => replace e with 0 by (unfold turned; cbn [px py]; field) end.
    rewrite (proj2 (Reqb_true 0 0) eq_refl). reflexivity.
  Qed.
  (** Half the elliptical arcs are lost: when the two flags agree, no curve is made. *)
  Theorem C121_ellipse_lost_refuted : EPS <= Rabs (V rx) -> EPS <= Rabs (V ry) -> EPS <= Rabs (V rx - V ry) -> EPS * Rabs (V rx) <= chord ->
    chord < 2 * Rabs (V rx) -> chord < 2 * Rabs (V ry) -> large = flag -> to_bezier = true ->
    parse_path_geom s to_bezier = Ok [].
  Proof.
    intros Hx Hy Hd Hc C1 C2 EL EB. rewrite arc_path_geom, EL, EB. unfold arc_segments.
    set (X := Rabs (V rx)) in *. set (Y := Rabs (V ry)) in *.
    assert (EP : 0 < chord) by nra.
    assert (Hab : Vxy a <> Vxy b). { intros Q. rewrite Q, (proj2 (euclid_zero _ _) eq_refl) in EP. lra. }
    destruct (endpoints_shape He (Vxy a) (Vxy b) (V rx) (V ry) flag flag (V rot) Hab Hx Hy) as (arc & _ & _ & Q & _).
    pose proof (endpoints_turn He (Vxy a) (Vxy b) (V rx) (V ry) flag flag (V rot) arc Hab Hx Hy) as TU. cbv zeta in TU. fold X Y in TU.
    set (xp := (cos (V rot) * _ - sin (V rot) * _) / 2) in TU. set (yp := (sin (V rot) * _ + cos (V rot) * _) / 2) in TU.
    rewrite Bool.eqb_reflx in TU.
    assert (DD : 4 * (xp * xp + yp * yp) = chord * chord).
    { pose proof (sin2_cos2 (V rot)) as SC. unfold Rsqr in SC. rewrite (euclid_sqr (Vxy a) (Vxy b)).
      transitivity ((sin (V rot) * sin (V rot) + cos (V rot) * cos (V rot)) * ((px (Vxy a) - px (Vxy b)) * (px (Vxy a) - px (Vxy b)) + (py (Vxy a) - py (Vxy b)) * (py (Vxy a) - py (Vxy b))));
        [unfold xp, yp; field|rewrite SC; ring]. }
    clearbody xp yp. change (T ROps) with R in *.
    assert (XX : 0 < X) by lra. assert (YY : 0 < Y) by lra.
    assert (ZZ : xp * xp / (X * X) + yp * yp / (Y * Y) < 1).
    { set (m := chord / 2). assert (M : m * m = xp * xp + yp * yp) by (unfold m; transitivity (chord * chord / 4); [field|lra]).
      assert (0 < m) by (unfold m; lra). assert (m < X) by (unfold m; lra). assert (m < Y) by (unfold m; lra).
      assert (MX : m * m < X * X) by nra. assert (MY : m * m < Y * Y) by nra. assert (MP : 0 < m * m) by nra. clearbody m.
      assert (G : forall q z, 0 <= q -> m * m < z -> q / z <= q / (m * m) ).
      { intros q z Hq Hz. unfold Rdiv. apply Rmult_le_compat_l; auto. apply Rlt_le, Rinv_lt_contravar; [apply Rmult_lt_0_compat; lra|exact Hz]. }
      assert (G' : forall q z, 0 < q -> m * m < z -> q / z < q / (m * m) ).
      { intros q z Hq Hz. unfold Rdiv. apply Rmult_lt_compat_l; auto. apply Rinv_lt_contravar; [apply Rmult_lt_0_compat; lra|exact Hz]. }
      assert (S1 : xp * xp / (m * m) + yp * yp / (m * m) = 1) by (transitivity ((xp * xp + yp * yp) / (m * m)); [field; lra|rewrite <- M; field; lra]).
      assert (0 <= xp * xp) by nra. assert (0 <= yp * yp) by nra.
      pose proof (G (yp * yp) (Y * Y) ltac:(auto) MY).
      destruct (Req_dec xp 0) as [X0|X0].
      - assert (0 < yp * yp) by (rewrite X0 in M; nra). pose proof (G' (yp * yp) (Y * Y) ltac:(auto) MY). pose proof (G (xp * xp) (X * X) ltac:(auto) MX). lra.
      - assert (0 < xp * xp) by nra. pose proof (G' (xp * xp) (X * X) ltac:(auto) MX). lra. }
    specialize (TU ZZ Hc Q). rewrite Q. cbn [rbind].
    replace (feq (V rx) (V ry)) with false.
    - unfold bezier_earc. rewrite C70_negative_sweep_refuted by lra. reflexivity.
    - symmetry. unfold feq. rnum. apply Rltb_false. lra.
  Qed.
  (** The rotation, which is in degrees, is used as if it were in radians. *)
  Theorem C121_rotation_refuted e : to_bezier = false -> parse_path_geom s to_bezier = Ok [[GEArc e]] -> V rot <> 0 ->
    ea_phi e = V rot /\ ea_phi e <> V rot * PI / 180.
  Proof.
    intros EB Q R0. rewrite arc_path_geom, EB in Q. unfold arc_segments in Q.
    destruct (earc_from_endpoints _ _ _ _ _ _ _) as [[e'|]|] eqn:Q1; cbn [rbind rmap] in Q; try discriminate.
    destruct (feq _ _); cbn in Q; [discriminate|]. assert (e' = e) by (injection Q; auto). subst e'.
    assert (P1 : ea_phi e = V rot).
    { exact (endpoints_phi _ _ _ _ _ _ _ _ Q1). }
    split; [exact P1|]. rewrite P1. pose proof PI_4. intros H0. assert (Z : V rot * (180 - PI) = 0) by lra.
    apply Rmult_integral in Z as [Z|Z]; [auto|lra].
  Qed.
End C121.
(** The path M5 5A2 2 1 0 1 6 6. *)
Example C121_example : writes_arc (L "M5 5A2 2 1 0 1 6 6") (XY n5 n5) n2 n2 n1 false true (XY n6 n6) /\ V n2 = 2 /\
  @EPS ROps eps6 * 2 <= euclid (Vxy (XY n5 n5)) (Vxy (XY n6 n6)) < 2 * 2.
Proof.
  split; [|split].
  - split.
    + cbn. repeat (constructor; [first [exact Logic.I|apply numeral_ok_dec; reflexivity|cbn; unfold is_letter; cbn; tauto]|]). constructor.
    + let t := eval compute in (L "M5 5A2 2 1 0 1 6 6") in change (L "M5 5A2 2 1 0 1 6 6") with t.
      eexists [], _. split; [constructor|]. split; [|reflexivity].
      change (path_items (arc_path (XY n5 n5) n2 n2 n1 false true (XY n6 n6))) with
        [Cmd "M"; Num n5; Num n5; Cmd "A"; Num n2; Num n2; Num n1; Flag false; Flag true; Num n6; Num n6]%char.
      next ""%string. next " "%string. next ""%string. next ""%string. next " "%string. next " "%string. next " "%string. next " "%string. next " "%string. next " "%string.
      change (spells [Num n6] (item_text (Num n6) ++ L "")). apply sp_last. constructor.
  - apply nat_value.
  - unfold Vxy, V, n5, n6. cbn [xx yy]. rewrite !nat_value. cbn [digit_value].
    assert (Q : euclid (P 5 5) (P 6 6) * euclid (P 5 5) (P 6 6) = 2) by (rewrite euclid_sqr'; cbn; lra).
    pose proof (euclid_pos (P 5 5) (P 6 6)). unfold EPS, eps6. cbn. nra.
Qed.
