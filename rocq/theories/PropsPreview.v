(** * PropsPreview: the SVG preview of a program (C139-C142).  Over R. *)
From Verif Require Import Num NumR Geom GeomSpec GeomSpec2 GeomProofs GeomProofs2 GeomProofs4 GeomProofs5 Gcode GcodeSpec GcodeProofs GcodeProofs2 GcodeProofs3 GcodeProofs4 GcodeR SvgOut Preview PreviewSpec PropsGeom PropsGcode.
From Coq Require Import ZArith Reals Lra Lia Bool List String.
Import ListNotations.
Local Open Scope string_scope.
Local Open Scope R_scope.

Section C139.
  Context {E : Epsilon ROps}.
  Implicit Types k : plotter_opts ROps.
  Implicit Types s : plotter ROps.

  (** Tool marks and outlines are not drawn on the path layer and do not move the tool. *)
  Definition aside s s' : Prop := on_layer PathLayer (pl_drawn s') = on_layer PathLayer (pl_drawn s) /\
    pl_xy s' = pl_xy s /\ pl_z s' = pl_z s /\ pl_a s' = pl_a s.
  Lemma aside_refl s : aside s s. Proof. repeat split. Qed.
  Lemma aside_trans a b c : aside a b -> aside b c -> aside a c.
  Proof. intros (A1 & A2 & A3 & A4) (B1 & B2 & B3 & B4). repeat split; congruence. Qed.
  Lemma aside_draw e s : layer_of e <> PathLayer -> aside s (draw e s).
  Proof.
    intros H. repeat split. unfold draw. cbn [pl_drawn]. unfold on_layer. rewrite filter_app. cbn [filter].
    destruct (layer_of e); [contradiction| |]; now rewrite app_nil_r.
  Qed.
  Lemma aside_marks l s : aside s (set_marks l s). Proof. repeat split. Qed.
  Lemma aside_mark k sg u a s : aside s (draw_tool_mark k sg u a s).
  Proof.
    unfold draw_tool_mark. cbv zeta. eapply aside_trans; [|apply aside_marks].
    assert (A : forall e (b : bool) s0, layer_of e <> PathLayer -> aside s0 (if b then draw e s0 else s0)).
    { intros e [] s0 H; [now apply aside_draw|apply aside_refl]. }
    eapply aside_trans; [|apply A; discriminate]. apply A. discriminate.
  Qed.
  Lemma aside_loop f k sg u a du da s s' : marks_loop f k sg u a du da s = Ok s' -> aside s s'.
  Proof.
    revert u a s. induction f as [|f IH]; intros u a s H; cbn [marks_loop] in H; destruct (Num.ltb u (Num.add (of_Z 1) EPS)); try discriminate.
    - injection H as <-. apply aside_refl.
    - eapply aside_trans; [apply aside_mark|]. exact (IH _ _ _ H).
    - injection H as <-. apply aside_refl.
  Qed.
  Lemma aside_tool_marks k sg a b s s' : draw_tool_marks k sg a b s = Ok s' -> aside s s'.
  Proof.
    unfold draw_tool_marks. destruct a, b; try discriminate. unfold rbind. destruct (num_markers _ _ _); [|discriminate]. apply aside_loop.
  Qed.
  Lemma aside_outline s s' : draw_outline s = Ok s' -> aside s s'.
  Proof.
    unfold draw_outline. destruct (pl_marks s) as [|m ms]; [intros [= <-]; apply aside_refl|]. unfold rbind.
    destruct (make_outline_path (map p1 _)) as [[|a0 a]|]; [..|discriminate]; (destruct (make_outline_path (map p2 _)) as [[|b0 b]|]; [..|discriminate]);
      intros [= <-]; try apply aside_refl.
    eapply aside_trans; apply aside_draw; discriminate.
  Qed.
  Lemma path_draw e s : layer_of e = PathLayer -> on_layer PathLayer (pl_drawn (draw e s)) = (on_layer PathLayer (pl_drawn s) ++ [e])%list.
  Proof. intros H. cbn [draw pl_drawn]. unfold on_layer. rewrite filter_app. cbn [filter]. now rewrite H. Qed.

  (** What is drawn on the path layer is exactly the strokes of the calls, in order. *)
  Theorem C139_path_layer k es s s' : plot_all k es s = Ok s' ->
    exists l, shown EPS (pl_xy s) es l /\
      on_layer PathLayer (pl_drawn s') = (on_layer PathLayer (pl_drawn s) ++ map stroke_element l)%list.
  Proof.
    revert s. induction es as [|e es IH]; intros s H; cbn [plot_all] in H.
    - injection H as <-. exists []. split; [constructor|]. now rewrite app_nil_r.
    - unfold rbind in H at 1. destruct (plot_call k e s) as [s1|] eqn:Q; [|discriminate]. destruct (IH _ H) as (l & S1 & S2).
      destruct e as [[x|] [y|] z a|[x|] [y|] z a|cx cy [x|] [y|] z a cw| |]; cbn [plot_call end_point rbind] in Q; try discriminate.
      + injection Q as <-. exists (Travel (pl_xy s) (P x y) :: l). split; [now constructor|]. rewrite S2. cbn [update_location pl_drawn map].
        rewrite path_draw by reflexivity. now rewrite <- app_assoc.
      + destruct (if show_toolmarks k then _ else _) as [s0|] eqn:Q0; [|discriminate].
        assert (aside s s0) as (A1 & A2 & A3 & A4). { destruct (show_toolmarks k); [exact (aside_tool_marks _ _ _ _ _ _ Q0)|injection Q0 as <-; apply aside_refl]. }
        injection Q as <-. cbn [update_location pl_xy pl_drawn] in S1, S2. rewrite ?A2 in S2. change (pdist (pl_xy s) (P x y)) with (euclid (pl_xy s) (P x y)) in S2.
        destruct (Rltb EPS (euclid (pl_xy s) (P x y))) eqn:B; (replace (Num.ltb EPS (euclid (pl_xy s) (P x y))) with (Rltb EPS (euclid (pl_xy s) (P x y))) in S2 by reflexivity); rewrite B in S2; [apply Rltb_true in B|apply Rltb_false in B].
        * exists (Cut (pl_xy s) (P x y) :: l). split; [constructor; auto|]. rewrite S2. cbn [map]. rewrite path_draw by reflexivity. rewrite A1. now rewrite <- app_assoc.
        * exists l. split; [apply shown_still; auto|]. now rewrite S2, A1.
      + destruct (if show_toolmarks k then _ else _) as [s0|] eqn:Q0; [|discriminate].
        assert (aside s s0) as (A1 & A2 & A3 & A4). { destruct (show_toolmarks k); [exact (aside_tool_marks _ _ _ _ _ _ Q0)|injection Q0 as <-; apply aside_refl]. }
        injection Q as <-. cbn [update_location pl_xy pl_drawn] in S1, S2. rewrite ?A2 in S2.
        exists (Bend (pl_xy s) (P x y) (euclid (P cx cy) (pl_xy s)) (negb cw) :: l). split; [now constructor|]. rewrite S2.
        rewrite path_draw by reflexivity. rewrite A1, <- app_assoc. cbn [app map stroke_element]. now rewrite <- dist_euclid.
      + injection Q as <-. exists l. split; [now constructor|]. exact S2.
      + assert (aside s s1) as (A1 & A2 & A3 & A4). { destruct (show_tm_outline k); [exact (aside_outline _ _ Q)|injection Q as <-; apply aside_refl]. }
        exists l. rewrite A2 in S1. split; [now constructor|]. now rewrite S2, A1.
  Qed.

  (** The marks are drawn by a loop that ends. *)
  Lemma loop_total (He : 0 < EPS <= 1) f k sg (n i : nat) (a da : R) s : (0 < n)%nat -> (2 * n <= i + f)%nat ->
    exists s', marks_loop f k sg (INR i / INR n) a (1 / INR n) da s = Ok s'.
  Proof.
    intros Hn. assert (Pn : 0 < INR n) by (apply lt_0_INR; lia).
    revert i a s. induction f as [|f IH]; intros i a s H; cbn [marks_loop];
      change (@Num.ltb ROps (INR i / INR n) (Num.add (of_Z 1) EPS)) with (Rltb (INR i / INR n) (1 + EPS)).
    - replace (Rltb (INR i / INR n) (1 + EPS)) with false; [eauto|]. symmetry. apply Rltb_false.
      apply Rle_trans with 2; [lra|]. apply Rmult_le_reg_r with (INR n); auto. unfold Rdiv. rewrite Rmult_assoc, Rinv_l, Rmult_1_r by lra.
      replace 2 with (INR 2) by reflexivity. rewrite <- mult_INR. apply le_INR. lia.
    - destruct (Rltb (INR i / INR n) (1 + EPS)); [|eauto].
      replace (Num.add (INR i / INR n) (1 / INR n) : R) with (INR (S i) / INR n) by (rnum; rewrite S_INR; field; lra).
      apply IH. lia.
  Qed.
  Lemma markers_nat k sg (rot : R) q : num_markers k sg rot = Ok q -> exists n, (0 < n)%nat /\ q = Z.of_nat n.
  Proof.
    unfold num_markers, rbind. match goal with |- match ?x with _ => _ end = _ -> _ => destruct x as [t|]; [|discriminate] end.
    intros [= Q]. exists (Z.to_nat q). lia.
  Qed.
  Lemma pydiv_total (x y : R) : y <> 0 -> pydiv (N:=ROps) x y = Ok (x / y).
  Proof. intros H. unfold pydiv. rnum. destruct (Reqb y 0) eqn:B; [apply Reqb_true in B; contradiction|reflexivity]. Qed.
  Lemma markers_total k sg (rot : R) : po_line_interval k <> 0 -> po_rotation_interval k <> 0 -> exists q, num_markers k sg rot = Ok q.
  Proof. intros A B. unfold num_markers. destruct (Num.ltb _ _); rewrite pydiv_total by auto; cbn [rbind]; eauto. Qed.
  Lemma tool_marks_total (He : 0 < EPS <= 1) k sg (a b : R) s : po_line_interval k <> 0 -> po_rotation_interval k <> 0 ->
    exists s', draw_tool_marks k sg (Some a) (Some b) s = Ok s'.
  Proof.
    intros A B. unfold draw_tool_marks. destruct (markers_total k sg (Num.sub b a) A B) as (q & Q). rewrite Q. cbn [rbind].
    destruct (markers_nat _ _ _ _ Q) as (n & Hn & ->). pose proof (loop_total He (Z.to_nat (2 * Z.of_nat n + 2)) k sg n 0 a (Num.div (Num.sub b a) (of_Z (Z.of_nat n))) s Hn) as (s' & Hs'); [lia|].
    exists s'. rewrite <- Hs'. f_equal; rnum.
    - cbn [INR]. unfold Rdiv. now rewrite Rmult_0_l.
    - now rewrite <- INR_IZR_INZ.
  Qed.

  (** The preview is drawn for every sequence of calls that give X and Y, when no tool marks are asked for. *)
  Theorem C139_total k es s : show_toolmarks k = false -> pl_marks s = [] -> Forall (placed false) es ->
    exists s', plot_all k es s = Ok s'.
  Proof.
    intros Hk. revert s. induction es as [|e es IH]; intros s Hm Hes; cbn [plot_all]; [eauto|].
    inversion Hes as [|? ? He Hes']; subst.
    assert (exists s', plot_call k e s = Ok s' /\ pl_marks s' = []) as (s' & -> & Hm'); [|cbn [rbind]; apply IH; auto].
    destruct e as [x y z a|x y z a|cx cy x y z a cw| |]; cbn [plot_call]; rewrite ?Hk;
      try (destruct He as (Hx & Hy & _); destruct x as [x|]; [|contradiction]; destruct y as [y|]; [|contradiction]; cbn [end_point rbind]).
    - eexists. split; [reflexivity|]. exact Hm.
    - eexists. split; [reflexivity|]. cbn [update_location pl_marks]. destruct (Num.ltb _ _); exact Hm.
    - eexists. split; [reflexivity|]. exact Hm.
    - eexists. split; reflexivity.
    - unfold draw_outline. rewrite Hm. exists s. now destruct (show_tm_outline k).
  Qed.
  (** With tool marks, when the calls give the angle too and the mark intervals are not zero. *)
  Theorem C139_total_toolmarks k es s : 0 < EPS <= 1 -> show_tm_outline k = false ->
    po_line_interval k <> 0 -> po_rotation_interval k <> 0 -> pl_a s <> None -> Forall (placed true) es ->
    exists s', plot_all k es s = Ok s'.
  Proof.
    intros He Hk K1 K2. revert s. induction es as [|e es IH]; intros s Ha Hes; cbn [plot_all]; [eauto|].
    inversion Hes as [|? ? Hp Hes']; subst.
    assert (exists s', plot_call k e s = Ok s' /\ pl_a s' <> None) as (s' & -> & Hm'); [|cbn [rbind]; apply IH; auto].
    assert (TM : forall sg b, exists s', (if show_toolmarks k then draw_tool_marks k sg (pl_a s) (Some b) s else Ok s) = Ok s').
    { intros sg b. destruct (show_toolmarks k); [|eauto]. destruct (pl_a s) as [a|]; [|contradiction]. now apply tool_marks_total. }
    destruct e as [x y z a|x y z a|cx cy x y z a cw| |]; cbn [plot_call]; rewrite ?Hk;
      try (destruct Hp as (Hx & Hy & Hz); destruct x as [x|]; [|contradiction]; destruct y as [y|]; [|contradiction];
           destruct a as [b|]; [|exfalso; now apply (Hz eq_refl)]; cbn [end_point rbind]).
    - eexists. split; [reflexivity|]. discriminate.
    - destruct (TM (SLine (Ln (pl_xy s) (P x y))) b) as (s' & ->). cbn [rbind]. eexists. split; [reflexivity|]. discriminate.
    - destruct (TM (SArc (mkarc (pl_xy s) (P x y) (pdist (P cx cy) (pl_xy s)) (angle2 (P cx cy) (pl_xy s) (P x y)) (P cx cy))) b) as (s' & ->). cbn [rbind].
      eexists. split; [reflexivity|]. discriminate.
    - eexists. split; [reflexivity|]. exact Ha.
    - eexists. split; [reflexivity|]. exact Ha.
  Qed.
  (** Without X or Y (no move has set the axis yet) a motion call is a TypeError. *)
  Theorem C139_unplaced_refuted k e s : ~ placed false e -> plot_call k e s = Raise TypeError.
  Proof.
    destruct e as [[x|] [y|] z a|[x|] [y|] z a|cx cy [x|] [y|] z a cw| |]; cbn [placed plot_call end_point rbind]; intros H; try reflexivity;
      exfalso; apply H; auto; repeat split; discriminate.
  Qed.
End C139.

(** ** A program whose first motion is a rapid move to some X, Y is previewed whatever follows. *)
Definition motionless (o : @op ROps) : Prop :=
  match o with ORapid _ _ _ _ _ | OFeed _ _ _ _ _ _ | OArc _ _ _ _ _ _ _ _ _ => False | _ => True end.
Definition settled_xy (s : state ROps) : Prop := pget PX (last_val s) <> None /\ pget PY (last_val s) <> None.
Section Program.
  Context {E : Epsilon ROps}.
  Context (c : config ROps) (H1 : 0 <= tolerance c) (H2 : 0 <= angle_tolerance c)
          (Hu : alt_tool_up c = None) (Hd : alt_tool_down c = None).
  Lemma known_kept o s k : k = PX \/ k = PY -> pget k (last_val s) <> None -> pget k (last_val (fst (exec c o s))) <> None.
  Proof.
    intros Hk Hs. assert (Ak : is_axis k) by (unfold is_axis; tauto).
    assert (D : (exists ax, o = ONormalize ax) \/ forall ax, o <> ONormalize ax).
    { destruct o; try (right; discriminate). left. eauto. }
    destruct D as [(ax & ->)|D].
    - cbn [exec]. unfold normalize_axis_angle. repeat (destruct (negb _); [exact Hs|]). destruct (vA (last_val s)); [|exact Hs].
      destruct (Num.ltb _ _); [|exact Hs]. cbn. destruct (last_val s). destruct Hk as [-> | ->]; exact Hs.
    - pose proof (op_effect c o s k (no_self_change_R c H1 H2) Hu Hd D Ak) as OE.
      destruct (snd (exec c o s)), (request c o k); try congruence. destruct OE as (l & -> & _). discriminate.
  Qed.
  Lemma settled_kept o s : settled_xy s -> settled_xy (fst (exec c o s)).
  Proof. intros [A B]. split; apply known_kept; auto. Qed.
  Lemma op_events o s : settled_xy (fst (exec c o s)) \/ motionless o ->
    exists es, plots (fst (exec c o s)) = (plots s ++ es)%list /\ Forall (placed false) es.
  Proof.
    intros Hs. destruct (C19_preview c o s Hu) as (es & Q & K). exists es. split; [exact Q|].
    destruct (snd (exec c o s)) as [u|e]; [|subst es; constructor]. destruct K as [K1 K2].
    destruct Hs as [[A B]|M].
    - apply Forall_forall. intros e He. rewrite Forall_forall in K2. specialize (K2 e He).
      pose proof (K2 PX ltac:(unfold is_axis; tauto)) as KX. pose proof (K2 PY ltac:(unfold is_axis; tauto)) as KY.
      destruct e as [x y z a|x y z a|cx cy x y z a cw| |]; cbn [placed event_coord] in *; auto;
        (split; [destruct x; [discriminate|contradiction]|split; [destruct y; [discriminate|contradiction]|discriminate]]).
    - destruct o; cbn in M; try contradiction; try (subst es; constructor);
        destruct es as [|[] [|]]; try discriminate K1; repeat constructor.
  Qed.
  Lemma run_events ops s : settled_xy s -> exists es, plots (run c ops s) = (plots s ++ es)%list /\ Forall (placed false) es.
  Proof.
    revert s. induction ops as [|o ops IH]; intros s Hs; cbn.
    - exists []. rewrite app_nil_r. split; [reflexivity|constructor].
    - pose proof (settled_kept o s Hs) as Hs'. destruct (op_events o s (or_introl Hs')) as (e1 & Q1 & F1).
      destruct (IH _ Hs') as (e2 & Q2 & F2). unfold run in Q2. rewrite Q2, Q1. exists (e1 ++ e2)%list. split; [now rewrite app_assoc|]. rewrite Forall_app. auto.
  Qed.
  Lemma quiet_events ops s : Forall motionless ops -> exists es, plots (run c ops s) = (plots s ++ es)%list /\ Forall (placed false) es.
  Proof.
    intros F. revert s. induction F as [|o ops Ho F IH]; intros s; cbn.
    - exists []. rewrite app_nil_r. split; [reflexivity|constructor].
    - destruct (op_events o s (or_intror Ho)) as (e1 & Q1 & F1).
      destruct (IH (fst (exec c o s))) as (e2 & Q2 & F2). unfold run in Q2. rewrite Q2, Q1. exists (e1 ++ e2)%list. split; [now rewrite app_assoc|]. rewrite Forall_app. auto.
  Qed.
  Lemma rapid_succeeds x y z a cm s : snd (exec c (ORapid x y z a cm) s) = Ok tt.
  Proof.
    cbn [exec]. unfold rapid_move, bind at 1. 
    assert (Q : exists s', when (match vZ (last_val s) with None => true | Some zp => Num.ltb zp (zsafe c) || is_tool_up s end) (tool_up c true None None) s = (s', Ok tt)).
    { unfold when. destruct (match vZ (last_val s) with None => true | Some zp => _ end); [|eexists; reflexivity].
      destruct (tool_up_spec c true None None s Hu) as (s' & -> & _). eauto. }
    destruct Q as (s' & ->). unfold bind.
    match goal with |- context[gcode_command ?a ?b ?d s'] => pose proof (gcode_ok a b d s' eq_refl) as G; destruct (gcode_command a b d s') as [s2 [[]|]]; cbn [snd] in G; try discriminate end.
    destruct (endp _ _ _ _ _) as [[[? ?] ?] ?]. reflexivity.
  Qed.
  Theorem C139_program k pre x y z a cm rest :
    show_toolmarks k = false -> Forall motionless pre ->
    let es := plots (run c (pre ++ ORapid (Some x) (Some y) z a cm :: rest) init) in
    exists s' l, plot_all k es new_plotter = Ok s' /\ shown EPS (P 0 0) es l /\
      on_layer PathLayer (pl_drawn s') = map stroke_element l.
  Proof.
    intros Hk Hp es. pose proof (rapid_succeeds (Some x) (Some y) z a cm (run c pre init)) as Hr.
    assert (F : Forall (placed false) es).
    { unfold es, run. rewrite fold_left_app. cbn [fold_left]. destruct (quiet_events pre init Hp) as (e1 & Q1 & F1). unfold run in *.
      set (s1 := fold_left (fun s o => fst (exec c o s)) pre init) in *.
      assert (S2 : settled_xy (fst (exec c (ORapid (Some x) (Some y) z a cm) s1))).
      { assert (D : forall ax, ORapid (Some x) (Some y) z a cm <> ONormalize ax) by discriminate.
        pose proof (op_effect c _ s1 PX (no_self_change_R c H1 H2) Hu Hd D ltac:(unfold is_axis; tauto)) as KX.
        pose proof (op_effect c _ s1 PY (no_self_change_R c H1 H2) Hu Hd D ltac:(unfold is_axis; tauto)) as KY.
        rewrite Hr in KX, KY. destruct KX as (l & KX & _), KY as (l' & KY & _). split; congruence. }
      destruct (op_events _ s1 (or_introl S2)) as (e2 & Q2 & F2). destruct (run_events rest _ S2) as (e3 & Q3 & F3). unfold run in Q3.
      rewrite Q3, Q2, Q1. cbn [plots init app]. rewrite !Forall_app. auto. }
    destruct (C139_total k es new_plotter Hk eq_refl F) as (s' & Q). exists s'.
    destruct (C139_path_layer k es _ s' Q) as (l & A & B). exists l. split; [exact Q|]. split; [exact A|]. exact B.
  Qed.
End Program.
(** A header, a rapid move, a cut, an arc and a return. *)
Example C139_example {E : Epsilon ROps} (c : config ROps) k : 0 < EPS < 1 -> 0 <= tolerance c -> 0 <= angle_tolerance c -> alt_tool_up c = None -> alt_tool_down c = None ->
  show_toolmarks k = false ->
  let ops := [OHeader "today" None; ORapid (Some 1) (Some 2) None None None; OToolDown (-1) None None None;
              OFeed (Some 3) (Some 2) None None None None; OFeed None None (Some (-2)) None None None;
              OArc true 5 2 1 0 None None None None; OToolUp true None None] in
  exists s' l, plot_all k (plots (run c ops init)) new_plotter = Ok s' /\ shown EPS (P 0 0) (plots (run c ops init)) l /\
    on_layer PathLayer (pl_drawn s') = map stroke_element l.
Proof.
  intros He H1 H2 Hu Hd Hk. cbv zeta.
  apply (C139_program c H1 H2 Hu Hd k [OHeader "today" None] 1 2 None None None); auto. repeat constructor.
Qed.
Example C139_strokes {E : Epsilon ROps} k : 0 < EPS < 1 -> show_toolmarks k = false -> exists s',
  plot_all k [PlotUp; PlotMove (Some 1) (Some 2) (Some 5) None; PlotDown; PlotFeed (Some 4) (Some 2) (Some 5) None; PlotFeed (Some 4) (Some 2) (Some 1) None;
              PlotArc 5 2 (Some 6) (Some 2) (Some 1) None true; PlotUp] new_plotter = Ok s' /\
  on_layer PathLayer (pl_drawn s') = [ELine PathLayer Moveline (P 0 0) (P 1 2); ELine PathLayer Feedline (P 1 2) (P 4 2);
    EArc PathLayer Feedarc (P 4 2) (P 6 2) 1 false].
Proof.
  intros He Hk. match goal with |- context[plot_all k ?es _] => set (ev := es) end.
  destruct (C139_total k ev new_plotter Hk eq_refl) as (s' & Q).
  { unfold ev. repeat (constructor; [cbn [placed]; try exact Logic.I; repeat split; discriminate|]). constructor. }
  exists s'. split; [exact Q|]. destruct (C139_path_layer k ev _ s' Q) as (l & A & B).
  assert (euclid (P 1 2) (P 4 2 : Pt) = 3) as D1.
  { unfold euclid. cbn [px py]. replace ((1 - 4)² + (2 - 2)²) with (3²) by (unfold Rsqr; ring). apply sqrt_Rsqr. lra. }
  assert (euclid (P 4 2) (P 4 2 : Pt) = 0) as D2 by (apply euclid_zero; reflexivity).
  assert (euclid (P 5 2) (P 4 2 : Pt) = 1) as D3.
  { unfold euclid. cbn [px py]. replace ((5 - 4)² + (2 - 2)²) with (1²) by (unfold Rsqr; ring). apply sqrt_Rsqr. lra. }
  rewrite B. cbn [new_plotter pl_xy of_Z ROps] in A. clear - A D1 D2 D3 He. unfold ev in A.
  repeat match goal with H : shown _ _ (_ :: _) _ |- _ => inversion H; clear H; subst | H : shown _ _ [] _ |- _ => inversion H; clear H; subst end;
    try lra. cbn [map stroke_element new_plotter pl_drawn on_layer filter app negb]. now rewrite D3.
Qed.

(** ** C141: tool marks *)
Ltac asR := match goal with |- ?a = ?b => change (@eq R a b) end.
Section C141.
  Context {E : Epsilon ROps} (He : 0 < EPS).
  Implicit Types k : plotter_opts ROps.
  Implicit Types s : plotter ROps.
  (** The trail of the tool; less than the tolerance of the generator is no trail. *)
  Definition trails k : bool := negb (Rltb (Rabs (po_offset k)) (po_tolerance k)).
  Definition trail k : R := if trails k then po_offset k else 0.
  Definition good_seg (sg : seg ROps) : Prop := match sg with SLine _ => True | SArc a => wf_arc a end.

  Lemma seg_point sg u : good_seg sg -> 0 <= u <= 1 -> s_point_at sg u = along sg u.
  Proof.
    intros G Hu. destruct sg as [l|a]; cbn [s_point_at along].
    - apply at_param_model.
    - destruct (C42_point_at a u G Hu) as (-> & _). now rewrite Rmult_comm.
  Qed.
  Lemma center_spec k p a : mark_center k p a = trailing (trail k) a p.
  Proof.
    unfold mark_center, has_offset, trail, trails, trailing. rnum. rewrite Rminus_0_r.
    destruct (Rltb (Rabs (po_offset k)) (po_tolerance k)); cbn [negb].
    - destruct p as [x y]. apply pt_ext; cbn [px py]; toR; ring.
    - unfold padd, from_polar. cbn [px py]. rnum. replace (a - PI) with (- (PI - a)) by ring. rewrite cos_neg, sin_neg, Rtrigo_facts.cos_pi_minus, Rtrigo_facts.sin_pi_minus.
      apply pt_ext; cbn [px py]; toR; ring.
  Qed.
  Lemma blade_spec k q a : tool_mark_line k q a = blade (po_width k) a q.
  Proof.
    unfold tool_mark_line, blade, padd, from_polar. cbn [px py]. rnum.
    rewrite cos_plus, sin_plus, cos_minus, sin_minus, cos_PI2, sin_PI2. f_equal; apply pt_ext; cbn [px py]; toR; field.
  Qed.
  Lemma palmost_R (a b : Pt) tol : 0 < tol -> palmost a b tol = true <-> euclid a b < tol.
  Proof.
    intros Ht. unfold palmost. rnum. rewrite Rltb_true. pose proof (euclid_sqr a b) as Q. pose proof (euclid_pos a b) as P0.
    unfold Rsqr in Q. rewrite <- Q. split; intros H; nra.
  Qed.
  Lemma coincident_R (l m : Line_) : is_coincident l m EPS = true <-> euclid (p1 l) (p1 m) < EPS /\ euclid (p2 l) (p2 m) < EPS.
  Proof. unfold is_coincident. rewrite andb_true_iff, !palmost_R by exact He. tauto. Qed.

  Definition last_mark s : option Line_ := match rev (pl_marks s) with [] => None | m :: _ => Some m end.
  (** One mark. *)
  Lemma one_mark k sg u a s : good_seg sg -> 0 <= u <= 1 -> show_toolmarks k = true ->
    let p := along sg u in let q := trailing (trail k) a p in let m := mkmark p q (blade (po_width k) a q) in
    let s' := draw_tool_mark k sg u a s in
    pl_marks s' = (pl_marks s ++ [m_blade m])%list /\
    exists es, mark_lines (trails k) EPS (last_mark s) [m] es /\ pl_drawn s' = (pl_drawn s ++ es)%list.
  Proof.
    intros G Hu Hk. cbv zeta. unfold draw_tool_mark. rewrite Hk, !andb_true_r, seg_point by auto. rewrite center_spec, blade_spec.
    replace (has_offset k) with (trails k) by (unfold trails, has_offset; rnum; now rewrite Rminus_0_r).
    set (p := along sg u). set (q := trailing (trail k) a p). set (l := blade (po_width k) a q).
    set (s1 := if trails k then draw (ELine ToolLayer Tooloffset p q) s else s).
    assert (M1 : pl_marks s1 = pl_marks s) by (unfold s1; destruct (trails k); reflexivity).
    assert (D1 : pl_drawn s1 = (pl_drawn s ++ (if trails k then [ELine ToolLayer Tooloffset p q] else []))%list).
    { unfold s1. destruct (trails k); [reflexivity|now rewrite app_nil_r]. }
    rewrite M1. set (fresh := match rev (pl_marks s) with [] => true | m :: _ => negb (is_coincident l m EPS) end).
    split; [unfold set_marks; cbn [pl_marks m_blade]; destruct fresh; cbn [draw pl_marks]; now rewrite M1|].
    unfold fresh, last_mark. destruct (rev (pl_marks s)) as [|m0 ms] eqn:RV.
    - eexists. split; [eapply ml_new; [discriminate|constructor]|]. cbn [set_marks draw pl_drawn m_blade m_spindle m_tool]. rewrite D1, <- app_assoc. reflexivity.
    - destruct (is_coincident l m0 EPS) eqn:C; cbn [negb].
      + apply coincident_R in C. eexists. split; [apply ml_same; [apply C|apply C|constructor]|].
        cbn [set_marks draw pl_drawn m_blade m_spindle m_tool]. now rewrite D1, app_nil_r.
      + eexists. split; [eapply ml_new; [|constructor]|].
        * intros l0 [= <-] HC. apply coincident_R in HC. cbn [m_blade] in HC. congruence.
        * cbn [set_marks draw pl_drawn m_blade m_spindle m_tool]. rewrite D1, <- app_assoc. reflexivity.
  Qed.
  Lemma mark_lines_cons t o m r e1 e2 : mark_lines t EPS o [m] e1 -> mark_lines t EPS (Some (m_blade m)) r e2 -> mark_lines t EPS o (m :: r) (e1 ++ e2)%list.
  Proof.
    intros H1 H2. inversion H1 as [|? ? ? ? A B|? ? ? ? A A' B]; subst; inversion B; subst.
    - rewrite <- !app_assoc. cbn [app]. replace ([] ++ e2)%list with e2 by reflexivity.
      change (ELine ToolLayer Toolmark (p1 (m_blade m)) (p2 (m_blade m)) :: e2) with ([ELine ToolLayer Toolmark (p1 (m_blade m)) (p2 (m_blade m))] ++ e2)%list.
      constructor; auto.
    - rewrite <- !app_assoc. cbn [app]. now apply ml_same.
  Qed.
  (** The whole loop. *)
  Lemma loop_marks k sg (n : nat) a b f i s : good_seg sg -> show_toolmarks k = true -> (0 < n)%nat -> INR n * EPS <= 1 ->
    (i <= S n)%nat -> (S n <= i + f)%nat ->
    exists s', marks_loop f k sg (INR i / INR n) (a + INR i / INR n * (b - a)) (1 / INR n) ((b - a) / INR n) s = Ok s' /\
      let ms := map (ith_mark (po_width k) (trail k) sg a b n) (seq i (S n - i)) in
      pl_marks s' = (pl_marks s ++ map m_blade ms)%list /\
      exists es, mark_lines (trails k) EPS (last_mark s) ms es /\ pl_drawn s' = (pl_drawn s ++ es)%list.
  Proof.
    intros G Hk Hn Hs. assert (Pn : 0 < INR n) by (apply lt_0_INR; lia). revert i s. induction f as [|f IH]; intros i s Hi Hf.
    - assert (i = S n) as -> by lia. exists s. rewrite Nat.sub_diag. cbn [seq map marks_loop].
      change (@Num.ltb ROps (INR (S n) / INR n) (Num.add (of_Z 1) EPS)) with (Rltb (INR (S n) / INR n) (1 + EPS)).
      replace (Rltb (INR (S n) / INR n) (1 + EPS)) with false.
      + split; [reflexivity|]. rewrite app_nil_r. split; [reflexivity|]. exists []. rewrite app_nil_r. split; [constructor|reflexivity].
      + symmetry. apply Rltb_false. rewrite S_INR. apply Rmult_le_reg_r with (INR n); auto. unfold Rdiv. rewrite Rmult_assoc, Rinv_l, Rmult_1_r by lra. nra.
    - cbn [marks_loop]. change (@Num.ltb ROps (INR i / INR n) (Num.add (of_Z 1) EPS)) with (Rltb (INR i / INR n) (1 + EPS)).
      destruct (Nat.eq_dec i (S n)) as [->|Ne].
      + exists s. rewrite Nat.sub_diag. cbn [seq map].
        replace (Rltb (INR (S n) / INR n) (1 + EPS)) with false.
        * split; [reflexivity|]. rewrite app_nil_r. split; [reflexivity|]. exists []. rewrite app_nil_r. split; [constructor|reflexivity].
        * symmetry. apply Rltb_false. rewrite S_INR. apply Rmult_le_reg_r with (INR n); auto. unfold Rdiv. rewrite Rmult_assoc, Rinv_l, Rmult_1_r by lra. nra.
      + assert (U : 0 <= INR i / INR n <= 1).
        { split; [apply Rmult_le_pos; [apply pos_INR|left; now apply Rinv_0_lt_compat]|].
          apply Rmult_le_reg_r with (INR n); auto. unfold Rdiv. rewrite Rmult_assoc, Rinv_l, Rmult_1_r, Rmult_1_l by lra. apply le_INR. lia. }
        replace (Rltb (INR i / INR n) (1 + EPS)) with true by (symmetry; apply Rltb_true; lra).
        pose proof (one_mark k sg (INR i / INR n) (a + INR i / INR n * (b - a)) s G U Hk) as OM. cbv zeta in OM.
        destruct OM as (M1 & e1 & M2 & M3). set (s1 := draw_tool_mark k sg (INR i / INR n) (a + INR i / INR n * (b - a)) s) in *.
        replace (Num.add (INR i / INR n) (1 / INR n) : R) with (INR (S i) / INR n) by (rnum; rewrite S_INR; field; lra).
        replace (Num.add (a + INR i / INR n * (b - a)) ((b - a) / INR n) : R) with (a + INR (S i) / INR n * (b - a)) by (rnum; rewrite S_INR; field; lra).
        destruct (IH (S i) s1) as (s' & Q & K1 & e2 & K2 & K3); [lia|lia|]. exists s'. split; [exact Q|].
        replace (S n - i)%nat with (S (S n - S i)) by lia. cbn [seq map]. cbv zeta. split.
        * rewrite K1, M1, <- app_assoc. reflexivity.
        * exists (e1 ++ e2)%list. split; [|now rewrite K3, M3, app_assoc].
          apply mark_lines_cons; [exact M2|]. replace (last_mark s1) with (Some (m_blade (ith_mark (po_width k) (trail k) sg a b n i))) in K2; [exact K2|].
          unfold last_mark. rewrite M1, rev_app_distr. reflexivity.
  Qed.

  Lemma seg_length_R sg : good_seg sg -> s_length sg = seg_length sg.
  Proof.
    destruct sg as [l|a]; cbn [s_length seg_length good_seg].
    - intros _. unfold seg_len. rewrite euclid_sym. reflexivity.
    - intros (A & _). unfold alen. rnum. rewrite Rabs_mult, (Rabs_right (radius a)) by lra. ring.
  Qed.
  (** How many steps: as many whole intervals as the segment (or, in place, the rotation) has, at least one. *)
  Definition steps (x interval : R) (n : nat) : Prop :=
    (1 <= n)%nat /\ (INR n * interval <= x < INR (S n) * interval \/ n = 1%nat /\ x < interval).
  Lemma steps_trunc x interval : 0 <= x -> 0 < interval -> steps x interval (Z.to_nat (Z.max 1 (Ztrunc (x / interval)))).
  Proof.
    intros Hx Hi. unfold steps, Ztrunc. assert (0 <= x / interval) as D by (apply Rmult_le_pos; [auto|left; now apply Rinv_0_lt_compat]).
    destruct (Rlt_dec (x / interval) 0); [lra|]. pose proof (Zfloor_spec (x / interval)) as [F1 F2]. set (z := Zfloor (x / interval)) in *.
    assert (Qx : x = x / interval * interval) by (field; lra).
    destruct (Z_lt_le_dec z 1) as [L|L].
    - replace (Z.max 1 z) with 1%Z by lia. split; [lia|]. right. split; [reflexivity|].
      assert (z + 1 <= 1)%Z as L' by lia. apply IZR_le in L'. rewrite plus_IZR in L'. rewrite Qx. nra.
    - replace (Z.max 1 z) with z by lia. split; [lia|]. left. rewrite S_INR, INR_IZR_INZ, Z2Nat.id by lia. rewrite Qx at 1 2. nra.
  Qed.
  (** The marks of one feed: evenly spaced places and angles from the start to the end, each mark of the width of
      the tool, square to its direction, trailing the spindle. *)
  Theorem C141_tool_marks k sg (a b : R) s : good_seg sg -> show_toolmarks k = true ->
    0 < po_line_interval k -> 0 < po_rotation_interval k ->
    let x := if Rltb 0 (seg_length sg) then seg_length sg / po_line_interval k else Rabs (b - a) / po_rotation_interval k in
    x * EPS <= 1 -> EPS <= 1 ->
    exists n s', (if Rltb 0 (seg_length sg) then steps (seg_length sg) (po_line_interval k) n else steps (Rabs (b - a)) (po_rotation_interval k) n) /\
      draw_tool_marks k sg (Some a) (Some b) s = Ok s' /\
      pl_marks s' = (pl_marks s ++ map m_blade (marks_of (po_width k) (trail k) sg a b n))%list /\
      exists es, mark_lines (trails k) EPS (last_mark s) (marks_of (po_width k) (trail k) sg a b n) es /\ pl_drawn s' = (pl_drawn s ++ es)%list.
  Proof.
    intros G Hk I1 I2 x Hx He1.
    assert (L0 : 0 <= seg_length sg).
    { destruct sg as [l|ar]; cbn [seg_length]; [apply euclid_pos|]. destruct G as (A & _). apply Rmult_le_pos; [apply Rabs_pos|lra]. }
    assert (X0 : 0 <= x). { unfold x. destruct (Rltb 0 (seg_length sg)); (apply Rmult_le_pos; [auto using Rabs_pos|left; apply Rinv_0_lt_compat; auto]). }
    set (n := Z.to_nat (Z.max 1 (Ztrunc x))).
    assert (NM : num_markers k sg (Num.sub b a) = Ok (Z.of_nat n)).
    { unfold num_markers. rewrite (seg_length_R sg G). change (@Num.ltb ROps (of_Z 0) (seg_length sg)) with (Rltb 0 (seg_length sg)).
      unfold x in n. destruct (Rltb 0 (seg_length sg)); rewrite pydiv_total by lra; cbn [rbind]; f_equal; unfold n; rewrite Z2Nat.id by lia; reflexivity. }
    assert (Nn : (0 < n)%nat) by (unfold n; lia).
    assert (NE : INR n * EPS <= 1).
    { unfold n. rewrite INR_IZR_INZ, Z2Nat.id by lia. destruct (Z_lt_le_dec (Ztrunc x) 1) as [L|L].
      - replace (Z.max 1 (Ztrunc x)) with 1%Z by lia. lra.
      - replace (Z.max 1 (Ztrunc x)) with (Ztrunc x) by lia. unfold Ztrunc. destruct (Rlt_dec x 0); [lra|]. pose proof (Zfloor_spec x). nra. }
    exists n. destruct (loop_marks k sg n a b (Z.to_nat (2 * Z.of_nat n + 2)) 0 s G Hk Nn NE) as (s' & Q & K1 & K2); [lia|lia|].
    exists s'. split.
    - unfold n, x. destruct (Rltb 0 (seg_length sg)); apply steps_trunc; auto using Rabs_pos.
    - split; [|rewrite Nat.sub_0_r in K1, K2; exact (conj K1 K2)].
      unfold draw_tool_marks. rewrite NM. cbn [rbind]. rewrite <- Q. f_equal; rnum.
      + cbn [INR]. unfold Rdiv. now rewrite Rmult_0_l.
      + cbn [INR]. unfold Rdiv. rewrite Rmult_0_l. ring.
      + now rewrite <- INR_IZR_INZ.
      + now rewrite <- INR_IZR_INZ.
  Qed.
  (** Along a segment that is at least one interval long, neighbouring marks are at least one and less than two
      intervals apart. *)
  Theorem C141_spacing (x interval : R) n : 0 < interval -> interval <= x -> steps x interval n -> interval <= x / INR n < 2 * interval.
  Proof.
    intros Hi Hx [Hn [H|[-> H]]]; [|lra]. assert (1 <= INR n) by (change 1 with (INR 1); now apply le_INR). rewrite S_INR in H.
    assert (Q : x = x / INR n * INR n) by (field; lra). split; apply Rmult_le_reg_r with (INR n) || apply Rmult_lt_reg_r with (INR n); nra.
  Qed.
  (** An interval of zero is a ZeroDivisionError. *)
  Theorem C141_zero_interval_refuted k sg (a b : R) s : good_seg sg -> 0 < seg_length sg -> po_line_interval k = 0 ->
    draw_tool_marks k sg (Some a) (Some b) s = Raise ZeroDivisionError.
  Proof.
    intros G L I0. unfold draw_tool_marks, num_markers. rewrite (seg_length_R sg G).
    change (@Num.ltb ROps (of_Z 0) (seg_length sg)) with (Rltb 0 (seg_length sg)). replace (Rltb 0 (seg_length sg)) with true by (symmetry; now apply Rltb_true).
    unfold pydiv. rewrite I0. change (@Num.eqb ROps 0 (of_Z 0)) with (Reqb 0 0). replace (Reqb 0 0) with true; [reflexivity|]. symmetry. now apply Reqb_true.
  Qed.
  (** The default of no offset and whole intervals: a feed of two intervals with a half turn. *)
  Example C141_example (k := mkpo (N:=ROps) 0 2 1 1 true false (1 / 1000)) s : EPS <= 1 / 10 ->
    exists s', draw_tool_marks k (SLine (Ln (P 0 0) (P 2 0))) (Some 0) (Some PI) s = Ok s' /\
      pl_marks s' = (pl_marks s ++ [Ln (P 0 1) (P 0 (-1)); Ln (P 0 0) (P 2 0); Ln (P 2 (-1)) (P 2 1)])%list.
  Proof.
    intros He1. assert (L : seg_length (SLine (Ln (P 0 0) (P 2 0))) = 2).
    { cbn [seg_length]. unfold seg_len, euclid. cbn [p1 p2 px py]. replace ((0 - 2)² + (0 - 0)²) with (2²) by (unfold Rsqr; ring). apply sqrt_Rsqr. lra. }
    assert (SH : show_toolmarks k = true).
    { unfold show_toolmarks, k. cbn [po_width po_toolmarks]. rewrite andb_true_r. unfold is_zero. rnum. apply negb_true_iff, andb_false_iff. right. apply Rltb_false. lra. }
    destruct (C141_tool_marks k (SLine (Ln (P 0 0) (P 2 0))) 0 PI s Logic.I SH) as (n & s' & A & B & C & _); cbn [po_line_interval po_rotation_interval k]; try lra.
    { rewrite L. replace (Rltb 0 2) with true by (symmetry; apply Rltb_true; lra). lra. }
    exists s'. split; [exact B|]. rewrite C. f_equal. rewrite L in A. replace (Rltb 0 2) with true in A by (symmetry; apply Rltb_true; lra).
    assert (n = 2%nat) as ->.
    { destruct A as [A0 [A|[-> A]]]; cbn [po_line_interval k] in A; [|lra]. rewrite S_INR in A.
      assert (INR n <= INR 2) as A1 by (cbn [INR]; lra). apply INR_le in A1.
      destruct (Nat.eq_dec n 2) as [|Ne]; [assumption|]. assert (n = 1%nat) as -> by lia. cbn [INR] in A. lra. }
    assert (T0 : trail k = 0).
    { unfold trail, trails, k. cbn [po_offset po_tolerance]. rewrite Rabs_R0. replace (Rltb 0 (1 / 1000)) with true by (symmetry; apply Rltb_true; lra). reflexivity. }
    rewrite T0. unfold marks_of. cbn [seq map INR ith_mark m_blade]. unfold ith_mark, blade, trailing. cbn [m_blade along at_param p1 p2 px py INR po_width k].
    replace (0 + 0 / (1 + 1) * (PI - 0)) with 0 by field. replace (0 + 1 / (1 + 1) * (PI - 0)) with (PI / 2) by field.
    replace (0 + (1 + 1) / (1 + 1) * (PI - 0)) with PI by field. rewrite cos_0, sin_0, cos_PI2, sin_PI2, cos_PI, sin_PI.
    do 2 (f_equal; [f_equal; apply pt_ext; cbn [px py]; toR; field|]). f_equal. f_equal; apply pt_ext; cbn [px py]; toR; field.
  Qed.
End C141.
(** normalize_axis_angle is not told to the plotter: the next feed, which asks for no rotation, comes with an angle
    at least a turn away from the last one, and its marks spin (C141_tool_marks). *)
Theorem C141_normalized_refuted (c : config ROps) (s : state ROps) (a0 x : R) cm : 0 <= tolerance c -> 0 <= angle_tolerance c ->
  alt_tool_up c = None -> alt_tool_down c = None -> vA (last_val s) = Some a0 -> 2 * PI < Rabs a0 ->
  let s1 := fst (exec c (ONormalize "A") s) in plots s1 = plots s /\
  let o := OFeed (Some x) None None None None cm in
  exists x' y z a', plots (fst (exec c o s1)) = (plots s ++ [PlotFeed x' y z (Some a')])%list /\ 2 * PI <= Rabs (a' - a0).
Proof.
  intros H1 H2 Hu Hd HA HL. cbv zeta. split; [apply silent_normalize|].
  assert (V : pget PA (last_val (fst (exec c (ONormalize "A") s))) = Some (a0 - 2 * PI * IZR (Zfloor (a0 / 2 * PI)))).
  { assert (Q : normalize_axis_angle c "A" s = match vA (last_val s) with
      | None => raise TypeError s
      | Some angle => if Num.ltb two_pi (Num.abs angle) then
          bind (write_line c (EqWord "G92" (mkword "A" (ndigits_out c) (fmt (ndigits_out c) (degrees (angle - 2 * PI * IZR (Zfloor (angle / 2 * PI)))))))
             (Some "Normalize axis angle"%string))
           (fun _ s => (mkst (pset PA (angle - 2 * PI * IZR (Zfloor (angle / 2 * PI))) (last_val s)) (is_tool_up s) (line_number s) true (out s) (plots s), Ok tt)) s
          else (s, Ok tt) end) by reflexivity.
    cbn [exec]. rewrite Q, HA. replace (@Num.ltb ROps two_pi (Num.abs a0)) with true.
    - cbn. now destruct (last_val s).
    - symmetry. unfold two_pi. rnum. apply Rltb_true. exact HL. }
  set (s1 := fst (exec c (ONormalize "A") s)) in *. set (o := OFeed (Some x) None None None None cm).
  assert (Hok : snd (exec c o s1) = Ok tt).
  { cbn [exec o]. unfold Gcode.feed. cbn [feed_default is_some orb]. cbv iota beta. unfold bind.
    match goal with |- context[gcode_command ?a ?b ?d ?x] => pose proof (gcode_ok a b d x eq_refl) as G; destruct (gcode_command a b d x) as [s2 [[]|]]; cbn [snd] in G; try discriminate end.
    destruct (endp _ _ _ _ _) as [[[? ?] ?] ?]. reflexivity. }
  destruct (C19_preview c o s1 Hu) as (es & Q & K). rewrite Hok in K. destruct K as [K1 K2].
  destruct K1 as [[K1 _]|(_ & _ & K1 & _)]; [|discriminate].
  destruct es as [|[x' y z a|x' y z a| | |] [|]]; try discriminate K1.
  inversion K2 as [|? ? K3 _]; subst. specialize (K3 PA ltac:(unfold is_axis; tauto)). cbn [event_coord request o] in K3.
  pose proof (op_effect c o s1 PA (no_self_change_R c H1 H2) Hu Hd ltac:(discriminate) ltac:(unfold is_axis; tauto)) as OE. rewrite Hok in OE. cbn [request o] in OE.
  fold o in OE. rewrite V in OE.
  destruct a as [a'|]; [|congruence]. destruct K3 as [K3|[_ K3]]; [discriminate|]. rewrite OE in K3. injection K3 as K3.
  exists x', y, z, a'. split; [rewrite Q; f_equal; apply silent_normalize|]. rewrite <- K3.
  pose proof (Zfloor_spec (a0 / 2 * PI)) as [F1 F2]. set (f := Zfloor (a0 / 2 * PI)) in *. pose proof PI_RGT_0. pose proof PI2_1.
  replace (a0 - 2 * PI * IZR f - a0) with (- (2 * PI * IZR f)) by ring. rewrite Rabs_Ropp, Rabs_mult, (Rabs_right (2 * PI)) by lra.
  enough (1 <= Rabs (IZR f)) by nra. rewrite <- abs_IZR. apply IZR_le. assert (f <> 0%Z); [|lia]. intros ->.
  destruct (Rle_dec 0 a0); [rewrite Rabs_right in HL by lra|rewrite Rabs_left in HL by lra]; nra.
Qed.
