(** * PropsTcnc3: the tool options of a drawing (C135), the header of a program (C132), the layers that are left out (C129).
    Specification: [TcncSpec], [OffsetSpec], [CamSpec]. *)
From Verif Require Import Num NumR Str Gcode GcodeSpec GcodeProofs GcodeProofs2 Geom GeomR GeomSpec GeomProofs GeomProofs5 Cam CamSpec CamProofs2 CamProofs4 CamR OffsetSpec PropsCam2
  PropsGcode2 Svg SvgDoc GeomSvg Tcnc TcncSpec PropsTcnc PropsTcnc2.
From Verif Require CssProofs Preprocess PreprocessSpec PropsPreprocess Offset OffsetProofs PropsBrush SvgDocSpec PropsSvg PropsSvgDoc Ink PropsInk InkSpec.
From Coq Require Import ZArith Reals Lra Lia Bool List Psatz Ascii String.
Import ListNotations.
Local Open Scope R_scope.
Local Open Scope list_scope.

(** ** Specification of brush strokes through points *)
Definition direction (p q : Pt) : Pt := P ((px q - px p) / euclid p q)%R ((py q - py p) / euclid p q)%R.
Definition total (l : list R) : R := fold_right Rplus 0 l.
(** The points before [p] on the way towards it in the direction [u], in steps of the given lengths. *)
Fixpoint before (u p : Pt) (l : list R) : list Pt :=
  match l with [] => [] | d :: r => ahead p u (- total (d :: r)) :: before u p r end.
(** The points after [p]. *)
Fixpoint after (u p : Pt) (l : list R) : list Pt :=
  match l with [] => [] | d :: r => ahead p u d :: after u (ahead p u d) r end.
(** A stroke through at least two points, all different from the next one. *)
Fixpoint apart (l : list Pt) : Prop := match l with p :: (q :: _) as r => p <> q /\ apart r | _ => True end.
Definition stroke_ok (l : list Pt) : Prop := (2 <= List.length l)%nat /\ apart l.
(** Its last two points. *)
Fixpoint final (p q : Pt) (l : list Pt) : Pt * Pt := match l with [] => (p, q) | r :: l => final q r l end.
Definition brushed (lead tail : list R) (l : list Pt) : list Pt :=
  match l with
  | p :: q :: r => before (direction p q) p lead ++ l ++ (let e := final p q r in after (direction (fst e) (snd e)) (snd e) tail)
  | _ => []
  end.
(** What the options ask for; lengths not above the tolerance are left out. *)
Definition wanted (tol d : R) : list R := if Rlt_dec tol d then [d] else [].
Definition overshoot (o : options ROps) : option R :=
  if String.eqb (o_overshoot_mode o) "auto" then Some (o_tool_width o / 2)
  else if String.eqb (o_overshoot_mode o) "manual" then Some (o_overshoot_distance o) else None.
Definition lead_of (o : options ROps) : list R :=
  (if o_soft_landing o then wanted (o_tolerance o) (o_trail_offset o) else []) ++ wanted (o_tolerance o) (o_landing_strip o).
Definition tail_of (o : options ROps) : list R :=
  match overshoot o with
  | Some d => wanted (o_tolerance o) d ++ (if o_soft_landing o then wanted (o_tolerance o) (o_trail_offset o) else [])
  | None => []
  end.

(** ** From segments to points *)
Ltac rring := match goal with |- ?a = ?b => change (@eq R a b) end; first [ring|symmetry; ring|lra].
Lemma straight_before u : forall p l q segs, PropsBrush.straight u p l q segs ->
  p = ahead q u (- total (map fst l)) /\ map (fun s => s_p1 (geo s)) segs = before u q (map fst l).
Proof.
  induction 1 as [p|p d z l q s segs G Z A B H [IH1 IH2]]; [split; [unfold ahead, total; cbn [map fold_right]; apply pt_ext; cbn [px py]; rring|reflexivity]|].
  assert (Q : p = ahead q u (- total (map fst ((d, z) :: l)))).
  { set (t := total (map fst l)) in *. replace (total (map fst ((d, z) :: l))) with (d + t) by reflexivity.
    assert (p = ahead (ahead p u d) u (- d)) as -> by (unfold ahead; apply pt_ext; cbn [px py]; rring).
    rewrite IH1. unfold ahead. apply pt_ext; cbn [px py]; rring. }
  split; [exact Q|]. cbn [map fst before]. rewrite G. cbn [s_p1 p1]. f_equal; [exact Q|exact IH2].
Qed.
Lemma straight_after u : forall p l q segs, PropsBrush.straight u p l q segs -> map (fun s => s_p2 (geo s)) segs = after u p (map fst l).
Proof. induction 1 as [p|p d z l q s segs G Z A B H IH]; [reflexivity|]. cbn [map fst after]. rewrite G. cbn [s_p2 p2]. now f_equal. Qed.
Lemma vertices_lead u : forall p l segs s r, PropsBrush.straight u p l (s_p1 (geo s)) segs ->
  vertices (segs ++ s :: r) = map (fun s => s_p1 (geo s)) segs ++ vertices (N:=ROps) (s :: r).
Proof.
  intros p l segs s r H. remember (s_p1 (geo s)) as q eqn:Eq. revert Eq.
  induction H as [p|p d z l q s0 segs G Z A B H IH]; intros Eq; [reflexivity|]. specialize (IH Eq).
  cbn [app map]. change (vertices (s0 :: segs ++ s :: r)) with (s_p1 (geo s0) :: map (fun s => s_p2 (geo s)) (s0 :: segs ++ s :: r)). f_equal.
  rewrite <- IH. cbn [map]. rewrite G. cbn [s_p2 p2].
  destruct segs as [|s1 segs]; cbn [app vertices].
  - inversion H; subst. f_equal. congruence.
  - inversion H as [|? ? ? ? ? ? ? G1]; subst. rewrite G1. reflexivity.
Qed.
Lemma vertices_tail (s : cseg ROps) r t : vertices ((s :: r) ++ t) = vertices (s :: r) ++ map (fun s => s_p2 (geo s)) t.
Proof. cbn [vertices app map]. rewrite map_app. reflexivity. Qed.
Lemma tool_path_last p q r d : let e := final p q r in last (tool_path p (q :: r)) d = mkseg (SLine (Ln (fst e) (snd e))) None None None false false false.
Proof.
  revert p q. induction r as [|x r IH]; intros p q; [reflexivity|]. cbn [final]. cbv zeta in IH |- *. rewrite <- (IH q x). reflexivity.
Qed.
Lemma final_apart p q r : apart (p :: q :: r) -> fst (final p q r) <> snd (final p q r).
Proof. revert p q. induction r as [|x r IH]; intros p q H; [apply H|]. cbn [final]. apply IH. apply H. Qed.
Lemma apart_pos (p q : Pt) : p <> q -> 0 < euclid p q.
Proof.
  intros H. destruct (euclid_pos p q) as [L|L]; [exact L|]. exfalso. apply H, euclid_zero. auto.
Qed.
Lemma line_heading p q v : heading (SLine (Ln p q)) v = direction p q.
Proof. reflexivity. Qed.
Lemma tool_path_proper p l : apart (p :: l) -> Forall (fun s => proper (geo s)) (tool_path p l).
Proof.
  revert p. induction l as [|q l IH]; intros p H; cbn [tool_path]; [constructor|]. destruct H as [H1 H2]. constructor; [|now apply IH].
  cbn [geo proper]. unfold seg_len. cbn [p1 p2]. now apply apart_pos.
Qed.

(** ** C135: the brush *)
Lemma brushed_vertices tol z (b : brush ROps) (o : options ROps) l p' : stroke_ok l ->
  map fst (PropsBrush.approach tol b z) = lead_of o -> map fst (PropsBrush.departure tol b) = tail_of o ->
  PropsBrush.stroke tol z b (stroke l) p' -> vertices p' = brushed (lead_of o) (tail_of o) l.
Proof.
  intros [Hn Ha] A D (first & fin & lead & tail & v & w & H1 & H2 & -> & H3 & H4).
  destruct l as [|p [|q r]]; [cbn in Hn; lia|cbn in Hn; lia|]. cbn [stroke tool_path hd_error] in H1. assert (first = mkseg (SLine (Ln p q)) None None None false false false) as -> by congruence. clear H1.
  cbn [stroke] in H2 |- *. rewrite tool_path_last in H2. rewrite <- H2 in H4. clear H2 fin.
  pose proof (final_apart p q r Ha) as Hf. set (e := final p q r) in *.
  assert (S0 : starts (mkseg (SLine (Ln p q)) None None None false false false) = p) by apply OffsetProofs.reached_0.
  assert (E0 : ends (mkseg (SLine (Ln (fst e) (snd e))) None None None false false false) = snd e).
  { unfold ends. cbn [geo reached]. unfold at_param. cbn [p1 p2]. apply pt_ext; cbn [px py]; rring. }
  rewrite S0 in H3. rewrite E0 in H4. change (tool_start _) with (direction p q) in H3. change (tool_end _) with (direction (fst e) (snd e)) in H4.
  cbn [tool_path app]. rewrite (vertices_lead _ _ _ _ (mkseg (SLine (Ln p q)) None None None false false false) (tool_path q r ++ tail) H3). rewrite (proj2 (straight_before _ _ _ _ _ H3)), A.
  change (mkseg (SLine (Ln p q)) None None None false false false :: tool_path q r ++ tail) with ((mkseg (SLine (Ln p q)) None None None false false false :: tool_path q r) ++ tail).
  rewrite vertices_tail, (straight_after _ _ _ _ _ H4), D. unfold brushed. fold e. cbv zeta. do 2 f_equal.
  exact (stroke_vertices (p :: q :: r)).
Qed.
Lemma brush_lengths (o : options ROps) z :
  map fst (PropsBrush.approach (o_tolerance o) (init_brush o) z) = lead_of o /\
  map fst (PropsBrush.departure (o_tolerance o) (init_brush o)) = tail_of o.
Proof.
  assert (W : forall d z, map fst (PropsBrush.asked (o_tolerance o) d z) = wanted (o_tolerance o) d) by (intros; unfold PropsBrush.asked, wanted; destruct (Rlt_dec _ _); reflexivity).
  split.
  - unfold PropsBrush.approach, lead_of. rewrite map_app, W. f_equal. cbn [init_brush soft_landing tool_trail_offset]. destruct (o_soft_landing o); [apply W|reflexivity].
  - unfold PropsBrush.departure, tail_of, overshoot, PropsBrush.overshoot_length. cbn [init_brush overshoot_enable overshoot_auto overshoot_distance soft_landing tool_trail_offset tool_width].
    destruct (String.eqb (o_overshoot_mode o) "auto"); cbn [orb].
    + rewrite map_app, W. f_equal. destruct (o_soft_landing o); [apply W|reflexivity].
    + destruct (String.eqb (o_overshoot_mode o) "manual"); [|reflexivity]. rewrite map_app, W. f_equal. destruct (o_soft_landing o); [apply W|reflexivity].
Qed.
(** The options of a brush: strokes are extended, but not otherwise changed. *)
Definition brush_options (o : options ROps) : Prop :=
  o_sort_method o = "none"%string /\ o_tool_fillet o = false /\ o_tool_offset o = false /\ o_smooth_fillet o = false /\
  o_split_cusps o = false /\ o_reload_enable o = false /\ (o_soft_landing o = true \/ overshoot o <> None).
(** A soft landing is undone by a soft lift-off, which is only possible after an overshoot. *)
Definition lift_off_ok (o : options ROps) : Prop :=
  forall d, overshoot o = Some d -> o_soft_landing o = true -> o_tolerance o < o_trail_offset o -> o_tolerance o < d.
Lemma paint_all {E : Epsilon ROps} c k b l : (overshoot_enable b = true \/ soft_landing b = true) -> Forall (fun p : list (cseg ROps) => p <> []) l -> ~ PropsBrush.lifts_off_at_once (tolerance c) b ->
  exists l', paint_paths c k b l = Ok l'.
Proof.
  intros H F NL. induction F as [|p l Hp _ (l' & IH)]; [exists []; reflexivity|]. cbn [paint_paths].
  assert (overshoot_enable b || soft_landing b = true) as -> by (destruct H as [-> | ->]; [reflexivity|apply orb_true_r]).
  destruct (proj2 (PropsBrush.C118_completes c k b p) (conj Hp NL)) as (p' & ->). cbn [rbind]. rewrite IH. cbn [rbind]. eauto.
Qed.
Lemma paint_same {E : Epsilon ROps} (c c' : config ROps) k b l : tolerance c = tolerance c' -> paint_paths c k b l = paint_paths c' k b l.
Proof.
  intros H. assert (Q : forall p, process_brush_path c k b p = process_brush_path c' k b p) by (intros [|s p]; [reflexivity|]; unfold process_brush_path; rewrite H; reflexivity).
  induction l as [|p l IH]; [reflexivity|]. cbn [paint_paths]. rewrite Q, IH. reflexivity.
Qed.
Lemma usable_config log10 (cx : context ROps) o : usable log10 cx o -> exists c : config ROps, tolerance c = o_tolerance o.
Proof. intros ((u & Hu) & Hk & Ha & (p & Hp) & _). destruct (init_gcode_ok log10 [] cx o u p Hu Hk Ha Hp) as (c & Hc & _ & _ & _ & _ & _ & Htol & _). eauto. Qed.
Lemma selected_all (l : list (list (cseg ROps))) : Forall (fun p => p <> []) l -> selected 1 l = l.
Proof.
  unfold selected. cbn [Z.sub Z.to_nat skipn Z.pos_sub Z.add Z.opp]. induction 1 as [|p l Hp _ IH]; [reflexivity|]. cbn [filter]. destruct p; [congruence|]. now f_equal.
Qed.
Theorem C135_brush sorter log10 settings today text ct (cx : context ROps) ids (o : options ROps) ss strokes :
  InkSpec.wf_doc (cx_doc cx) -> PropsInk.readable_doc (cx_doc cx) ->
  drawn_shapes (cx_doc cx) ids ss -> ss <> [] -> Forall2 (shape_strokes (o_tolerance o) (cx_height cx)) ss strokes ->
  brush_options o -> lift_off_ok o -> usable log10 cx o -> Forall stroke_ok (List.concat strokes) ->
  exists k, forall fuel, (k <= fuel)%nat -> exists st,
    run_tcnc fuel sorter log10 settings today text ct cx ids o = File st (Ok tt) /\
    let step := pass_step (o_tolerance o) (o_z_step o) (o_z_depth o) in
    let ds := passes (o_z_depth o) step in
    (exists l, Forall2 (PropsBrush.stroke (o_tolerance o) step (init_brush o)) (map stroke (List.concat strokes)) l /\ job_program false 1 l ds (trace st)) /\
    xy_route (trace st) = List.concat (map (fun _ => List.concat (map (brushed (lead_of o) (tail_of o)) (List.concat strokes))) ds).
Proof.
  intros W RD DS NE F (B1 & B2 & B3 & B4 & B5 & B6 & B7) LO U SO. pose proof U as (_ & _ & _ & _ & Ht & _).
  set (pts := List.concat strokes) in *. pose (E0 := o_tolerance o : Epsilon ROps).
  set (z := pass_step (o_tolerance o) (o_z_step o) (o_z_depth o)).
  assert (EN : overshoot_enable (init_brush o) = true \/ soft_landing (init_brush o) = true).
  { destruct B7 as [S|S]; [right; exact S|left]. unfold overshoot in S. cbn. destruct (String.eqb (o_overshoot_mode o) "auto"); [reflexivity|]. destruct (String.eqb (o_overshoot_mode o) "manual"); [reflexivity|congruence]. }
  assert (NL : ~ PropsBrush.lifts_off_at_once (o_tolerance o) (init_brush o)).
  { intros (L1 & L2 & L3 & L4). cbn in L2, L3. apply L4. unfold PropsBrush.overshoot_length. cbn [init_brush overshoot_auto tool_width overshoot_distance].
    cbn [init_brush overshoot_enable] in L1. unfold lift_off_ok, overshoot in LO.
    destruct (String.eqb (o_overshoot_mode o) "auto"); [exact (LO _ eq_refl L2 L3)|]. destruct (String.eqb (o_overshoot_mode o) "manual"); [exact (LO _ eq_refl L2 L3)|discriminate]. }
  assert (NEm : Forall (fun p : list (cseg ROps) => p <> []) (map stroke pts)).
  { apply Forall_map. eapply Forall_impl; [|exact SO]. intros [|p [|q r]] [Hn _]; [cbn in Hn; lia|cbn in Hn; lia|discriminate]. }
  assert (PR : Forall (Forall (fun s : cseg ROps => proper (geo s))) (map stroke pts)).
  { apply Forall_map. eapply Forall_impl; [|exact SO]. intros [|p r] [Hn Ha]; [constructor|now apply tool_path_proper]. }
  assert (Pre : Preprocess.preprocess_paths (E:=E0) (init_prep o) (map (map Preprocess.DSeg) (map stroke pts)) = Ok (map stroke pts)).
  { rewrite (PropsPreprocess.C97_plain (init_prep o) (init_cam o)).
    - assert (S : path_split_cusps (init_cam o) = false) by exact B5. generalize (map stroke pts). induction l as [|p l IH]; [reflexivity|]. cbn [preprocess]. rewrite S. cbn [rbind]. now rewrite IH.
    - cbn. now rewrite B2.
    - cbn. now rewrite B3.
    - cbn. exact B4.
    - reflexivity. }
  assert (PA : exists l', (forall c, tolerance c = o_tolerance o -> paint_paths (E:=E0) c (init_cam o) (init_brush o) (map stroke pts) = Ok l') /\
    Forall2 (PropsBrush.stroke (o_tolerance o) z (init_brush o)) (map stroke pts) l').
  { assert (Ex : exists l', forall c, tolerance c = o_tolerance o -> paint_paths (E:=E0) c (init_cam o) (init_brush o) (map stroke pts) = Ok l').
    { destruct (usable_config _ _ _ U) as (c0 & Hc0). destruct (paint_all (E:=E0) c0 (init_cam o) (init_brush o) (map stroke pts) EN NEm) as (l' & Hl'); [rewrite Hc0; exact NL|].
      exists l'. intros c Hc. rewrite (paint_same c c0) by congruence. exact Hl'. }
    destruct Ex as (l' & Hl'). exists l'. split; [exact Hl'|]. destruct (usable_config _ _ _ U) as (c0 & Hc0). specialize (Hl' c0 Hc0).
    destruct (PropsBrush.C118_paths (E:=E0) c0 (init_cam o) (init_brush o) (map stroke pts) l') as [S _]; [rewrite Hc0; lra|exact PR|exact Hl'|].
    specialize (S EN). rewrite Hc0 in S. rewrite (eff_step_R (E:=E0)), (init_step E0) in S. exact S. }
  destruct PA as (l' & PA & ST).
  destruct (drawing_job sorter log10 settings today text ct cx ids o ss strokes l' W RD DS NE F B1 B6 U) as (k & H).
  { intros c Hc. fold E0. fold pts. match goal with |- context[rbind ?a ?f] => replace a with (Ok (map stroke pts)) by (symmetry; exact Pre) end. cbn [rbind]. now apply PA. }
  exists k. intros fuel Hf. destruct (H fuel Hf) as (st & R0 & J). exists st. split; [exact R0|]. cbv zeta. fold z. fold z in J. split; [exists l'; split; [exact ST|exact J]|].
  rewrite (job_route _ _ _ _ _ J). rewrite app_nil_r. set (ds := passes _ _). 
  assert (V : List.concat (map vertices (selected 1 l')) = List.concat (map (brushed (lead_of o) (tail_of o)) pts)).
  { clear - ST SO E0. assert (NEl : Forall (fun p : list (cseg ROps) => p <> []) l' /\ map vertices l' = map (brushed (lead_of o) (tail_of o)) pts).
    { revert l' ST. induction SO as [|p pts Hp _ IH]; intros l' ST; inversion ST as [|? p' ? l2 S1 S2]; subst; [split; [constructor|reflexivity]|].
      destruct (IH _ S2) as [N1 N2]. pose proof (brushed_vertices _ _ _ o _ _ Hp (proj1 (brush_lengths o z)) (proj2 (brush_lengths o z)) S1) as V.
      split; [constructor; [|exact N1]|cbn [map]; now rewrite V, N2].
      destruct S1 as (first & fin & lead & tail & v & w & H1 & _ & -> & _). destruct (stroke p); [discriminate|]. destruct lead; discriminate. }
    destruct NEl as [N1 N2]. now rewrite (selected_all _ N1), N2. }
  rewrite V. reflexivity.
Qed.

(** A stroke that shrinks to a point, which is skipped otherwise, stops a job with overshoot or soft landing: nothing is written. *)
Theorem C135_point_refuted sorter log10 settings today text ct (cx : context ROps) ids (o : options ROps) ss strokes first rest p :
  InkSpec.wf_doc (cx_doc cx) -> PropsInk.readable_doc (cx_doc cx) ->
  drawn_shapes (cx_doc cx) ids ss -> ss <> [] -> Forall2 (shape_strokes (o_tolerance o) (cx_height cx)) ss strokes ->
  brush_options o -> lift_off_ok o -> usable log10 cx o -> List.concat strokes = first ++ [p] :: rest -> Forall stroke_ok first ->
  exists k, forall fuel, (k <= fuel)%nat -> run_tcnc fuel sorter log10 settings today text ct cx ids o = File cam_start (Raise IndexError).
Proof.
  intros W RD DS NE F (B1 & B2 & B3 & B4 & B5 & B6 & B7) LO U SP SF. pose proof U as ((u & Hu) & Hk & Ha & (dg & Hp) & Ht & _).
  destruct (init_gcode_ok log10 settings cx o u dg Hu Hk Ha Hp) as (c & Hc & _ & _ & _ & _ & _ & Htol & _).
  destruct (drawing_strokes sorter log10 settings today text ct cx ids o ss strokes c W RD DS NE F Ht Hc) as (k1 & DR).
  exists k1. intros fuel Hf. rewrite (DR fuel Hf). clear DR. rewrite SP. pose (E0 := o_tolerance o : Epsilon ROps).
  assert (Pre : forall l, Preprocess.preprocess_paths (E:=E0) (init_prep o) (map (map Preprocess.DSeg) l) = Ok l).
  { intros l. rewrite (PropsPreprocess.C97_plain (init_prep o) (init_cam o)).
    - assert (S : path_split_cusps (init_cam o) = false) by exact B5. induction l as [|q l IH]; [reflexivity|]. cbn [preprocess]. rewrite S. cbn [rbind]. now rewrite IH.
    - cbn. now rewrite B2.
    - cbn. now rewrite B3.
    - cbn. exact B4.
    - reflexivity. }
  assert (EN : overshoot_enable (init_brush o) || soft_landing (init_brush o) = true).
  { destruct B7 as [S|S]; [cbn [init_brush soft_landing]; rewrite S; apply orb_true_r|]. unfold overshoot in S. cbn. destruct (String.eqb (o_overshoot_mode o) "auto"); [reflexivity|]. destruct (String.eqb (o_overshoot_mode o) "manual"); [reflexivity|congruence]. }
  assert (NL : ~ PropsBrush.lifts_off_at_once (o_tolerance o) (init_brush o)).
  { intros (L1 & L2 & L3 & L4). cbn in L2, L3. apply L4. unfold PropsBrush.overshoot_length. cbn [init_brush overshoot_auto tool_width overshoot_distance].
    cbn [init_brush overshoot_enable] in L1. unfold lift_off_ok, overshoot in LO.
    destruct (String.eqb (o_overshoot_mode o) "auto"); [exact (LO _ eq_refl L2 L3)|]. destruct (String.eqb (o_overshoot_mode o) "manual"); [exact (LO _ eq_refl L2 L3)|discriminate]. }
  assert (PA : paint_paths (E:=E0) c (init_cam o) (init_brush o) (map stroke (first ++ [p] :: rest)) = Raise IndexError).
  { clear SP. induction SF as [|q first Hq _ IH]; cbn [app map paint_paths]; rewrite EN; [reflexivity|].
    destruct (proj2 (PropsBrush.C118_completes (E:=E0) c (init_cam o) (init_brush o) (stroke q))) as (q' & Q).
    - split; [|rewrite Htol; exact NL]. destruct q as [|q1 [|q2 q]]; [destruct Hq as [Hn _]; cbn in Hn; lia|destruct Hq as [Hn _]; cbn in Hn; lia|discriminate].
    - match goal with |- context[process_brush_path ?a ?b ?c ?d] => replace (process_brush_path a b c d) with (Ok q') by (symmetry; exact Q) end. cbn [rbind]. rewrite IH. reflexivity. }
  unfold paint_generate. assert (PS : path_sort_method (init_cam o) = None) by (unfold init_cam; rewrite B1; reflexivity). rewrite PS.
  unfold generate_gcode, cbind, lift. cbn [path_sort_method rbind].
  match goal with |- context[Preprocess.preprocess_paths ?a ?b] => replace (Preprocess.preprocess_paths a b) with (Ok (map stroke (first ++ [p] :: rest))) by (symmetry; apply Pre) end. cbn [rbind].
  match goal with |- context[paint_paths ?a ?b ?c ?d] => replace (paint_paths a b c d) with (Raise IndexError : res (list (list (cseg ROps)))) by (symmetry; exact PA) end. reflexivity.
Qed.
(** ** The trailing tool *)
Definition trail_options (o : options ROps) : Prop :=
  o_sort_method o = "none"%string /\ o_disable_tangent o = false /\ o_tool_offset o = true /\ o_tolerance o <= o_trail_offset o /\
  o_tool_fillet o = false /\ o_smooth_fillet o = false /\ o_preserve_g1 o = false /\
  o_reload_enable o = false /\ o_soft_landing o = false /\ overshoot o = None.
Fixpoint spaced (tol : R) (l : list Pt) : Prop := match l with p :: (q :: _) as r => tol <= euclid p q /\ spaced tol r | _ => True end.
Lemma stroke_meets l : meets (stroke l).
Proof.
  destruct l as [|p l]; [exact Logic.I|]. cbn [stroke]. revert p. induction l as [|q l IH]; intros p; [exact Logic.I|]. cbn [tool_path].
  destruct l as [|r l]; [exact Logic.I|]. split; [|apply (IH q)]. unfold ends, starts. cbn [geo reached]. unfold at_param. cbn [p1 p2]. apply pt_ext; cbn [px py]; rring.
Qed.
Lemma stroke_spaced tol l : 0 < tol -> spaced tol l -> forall s, In s (stroke l) -> proper (geo s) /\ tol <= euclid (starts s) (ends s).
Proof.
  intros Ht. destruct l as [|p l]; [intros _ s []|]. cbn [stroke]. revert p. induction l as [|q l IH]; intros p H s; [intros []|]. intros [<-|Hs].
  - destruct H as [H _]. split; [cbn [geo proper]; unfold seg_len; cbn [p1 p2]; lra|].
    unfold starts, ends. cbn [geo reached]. unfold at_param. cbn [p1 p2].
    match goal with |- _ <= euclid ?a ?b => replace a with p; [replace b with q; [exact H|]|] end; apply pt_ext; cbn [px py]; rring.
  - apply (IH q); [apply H|exact Hs].
Qed.
(** With tool offset the axis of the tool is driven so that its tip, the trail offset behind, follows every stroke. *)
Theorem C135_tip sorter log10 settings today text ct (cx : context ROps) ids (o : options ROps) ss strokes :
  InkSpec.wf_doc (cx_doc cx) -> PropsInk.readable_doc (cx_doc cx) ->
  drawn_shapes (cx_doc cx) ids ss -> ss <> [] -> Forall2 (shape_strokes (o_tolerance o) (cx_height cx)) ss strokes ->
  trail_options o -> usable log10 cx o -> Forall (fun l => (2 <= List.length l)%nat /\ spaced (o_tolerance o) l) (List.concat strokes) ->
  exists k, forall fuel, (k <= fuel)%nat -> exists st pieces out,
    run_tcnc fuel sorter log10 settings today text ct cx ids o = File st (Ok tt) /\
    Forall2 (fun l ps => stroke l = List.concat ps /\ (o_split_cusps o = false -> ps = [stroke l])) (List.concat strokes) pieces /\
    Forall2 (Forall2 (woven (o_tolerance o) (o_trail_offset o) (o_line_flatness o) (o_tolerance o))) pieces out /\
    job_program false 1 (List.concat out) (passes (o_z_depth o) (pass_step (o_tolerance o) (o_z_step o) (o_z_depth o))) (trace st).
Proof.
  intros W RD DS NE F (B1 & B2 & B3 & B4 & B5 & B6 & B7 & B8 & B9 & B10) U SO. pose proof U as (_ & _ & _ & _ & Ht & _).
  set (pts := List.concat strokes) in *. pose (E0 := o_tolerance o : Epsilon ROps).
  destruct (PropsPreprocess.C97_tip_follows (E:=E0) Ht (init_prep o) (map stroke pts)) as (pieces & out & P1 & P2 & P3).
  - cbn. now rewrite B5.
  - exact B6.
  - cbn. now rewrite B7.
  - cbn. now rewrite B2, B3.
  - exact B4.
  - intros p Hp. apply in_map_iff in Hp as (l & <- & Hl). rewrite Forall_forall in SO. destruct (SO l Hl) as [Hn Hs]. split; [|split].
    + destruct l as [|q1 [|q2 l]]; [cbn in Hn; lia|cbn in Hn; lia|discriminate].
    + apply stroke_meets.
    + intros s Hs'. now apply (stroke_spaced (o_tolerance o) l).
  - destruct (drawing_job sorter log10 settings today text ct cx ids o ss strokes (List.concat out) W RD DS NE F B1 B8 U) as (k & H).
    { intros c Hc. fold E0. fold pts. match goal with |- context[rbind ?a ?f] => replace a with (Ok (List.concat out)) by (symmetry; exact P1) end. cbn [rbind].
      assert (B : overshoot_enable (init_brush o) || soft_landing (init_brush o) = false).
      { cbn. rewrite B9. unfold overshoot in B10. destruct (String.eqb (o_overshoot_mode o) "auto"); [discriminate|]. destruct (String.eqb (o_overshoot_mode o) "manual"); [discriminate|reflexivity]. }
      generalize (List.concat out). induction l as [|p l IH]; [reflexivity|]. cbn [paint_paths]. rewrite B. cbn [rbind]. now rewrite IH. }
    exists k. intros fuel Hf. destruct (H fuel Hf) as (st & R0 & J). exists st, pieces, out. split; [exact R0|]. split; [|split; [exact P3|exact J]].
    clear - P2. revert pieces P2. induction pts as [|l pts IH]; intros pieces P2; inversion P2; subst; constructor; auto.
Qed.
(** ** The options that need a tangent tool *)
(** Options that differ at most in tool fillets, tool offset, G1 preservation and closing of polygons. *)
Definition same_but_tangent (o o' : options ROps) : Prop := exists a b c d,
  o' = mkopts (o_tolerance o) (o_gcode_units o) (o_xy_feed o) (o_z_feed o) (o_a_feed o) (o_z_safe o) (o_blend_mode o) (o_blend_tolerance o)
    (o_disable_tangent o) (o_z_depth o) (o_z_step o) (o_tool_width o) (o_a_feed_match o) (o_trail_offset o) (o_tool_wait o)
    (o_spindle_mode o) (o_spindle_speed o) (o_spindle_wait_on o) (o_spindle_clockwise o) (o_sort_method o) (o_biarc_tolerance o) (o_biarc_max_depth o) (o_line_flatness o)
    a b c d (o_smooth_fillet o) (o_smooth_radius o) (o_split_cusps o)
    (o_reload_enable o) (o_pause_mode o) (o_reload_dwell o) (o_overshoot_mode o) (o_overshoot_distance o) (o_soft_landing o) (o_landing_strip o) (o_skip_path_count o).
Theorem C135_tangent_only fuel sorter log10 settings today text ct (cx : context ROps) ids (o o' : options ROps) :
  o_disable_tangent o = true -> same_but_tangent o o' ->
  run_tcnc fuel sorter log10 settings today text ct cx ids o' = run_tcnc fuel sorter log10 settings today text ct cx ids o.
Proof.
  intros D (a & b & c & d & ->). unfold run_tcnc, paint_generate.
  assert (P : init_prep (mkopts (o_tolerance o) (o_gcode_units o) (o_xy_feed o) (o_z_feed o) (o_a_feed o) (o_z_safe o) (o_blend_mode o) (o_blend_tolerance o)
    (o_disable_tangent o) (o_z_depth o) (o_z_step o) (o_tool_width o) (o_a_feed_match o) (o_trail_offset o) (o_tool_wait o)
    (o_spindle_mode o) (o_spindle_speed o) (o_spindle_wait_on o) (o_spindle_clockwise o) (o_sort_method o) (o_biarc_tolerance o) (o_biarc_max_depth o) (o_line_flatness o)
    a b c d (o_smooth_fillet o) (o_smooth_radius o) (o_split_cusps o)
    (o_reload_enable o) (o_pause_mode o) (o_reload_dwell o) (o_overshoot_mode o) (o_overshoot_distance o) (o_soft_landing o) (o_landing_strip o) (o_skip_path_count o)) = init_prep o).
  { unfold init_prep. cbn [o_tool_fillet o_tool_offset o_preserve_g1 o_close_polygons o_disable_tangent]. rewrite D. cbn [negb]. rewrite !andb_false_r. reflexivity. }
  rewrite P. reflexivity.
Qed.

(** ** C129: the layers left out *)
Theorem C129_skipped_layers name : PropsInk.matches [is_tcnc] name <-> exists rest, name = L "tcnc " ++ rest.
Proof.
  unfold PropsInk.matches. split.
  - intros H. assert (K : is_tcnc name = true). { destruct H as (s & [<-|[]] & H). exact H. }
    unfold is_tcnc in K. exists (skipn 5 name). rewrite <- (firstn_skipn 5 name) at 1. f_equal. now apply str_eqb_eq.
  - intros (rest & ->). exists is_tcnc. split; [now left|]. unfold is_tcnc. cbn [L list_ascii_of_string app firstn]. apply CssProofs.str_eqb_refl.
Qed.

(** ** C132: the header *)
(** The blending command of the options. *)
Inductive blending (o : options ROps) (digits : nat) : list body -> Prop :=
| bl_default : o_blend_mode o = ""%string -> blending o digits []
| bl_blend : o_blend_mode o = "blend"%string -> blending o digits [Block "G64" [mkword "P" digits (Rfmt digits (o_blend_tolerance o))]]
| bl_exact : o_blend_mode o = "exact"%string -> blending o digits [Opaque "G61"].
Lemma init_blend log10 settings (cx : context ROps) o c ws : init_gcode log10 settings cx o = Ok c -> blending o (ndigits_out c) ws -> blend_words c = ws.
Proof.
  unfold init_gcode. destruct (a_feed_of o) as [af|e]; cbn [rbind]; [|discriminate].
  assert (K : forall l (c0 : config ROps), (blend_mode c0 = None /\ blend_qtolerance c0 = None) ->
    exists c1, fold_left (fun c a => rbind c (fun c => configure (SHeaderComment a) c)) l (Ok c0) = Ok c1 /\ (blend_mode c1 = None /\ blend_qtolerance c1 = None)).
  { induction l as [|a l IH]; intros c0 H; [exists c0; split; [reflexivity|exact H]|]. cbn [fold_left]. destruct c0 as [xyf zf af0 zs us tl atl twd twu atu atd swo swf scw ssp sau wr sc sln hc bm bt bq gu nd asc aof am]. cbn [rbind configure]. apply IH. exact H. }
  destruct (K settings (default_config (o_xy_feed o) (o_z_safe o) (Some (o_z_feed o)) (Some af)) ltac:(repeat split)) as (c1 & -> & A1). cbn [rbind].
  destruct (gcode_units _ _) as [u|e]; cbn [rbind]; [|discriminate]. destruct (uu2unit _ _ _ _) as [k|e]; cbn [rbind]; [|discriminate].
  destruct c1 as [xyf zf af' zs us tl atl twd twu atu atd swo swf scw ssp sau wr sc sln hc bm bt bq gu nd asc aof am]. cbn in A1. destruct A1 as (-> & ->).
  cbn [configure]. destruct (mem_str _ _); cbn [rbind configure]; [|discriminate]. destruct (log10 _) as [p|e]; cbn [rbind configure]; [|discriminate].
  intros H B. destruct B as [M|M|M]; rewrite M in H; cbn in H; match type of H with Ok ?x = _ => assert (c = x) as -> by congruence end; reflexivity.
Qed.
(** Every completed program starts with the plane, the units, absolute coordinates, no compensation, the blending mode and the feed
    rate of the options. *)
Theorem C132_header log10 settings today text ct (cx : context ROps) ids (o : options ROps) u p fuel sorter st ws :
  program_unit (o_gcode_units o) (cx_doc_units cx) u -> cx_scale cx <> 0 ->
  (o_a_feed_match o = true -> o_tool_width o <> 0) -> log10 (o_tolerance o) = Ok p ->
  let digits := Z.to_nat (Z.max 2 (Z.min 15 p)) in
  blending o digits ws ->
  run_tcnc fuel sorter log10 settings today text ct cx ids o = File st (Ok tt) ->
  exists more, commands (out (gs st)) = ([Opaque "G17"; Opaque (match u with SvgDocSpec.Inch => "G20" | _ => "G21" end); Opaque "G90"; Opaque "G40"; Opaque "G49"]
    ++ ws ++ [Block "" [mkword "F" digits (Rfmt digits (o_xy_feed o))]] ++ more)%list%string.
Proof.
  intros U K A Hp digits Bl H. destruct (init_gcode_ok log10 settings cx o u p U K A Hp) as (c & Hc & I0).
  destruct I0 as (Ixy & _ & _ & _ & _ & _ & _ & _ & _ & _ & _ & _ & _ & _ & _ & _ & Iunit & Ind & _).
  destruct (init_fields _ _ _ _ _ Hc) as (PC & _).
  assert (Dg : ndigits_out c = digits) by (rewrite Ind; unfold digits; f_equal; lia).
  assert (BW : blend_words c = ws) by (eapply init_blend; [exact Hc|rewrite Dg; exact Bl]).
  assert (S : exists n, gs st = run (job_config c n ct) (trace st) init /\ Forall tracked_op (trace st) /\ exists td ops, trace st = OHeader td None :: ops).
  { destruct (run_calls _ _ _ _ _ _ _ _ _ _ _ _ H) as [E0|(c' & n & Hc' & G & F)].
    - exfalso. apply run_cases in H as [[_ (e & E)]|(c' & pre & l & _ & G)]; [discriminate|]. subst st.
      apply job_shape in G as (l1 & l2 & ds & _ & _ & _ & (td & body & _ & Q)); [|intros; apply paint_rapid_ok]. discriminate Q.
    - assert (c' = c) as -> by congruence. exists n. split; [exact G|]. split; [eapply Forall_impl; [|exact F]; intros ? Q; apply Q|].
      apply run_cases in H as [[_ (e & E)]|(c' & pre & l & _ & G')]; [discriminate|].
      apply job_shape in G' as (l1 & l2 & ds & _ & _ & _ & (td & body & _ & Q)); [|intros; apply paint_rapid_ok]. eexists td, _. rewrite Q. reflexivity. }
  destruct S as (n & G & F & td & ops & T0). rewrite T0 in G, F.
  set (c' := job_config c n ct) in *.
  destruct (run_prefix c' [OHeader td None] ops ltac:(apply job_config_fields, PC) F) as (l & X). change ([OHeader td None] ++ ops) with (OHeader td None :: ops) in X.
  rewrite G, X. cbn [run fold_left exec].
  destruct (C100_header_partial c' td None init eq_refl) as (s' & new & Hh & Ho & Hw & _). rewrite Hh. cbn [fst]. rewrite Ho.
  exists (commands l). cbn [init out app]. unfold commands in *. cbn [flat_map app]. rewrite flat_map_app, Hw.
  assert (Q : gc_unit c' = gc_unit c /\ blend_words c' = blend_words c /\ ndigits_out c' = ndigits_out c /\ xyfeed c' = xyfeed c) by (unfold c'; destruct c; repeat split).
  destruct Q as (-> & -> & -> & ->). rewrite BW, Dg, Ixy, Iunit. rewrite <- !app_assoc.
  replace (if String.eqb (string_of_list_ascii (SvgDocSpec.unit_text u)) "mm" then "G21"%string else "G20"%string) with (match u with SvgDocSpec.Inch => "G20" | _ => "G21" end)%string by (destruct U; reflexivity).
  reflexivity.
Qed.
(** The rectangle of the example of C129, whose corners are at 2,98 and 6,94: with a landing strip of 1 and an overshoot of 2, and
    with a tool that trails by 1/4. *)
Definition brush_example : options ROps :=
  mkopts (N:=ROps) (1/1000) (L "in") 10 10 60 1 "blend" (1/100) true (-3) 1 1 false 0 0 "" 0 0 true "none" 1 4 1
    false false false false false 0 false false "" 0 "manual" 2 false 1 0.
Definition trail_example : options ROps :=
  mkopts (N:=ROps) (1/1000) (L "in") 10 10 60 1 "exact" 0 false (-3) 1 1 false (1/4) 0 "" 0 0 true "none" 1 4 1
    false true false false false 0 false false "" 0 "" 0 false 0 0.
Definition rect_stroke : list Pt := [P 2 98; P 2 94; P 6 94; P 6 98; P 2 98].
Lemma euclid_h (x y x' d : R) : 0 <= d -> (x - x') * (x - x') = d * d -> euclid (P x y) (P x' y) = d.
Proof. intros H Q. apply euclid_unique; [exact H|]. cbn [px py]. nra. Qed.
Lemma euclid_v (x y y' d : R) : 0 <= d -> (y - y') * (y - y') = d * d -> euclid (P x y) (P x y') = d.
Proof. intros H Q. apply euclid_unique; [exact H|]. cbn [px py]. nra. Qed.
Lemma no_shared (p q : Pt) : 0 < euclid p q -> p <> q.
Proof. intros H ->. assert (euclid q q = 0) by now apply euclid_zero. lra. Qed.
Example C135_example :
  brush_options brush_example /\ lift_off_ok brush_example /\ stroke_ok rect_stroke /\
  trail_options trail_example /\ spaced (o_tolerance trail_example) rect_stroke /\
  (forall w, usable (fun _ => Ok 3%Z) (Ctx doc_svg w (1:ROps) (100:ROps) (100:ROps) (L "mm")) brush_example /\
             usable (fun _ => Ok 3%Z) (Ctx doc_svg w (1:ROps) (100:ROps) (100:ROps) (L "mm")) trail_example) /\
  blending brush_example 3 [Block "G64" [mkword "P" 3 (Rfmt 3 (1/100))]] /\ blending trail_example 3 [Opaque "G61"] /\
  brushed (lead_of brush_example) (tail_of brush_example) rect_stroke = [P 2 99; P 2 98; P 2 94; P 6 94; P 6 98; P 2 98; P 0 98].
Proof.
  assert (E1 : euclid (P 2 98) (P 2 94) = 4) by (apply euclid_v; lra). assert (E2 : euclid (P 2 94) (P 6 94) = 4) by (apply euclid_h; lra).
  assert (E3 : euclid (P 6 94) (P 6 98) = 4) by (apply euclid_v; lra). assert (E4 : euclid (P 6 98) (P 2 98) = 4) by (apply euclid_h; lra).
  split; [repeat split; right; discriminate|]. split; [intros d _ Q; discriminate Q|].
  split; [split; [cbn; lia|]; cbn [apart rect_stroke]; repeat (split; [apply no_shared; lra|]); exact Logic.I|].
  split; [unfold trail_options; cbn; repeat split; try reflexivity; lra|].
  split; [cbn [spaced rect_stroke]; cbn [o_tolerance trail_example]; repeat (split; [lra|]); exact Logic.I|].
  split; [intros w; split; (split; [exists SvgDocSpec.Inch; now constructor|]; cbn; repeat split; try lra; try discriminate; eauto)|].
  split; [apply bl_blend; reflexivity|]. split; [apply bl_exact; reflexivity|].
  assert (LD : lead_of brush_example = [1]). { unfold lead_of, wanted. cbn [o_soft_landing brush_example o_tolerance o_landing_strip app]. destruct (Rlt_dec _ _); [reflexivity|lra]. }
  assert (TD : tail_of brush_example = [2]). { unfold tail_of, overshoot, wanted. cbn [o_soft_landing brush_example o_tolerance o_overshoot_mode o_overshoot_distance String.eqb Ascii.eqb Bool.eqb]. destruct (Rlt_dec _ _); [reflexivity|lra]. }
  rewrite LD, TD. unfold brushed, rect_stroke. cbn [final before after fst snd app total fold_right]. unfold direction. rewrite E1, E4.
  repeat f_equal; unfold ahead; apply pt_ext; cbn [px py]; match goal with |- ?a = ?b => change (@eq R a b) end; lra.
Qed.
