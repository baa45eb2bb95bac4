(** * PropsTour: the way of the machine while it carries out the program of a job (C31) and of a drawing (C129).
    Specification: [TourSpec]. *)
From Verif Require Import Num NumR Str Gcode GcodeSpec GcodeProofs GcodeProofs2 GcodeProofs3 GcodeProofs4 GcodeR
  Geom Cam CamSpec CamProofs1 CamProofs2 CamProofs3 CamProofs4 CamR PropsCam2 PropsCam3 MotionProofs PropsMotion TourSpec TourProofs.
From Verif Require Import Svg SvgDoc GeomSvg Tcnc TcncSpec PropsTcnc.
From Verif Require SvgDocSpec Ink InkSpec PropsInk Preprocess.
From Coq Require Import String ZArith Reals Lra Lia List Bool.
Import ListNotations.
Local Open Scope R_scope.

Lemma tour_map axes A (f : pt ROps -> pt ROps) p b l r : tour axes (fun p => A (option_map f p)) p b l r -> tour axes A (option_map f p) b l (map f r).
Proof. induction 1 as [p b l H|p q b l1 l2 r H E _ IH]; [now apply t_end|]. cbn [map]. apply t_step; auto. Qed.

(** ** C31: every job *)
(** Line by line the machine goes through the vertices of the paths in order, once per pass, and nowhere else; it is
    off by at most the tolerance, in machine units, and half a unit of the last decimal. *)
Theorem C31_machine {E : Epsilon ROps} fuel (c : config ROps) k today text ct (l : list (list (cseg ROps))) st :
  plain_config c -> 0 < tolerance c -> 0 <= angle_tolerance c ->
  simple_job fuel c k today text ct l = (st, Ok tt) ->
  let place p := P ((px p * scale_of c PX + offset_of c PX) * unit_scale c) ((py p * scale_of c PY + offset_of c PY) * unit_scale c) in
  let err ax := tolerance c * Rabs (scale_of c ax * unit_scale c) + / 2 * / 10 ^ (ndigits_out c) in
  exists l1 l2 ds, sorted_input k l = Ok l1 /\ List.concat l2 = List.concat l1 /\ (path_split_cusps k = false -> l2 = l1) /\
    tour (axis_letters c) (shows_place (out_name c PX) (out_name c PY) (err PX) (err PY)) None [] (out (gs st))
      (map place (List.concat (map (fun _ : ROps => List.concat (map vertices (selected (path_count_start k) l2))) ds)
                  ++ if home_when_done k then [P (0:ROps) (0:ROps)] else [])).
Proof.
  intros PC Ht Ha H place err.
  destruct (job_tracked fuel c k (preprocess k) (fun c => rapid_to_path c k) today text ct l) as (n & G & F).
  { intros c' p. apply em_rapid_to_path. intros; exact Logic.I. }
  unfold simple_job in H. rewrite H in G, F. cbn [fst] in G, F.
  destruct (C31_route fuel c k today text ct l st H) as (l1 & l2 & ds & H1 & H2 & H3 & H4). exists l1, l2, ds. split; [exact H1|]. split; [exact H2|]. split; [exact H3|].
  apply job_shape in H as (l1' & l2' & ds' & _ & _ & _ & JP); [|intros c'; apply simple_rapid_ok].
  pose proof (job_tour c _ n ct _ _ _ _ _ PC Ht Ha eq_refl F JP) as T. rewrite <- G, H4 in T. exact (tour_map _ _ place None _ _ _ T).
Qed.

(** ** C129: the program of a drawing *)
(** Where the machine has to be for a point of the page, in inches or millimetres. *)
Definition on_table (u : SvgDocSpec.unit_name) (scale : R) (p : pt ROps) : pt ROps := P (px p / (program_factor u * scale)) (py p / (program_factor u * scale)).
Theorem C129_machine sorter log10 settings today text ct (cx : context ROps) ids (o : options ROps) ss strokes u digits :
  InkSpec.wf_doc (cx_doc cx) -> PropsInk.readable_doc (cx_doc cx) ->
  drawn_shapes (cx_doc cx) ids ss -> ss <> [] -> Forall2 (shape_strokes (o_tolerance o) (cx_height cx)) ss strokes ->
  plain_options o -> usable log10 cx o ->
  program_unit (o_gcode_units o) (cx_doc_units cx) u -> log10 (o_tolerance o) = Ok digits -> (2 <= digits <= 15)%Z ->
  exists k, forall fuel, (k <= fuel)%nat -> exists st,
    run_tcnc fuel sorter log10 settings today text ct cx ids o = File st (Ok tt) /\
    let ds := passes (o_z_depth o) (pass_step (o_tolerance o) (o_z_step o) (o_z_depth o)) in
    let err := o_tolerance o / Rabs (program_factor u * cx_scale cx) + / 2 * / 10 ^ Z.to_nat digits in
    tour ["X"; "Y"; "Z"; "A"]%string (shows_place "X" "Y" err err) None [] (out (gs st))
      (map (on_table u (cx_scale cx)) (List.concat (map (fun _ => List.concat (map visits (List.concat strokes))) ds))).
Proof.
  intros W RD DS NE F PO US Hu Hd Dd. pose proof US as (_ & Hk & Ha & _ & Ht & Hz).
  destruct (C129_drawing sorter log10 settings today text ct cx ids o ss strokes W RD DS NE F PO US) as (k & H). exists k. intros fuel Hf.
  destruct (H fuel Hf) as (st & R0 & J & Rt). exists st. split; [exact R0|]. intros ds err.
  destruct (init_gcode_ok log10 settings cx o u digits Hu Hk Ha Hd) as (c & Hc & I0).
  destruct I0 as (_ & _ & _ & _ & Iu & Itol & Iatol & _ & _ & Iau & Iad & _ & _ & _ & _ & _ & _ & Ind & Ias & Iao & Iam & _).
  assert (PC : plain_config c).
  { split; [|split; [|split; [exact Iau|exact Iad]]]; unfold out_name; rewrite Iam; cbn; [repeat constructor; cbn; intuition discriminate|reflexivity]. }
  assert (G : exists n, gs st = run (job_config c n ct) (trace st) init /\ Forall tracked_op (trace st)).
  { unfold run_tcnc in R0. destruct (Ink.selected_shapes _ _ _ _ _) as [[|e1 els]|e]; try discriminate.
    destruct (svg_to_geometry _ _) as [paths|e]; [|discriminate]. rewrite Hc in R0. cbn [rbind] in R0.
    destruct (Preprocess.rmapl drawing_path paths) as [dl|e]; cbn [rbind] in R0; [|discriminate].
    destruct (paint_generate _ _ _ _ _ _ _ _ _ _) as [st1 r1] eqn:PG. assert (st1 = st) as -> by congruence.
    unfold paint_generate in PG.
    match type of PG with generate_gcode ?f ?c ?k ?pre ?rapid ?td ?tx ?ctx ?l _ = _ =>
      destruct (job_tracked (E := o_tolerance o) f c k pre rapid td tx ctx l) as (n & G & Fo) end.
    - intros c' p. apply em_paint_rapid. intros; exact Logic.I.
    - rewrite PG in G, Fo. eauto. }
  destruct G as (n & G & Fo).
  pose proof (job_tour c _ n ct _ _ _ _ _ PC ltac:(rewrite Itol; exact Ht) ltac:(rewrite Iatol; lra) eq_refl Fo J) as T.
  rewrite <- G in T. rewrite Rt in T. unfold here in T. apply (tour_map _ _ (goal c)) in T.
  assert (S1 : forall ax, scale_of c ax = 1) by (intros ax; unfold scale_of; rewrite Ias; destruct ax; reflexivity).
  assert (S0 : forall ax, offset_of c ax = 0) by (intros ax; unfold offset_of; rewrite Iao; destruct ax; reflexivity).
  assert (NZ : program_factor u * cx_scale cx <> 0) by (apply Rmult_integral_contrapositive_currified; [pose proof (factor_pos u); lra|exact Hk]).
  assert (EE : forall ax, error c ax = err).
  { intros ax. unfold error, err. rewrite S1, Iu, Itol, Ind. f_equal.
    - unfold Rdiv. rewrite !Rmult_1_l. now rewrite Rabs_inv.
    - now replace (Z.max (Z.min (Z.max 0 digits) 15) 2) with digits by lia. }
  rewrite !EE in T. assert (AX : axis_letters c = ["X"; "Y"; "Z"; "A"]%string) by (unfold axis_letters, out_name; rewrite Iam; reflexivity).
  assert (OX : out_name c PX = "X"%string /\ out_name c PY = "Y"%string) by (unfold out_name; rewrite Iam; split; reflexivity).
  rewrite AX, (proj1 OX), (proj2 OX) in T. cbn [option_map] in T.
  rewrite (map_ext (on_table u (cx_scale cx)) (goal c)); [exact T|].
  intros p. unfold on_table, goal. rewrite !S1, !S0, Iu. f_equal; field; split; [exact Hk|pose proof (factor_pos u); lra|exact Hk|pose proof (factor_pos u); lra].
Qed.

Example C129_machine_example w : let cx := Ctx doc_svg w (1:ROps) (100:ROps) (100:ROps) (L "mm") in
  program_unit (o_gcode_units example_options) (cx_doc_units cx) SvgDocSpec.Inch /\ (2 <= 3 <= 15)%Z /\
  map (on_table SvgDocSpec.Inch 1) [P 45 90] = [P (1/2) 1].
Proof. split; [now constructor|]. split; [lia|]. cbn. unfold on_table. cbn. do 2 f_equal; field. Qed.
(** A completed job, with sorting, splitting and homing. *)
Example C31_machine_example : exists fuel (c : config ROps) k today text ct l st, plain_config c /\ 0 < tolerance c /\ 0 <= angle_tolerance c /\
  simple_job (E := 1/10 : Epsilon ROps) fuel c k today text ct l = (st, Ok tt) /\ List.length l = 1%nat /\ home_when_done k = true.
Proof.
  set (c := default_config (N := ROps) 10 2 None None).
  pose (E0 := 1/10 : Epsilon ROps).
  assert (Tc : tolerance c = 1 / 1000000) by (cbn; lra).
  destruct (C31_arcs_example (E := E0) c) as (H1 & H2 & H3 & H4 & H5 & H6).
  - rewrite Tc. lra.
  - rewrite Tc. change (@EPS ROps E0) with (1/10). lra.
  - match type of H2 with step_of ?k < 0 => match type of H3 with ~ In [] ?l =>
      destruct (C31_arcs_partial (E := E0) c k "" (fun _ _ _ => ""%string) (fun _ => ""%string) l ltac:(rewrite Tc; lra) H1 H2 H3 H4 H5 H6) as (fuel & st & l' & J & _);
      exists fuel, c, k, ""%string, (fun _ _ _ => ""%string), (fun _ => ""%string), l, st end end.
    split; [split; [cbn; repeat constructor; cbn; intuition discriminate|repeat split]|]. split; [rewrite Tc; lra|]. split; [cbn; lra|]. split; [exact J|]. split; reflexivity.
Qed.
