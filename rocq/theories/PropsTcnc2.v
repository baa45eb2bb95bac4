(** * PropsTcnc2: machine units (C131), machine options (C132).  Specification: [SvgDocSpec], [GcodeSpec]. *)
From Verif Require Import Num NumR Str Gcode GcodeSpec GcodeProofs GcodeProofs2 GcodeProofs4 GcodeR Geom Cam CamSpec CamProofs2 CamProofs4 CamR PropsCam2
  MotionProofs PropsMotion TourSpec TourProofs PropsGcode Svg SvgDoc GeomSvg Tcnc TcncSpec PropsTcnc PropsTour.
From Verif Require CssProofs Preprocess SvgDocSpec SvgDocProofs2 PropsSvg PropsSvgDoc Ink PropsInk InkSpec.
From Coq Require Import ZArith Reals Lra Lia Bool List Psatz Ascii String.
Import ListNotations.
Local Open Scope R_scope.

Lemma str_eqb_eq a b : str_eqb a b = true -> a = b.
Proof. destruct (CssProofs.str_eqb_spec a b); [auto|discriminate]. Qed.
(** ** What a run leaves behind *)
Section Any.
  Context {N : NumOps}.
  (** The configuration of the generator, whatever the options. *)
  Lemma init_fields log10 settings (cx : context N) o c : init_gcode log10 settings cx o = Ok c ->
    plain_config c /\ spindle_auto c = String.eqb (o_spindle_mode o) "path" /\ tool_wait_up c = o_tool_wait o /\ tool_wait_down c = o_tool_wait o /\
    spindle_clockwise c = o_spindle_clockwise o /\ spindle_speed c = o_spindle_speed o.
  Proof.
    unfold init_gcode. destruct (a_feed_of o) as [af|e]; cbn [rbind]; [|discriminate].
    assert (K : forall l (c0 : config N), (axis_map c0 = [] /\ alt_tool_up c0 = None /\ alt_tool_down c0 = None) ->
      exists c1, fold_left (fun c a => rbind c (fun c => configure (SHeaderComment a) c)) l (Ok c0) = Ok c1 /\ (axis_map c1 = [] /\ alt_tool_up c1 = None /\ alt_tool_down c1 = None)).
    { induction l as [|a l IH]; intros c0 H; [exists c0; split; [reflexivity|exact H]|]. cbn [fold_left]. destruct c0 as [xyf zf af0 zs us tl atl twd twu atu atd swo swf scw ssp sau wr sc sln hc bm bt bq gu nd asc aof am]. cbn [rbind configure]. apply IH. exact H. }
    destruct (K settings (default_config (o_xy_feed o) (o_z_safe o) (Some (o_z_feed o)) (Some af)) ltac:(repeat split)) as (c1 & -> & A1). cbn [rbind].
    destruct (gcode_units _ _) as [u|e]; cbn [rbind]; [|discriminate]. destruct (uu2unit _ _ _ _) as [k|e]; cbn [rbind]; [|discriminate].
    destruct c1 as [xyf zf af' zs us tl atl twd twu atu atd swo swf scw ssp sau wr sc sln hc bm bt bq gu nd asc aof am]. cbn in A1. destruct A1 as (-> & -> & ->).
    cbn [configure]. destruct (mem_str _ _); cbn [rbind configure]; [|discriminate]. destruct (log10 _) as [p|e]; cbn [rbind configure]; [|discriminate].
    assert (F : forall c2, (axis_map c2 = [] /\ alt_tool_up c2 = None /\ alt_tool_down c2 = None) -> Ok (set_machine o c2) = Ok c ->
      plain_config c /\ spindle_auto c = String.eqb (o_spindle_mode o) "path" /\ tool_wait_up c = o_tool_wait o /\ tool_wait_down c = o_tool_wait o /\
      spindle_clockwise c = o_spindle_clockwise o /\ spindle_speed c = o_spindle_speed o).
    { intros c2 (B1 & B2 & B3) E. assert (c = set_machine o c2) as -> by congruence. clear E. destruct c2. cbn in B1, B2, B3. subst. cbn.
      split; [|repeat split]. split; [unfold out_name; cbn; repeat constructor; cbn; intuition discriminate|]. repeat split. }
    destruct (nonempty (o_blend_mode o)).
    - cbn [configure]. match goal with |- context[mem_str ?a ?b] => destruct (mem_str a b) end; cbn [rbind]; apply F; repeat split.
    - cbn [rbind]. apply F. repeat split.
  Qed.
  Lemma run_cases fuel sorter log10 settings today text ct (cx : context N) ids (o : options N) st r :
    run_tcnc fuel sorter log10 settings today text ct cx ids o = File st r ->
    (st = cam_start /\ exists e, r = Raise e) \/
    exists c pre l, init_gcode log10 settings cx o = Ok c /\
      generate_gcode (E := o_tolerance o) fuel c (mkcam false None (z_step (init_cam o)) (z_depth (init_cam o)) (enable_tangent (init_cam o)) (path_split_cusps (init_cam o)) 1)
        pre (fun c => paint_rapid_to_path (E := o_tolerance o) c (init_cam o) (init_brush o)) today text ct l cam_start = (st, r).
  Proof.
    unfold run_tcnc. intros H. destruct (Ink.selected_shapes _ _ _ _ _) as [[|e1 els]|e]; try discriminate.
    destruct (svg_to_geometry _ _) as [paths|e]; [|discriminate].
    destruct (init_gcode _ _ _ _) as [c|e]; cbn [rbind] in H; [|left; split; [congruence|exists e; congruence]].
    destruct (Preprocess.rmapl drawing_path paths) as [dl|e]; cbn [rbind] in H; [|left; split; [congruence|exists e; congruence]].
    destruct (paint_generate _ _ _ _ _ _ _ _ _ _) as [st1 r1] eqn:PG. assert (st1 = st /\ r1 = r) as [-> ->] by (split; congruence).
    right. exists c. unfold paint_generate in PG. eexists _, _. split; [reflexivity|]. exact PG.
  Qed.
  Definition no_spindle_call (o : @op N) : Prop := tracked_op o /\ forall a b d e, o <> OSpindleOn a b d e.
  Lemma run_calls fuel sorter log10 settings today text ct (cx : context N) ids (o : options N) st r :
    run_tcnc fuel sorter log10 settings today text ct cx ids o = File st r ->
    st = cam_start \/ exists c n, init_gcode log10 settings cx o = Ok c /\ gs st = run (job_config c n ct) (trace st) init /\ Forall no_spindle_call (trace st).
  Proof.
    intros H. apply run_cases in H as [[-> _]|(c & pre & l & Hc & G)]; [now left|]. right. exists c.
    match type of G with generate_gcode ?f ?c ?k ?pre ?rapid ?td ?tx ?ctx ?l _ = _ =>
      destruct (job_calls (E := o_tolerance o) f c k pre rapid td tx ctx l no_spindle_call) as (n & Gs & Fo) end.
    all: try (intros; split; [exact Logic.I|discriminate]).
    - intros c' p. apply em_paint_rapid. intros; split; [exact Logic.I|discriminate].
    - intros l0 l1 _ d _. apply Forall_forall. intros p _. split; [|split]; try (split; [exact Logic.I|discriminate]).
      apply Forall_forall. intros s _. repeat split; intros; try exact Logic.I; discriminate.
    - rewrite G in Gs, Fo. eauto.
  Qed.
End Any.

(** ** C132 *)
(** The spindle is started by the commands M3 and M4, written with a speed. *)
Definition starts_spindle (i : item) : Prop := exists n cmd t k cm, i = Line n (IntWord cmd t k) cm.
(** In every mode but 'path' no program ever starts the spindle, also in the mode that the dialog calls "Spindle on at start". *)
Theorem C132_spindle_start_refuted {N : NumOps} fuel sorter log10 settings today text ct (cx : context N) ids (o : options N) st r :
  run_tcnc fuel sorter log10 settings today text ct cx ids o = File st r -> o_spindle_mode o <> "path"%string ->
  forall i, In i (out (gs st)) -> ~ starts_spindle i.
Proof.
  intros H M i Hi (n & cmd & t & k & cm & ->). apply run_calls in H as [->|(c & m & Hc & G & F)]; [destruct Hi|].
  destruct (init_fields _ _ _ _ _ Hc) as (PC & Sa & _). apply String.eqb_neq in M. rewrite M in Sa.
  assert (Sj : spindle_auto (job_config c m ct) = false /\ plain_config (job_config c m ct)) by (split; [destruct c; exact Sa|apply job_config_fields, PC]).
  rewrite G in Hi. assert (NS : Forall not_spindle (out (run (job_config c m ct) (trace st) init))).
  { apply no_spindle; try apply Sj; [eapply Forall_impl; [|exact F]; intros ? Q; apply Q|eapply Forall_impl; [|exact F]; intros ? Q; apply Q]. }
  rewrite Forall_forall in NS. exact (NS _ Hi _ _ _ _ _ eq_refl).
Qed.
Lemma run_prefix {N : NumOps} (c : config N) a b : plain_config c -> Forall tracked_op (a ++ b) ->
  exists l, out (run c (a ++ b) init) = (out (run c a init) ++ l)%list.
Proof.
  intros PC. induction b as [|o b IH] using rev_ind; intros F; [exists []; now rewrite !app_nil_r|].
  rewrite app_assoc in *. destruct IH as (l & L); [now apply Forall_app in F|].
  destruct (run_extends c _ o PC F) as (l' & L'). exists (l ++ l')%list. rewrite L', L. now rewrite app_assoc.
Qed.
(** In mode 'path' every lowering of the tool starts with the spindle command, of the direction and speed of the options. *)
Theorem C132_spindle_path {N : NumOps} fuel sorter log10 settings today text ct (cx : context N) ids (o : options N) st r before z f w cm after :
  run_tcnc fuel sorter log10 settings today text ct cx ids o = File st r -> o_spindle_mode o = "path"%string ->
  trace st = (before ++ OToolDown z f w cm :: after)%list ->
  exists l1 num k l2, out (gs st) = (l1 ++ Line num (IntWord (if o_spindle_clockwise o then "M3" else "M4")%string "S" (trunc (o_spindle_speed o))) k :: l2)%list.
Proof.
  intros H M T. apply run_calls in H as [->|(c & m & Hc & G & F)]; [destruct before; discriminate|].
  destruct (init_fields _ _ _ _ _ Hc) as (PC & Sa & _ & _ & Sc & Ss). rewrite M in Sa. cbn in Sa.
  set (c' := job_config c m ct) in *.
  assert (Sj : plain_config c' /\ spindle_auto c' = true /\ spindle_clockwise c' = o_spindle_clockwise o /\ spindle_speed c' = o_spindle_speed o).
  { split; [apply job_config_fields, PC|]. subst c'. destruct c. cbn in *. auto. }
  destruct Sj as (PC' & Sa' & Sc' & Ss').
  assert (F' : Forall tracked_op (trace st)) by (eapply Forall_impl; [|exact F]; intros ? Q; apply Q).
  rewrite T in G, F'. replace (before ++ OToolDown z f w cm :: after)%list with ((before ++ [OToolDown z f w cm]) ++ after)%list in * by (rewrite <- app_assoc; reflexivity).
  assert (X : exists l, out (run c' ((before ++ [OToolDown z f w cm]) ++ after) init) = (out (run c' (before ++ [OToolDown z f w cm]) init) ++ l)%list).
  { now apply run_prefix. }
  destruct X as (l2 & X). rewrite G, X. rewrite run_app. cbn [run fold_left exec].
  destruct (C20_spindle_on_first c' z f w cm (run c' before init) Sa') as (num & k & rest & O). exists (out (run c' before init)), num, k, (rest ++ l2)%list.
  replace (fold_left (fun s o => fst (exec c' o s)) before init) with (run c' before init) by reflexivity. rewrite O, Sc', Ss'. now rewrite <- app_assoc.
Qed.

(** A feed rate of the A axis that matches the XY feed turns the edge of the tool, half its width away from the axis, at that feed
    rate.  The rate chosen moves it at a quarter of it (in the units of the tool width). *)
Theorem C132_edge_speed_refuted log10 settings (cx : context ROps) o c : init_gcode log10 settings cx o = Ok c -> o_a_feed_match o = true ->
  o_tool_width o <> 0 /\ (afeed c * (PI / 180)) * (o_tool_width o / 2) = o_xy_feed o / 4.
Proof.
  intros H M. assert (W : o_tool_width o <> 0).
  { intros E. revert H. unfold init_gcode, a_feed_of, pydiv. rewrite M, E. change (@Num.eqb ROps 0 (of_Z 0)) with (Reqb 0 0).
    replace (Reqb 0 0) with true; [discriminate|]. symmetry. unfold Reqb. destruct (Req_EM_T 0 0); [reflexivity|lra]. }
  split; [exact W|].
  assert (A : @eq R (afeed c) (o_xy_feed o / o_tool_width o / 2 * (180 / PI))).
  { revert H. unfold init_gcode, a_feed_of. rewrite M, PropsSvgDoc.pydiv_R by exact W. cbn [rbind].
    set (af := degrees _). assert (Eaf : af = o_xy_feed o / o_tool_width o / 2 * (180 / PI)) by reflexivity. rewrite <- Eaf. clearbody af. clear Eaf.
    destruct (fold_comments settings (default_config (o_xy_feed o) (o_z_safe o) (Some (o_z_feed o)) (Some af))) as (hc & -> & _). cbn [rbind default_config xyfeed zfeed afeed zsafe unit_scale tolerance angle_tolerance tool_wait_down tool_wait_up alt_tool_up alt_tool_down spindle_wait_on
       spindle_wait_off spindle_clockwise spindle_speed spindle_auto wrap_angles show_comments show_line_numbers header_comments blend_mode blend_tolerance
       blend_qtolerance gc_unit ndigits_out axis_scale axis_offset axis_map].
    destruct (gcode_units _ _) as [u|e]; cbn [rbind]; [|discriminate]. destruct (uu2unit _ _ _ _) as [k|e]; cbn [rbind]; [|discriminate].
    cbn [configure]. destruct (mem_str _ _); cbn [rbind configure]; [|discriminate]. destruct (log10 _) as [p|e]; cbn [rbind configure]; [|discriminate].
    destruct (nonempty (o_blend_mode o)); cbn [rbind configure].
    - match goal with |- context[mem_str ?a ?b] => destruct (mem_str a b) end; cbn [rbind set_machine]; intros E; match type of E with Ok ?x = _ => assert (c = x) as -> by congruence end; reflexivity.
    - cbn [set_machine]. intros E. match type of E with Ok ?x = _ => assert (c = x) as -> by congruence end. reflexivity. }
  rewrite A. field. split; [apply PI_neq0|exact W].
Qed.
(** A tool of width 0 is refused. *)
Theorem C132_no_width log10 settings (cx : context ROps) o : o_a_feed_match o = true -> o_tool_width o = 0 ->
  init_gcode log10 settings cx o = Raise ZeroDivisionError.
Proof.
  intros M E. unfold init_gcode, a_feed_of, pydiv. rewrite M, E. change (@Num.eqb ROps 0 (of_Z 0)) with (Reqb 0 0).
  replace (Reqb 0 0) with true; [reflexivity|]. symmetry. unfold Reqb. destruct (Req_EM_T 0 0); [reflexivity|lra].
Qed.
(** The wait after moving the tool is given in seconds; the program waits for a thousandth of it. *)
Theorem C132_tool_wait_refuted log10 settings (cx : context ROps) o c rapid cm s :
  init_gcode log10 settings cx o = Ok c -> 0 < o_tool_wait o ->
  exists num k more, out (fst (tool_up c rapid None cm s)) =
    (out s ++ more ++ [Line num (Block "G04" [mkword "P" 4 (Rfmt 4 (o_tool_wait o / 1000))]) k])%list.
Proof.
  intros H W. destruct (init_fields _ _ _ _ _ H) as ((_ & _ & Au & _) & _ & Tw & _). unfold tool_up. rewrite Au, Tw.
  set (w := o_tool_wait o) in *. cbn [dflt].
  assert (Gt : @Num.ltb ROps (of_Z 0) w = true) by (rnum; now apply Rltb_true).
  assert (X1 : exists l s1, gcode_command c (if rapid then "G00" else "G01")%string (mkargs (pset PZ (zsafe c) pempty) None "Z" cm) s = (s1, Ok tt) /\ out s1 = (out s ++ l)%list).
  { rewrite gcode_motion; [|destruct rapid; cbn; auto|reflexivity]. destruct (fold_left _ _ _) as [[lv up] pos].
    destruct (Nat.ltb 0 _); [destruct (_ || _)|]; cbn -[app words_of]; (eexists; eexists; split; [reflexivity|]); cbn -[app words_of]; try reflexivity; symmetry; apply app_nil_r. }
  destruct X1 as (l1 & s1 & E1 & O1). unfold bind at 1. rewrite E1.
  assert (X2 : exists l s2, when (spindle_auto c) (spindle_off c None None) s1 = (s2, Ok tt) /\ out s2 = (out s1 ++ l)%list).
  { unfold when. destruct (spindle_auto c); [|exists [], s1; split; [reflexivity|now rewrite app_nil_r]].
    assert (Qs : all_q (fun _ => True) (spindle_off c None None)) by (apply q_spindle_off; auto).
    destruct (Qs s1) as (l & L & _). pose proof (proj1 (xm_spindle_off c c None None s1)) as K. destruct (spindle_off c None None s1) as [s2 r2]. cbn [fst snd] in L, K. subst r2. eauto. }
  destruct X2 as (l2 & s2 & E2 & O2). unfold bind at 1. rewrite E2. unfold bind at 1. rewrite Gt. cbn [when].
  destruct (proj1 (C20_dwell c w None s2) Gt) as (num & k & D).
  exists num, k, (l1 ++ l2)%list. destruct (dwell c w None s2) as [s3 r3] eqn:Ed. cbn [fst] in D.
  assert (R3 : out (fst (let (s', r) := (s3, r3) in match r with Ok a => (fun _ : unit => bind (set_up true) (fun _ => plot PlotUp)) a s' | Raise e => (s', Raise e) end)) = out s3) by (destruct r3 as [[]|e]; reflexivity).
  etransitivity; [exact R3|]. rewrite D, O2, O1. now rewrite <- !app_assoc.
Qed.
(** The number of paths to skip is not looked at: any two runs whose options differ in nothing else leave the same behind. *)
Definition same_but_skip {N : NumOps} (o o' : options N) : Prop := exists n,
  o' = mkopts (o_tolerance o) (o_gcode_units o) (o_xy_feed o) (o_z_feed o) (o_a_feed o) (o_z_safe o) (o_blend_mode o) (o_blend_tolerance o)
    (o_disable_tangent o) (o_z_depth o) (o_z_step o) (o_tool_width o) (o_a_feed_match o) (o_trail_offset o) (o_tool_wait o)
    (o_spindle_mode o) (o_spindle_speed o) (o_spindle_wait_on o) (o_spindle_clockwise o) (o_sort_method o) (o_biarc_tolerance o) (o_biarc_max_depth o) (o_line_flatness o)
    (o_tool_fillet o) (o_tool_offset o) (o_preserve_g1 o) (o_close_polygons o) (o_smooth_fillet o) (o_smooth_radius o) (o_split_cusps o)
    (o_reload_enable o) (o_pause_mode o) (o_reload_dwell o) (o_overshoot_mode o) (o_overshoot_distance o) (o_soft_landing o) (o_landing_strip o) n.
Theorem C132_skip_refuted {N : NumOps} fuel sorter log10 settings today text ct (cx : context N) ids (o o' : options N) :
  same_but_skip o o' ->
  run_tcnc fuel sorter log10 settings today text ct cx ids o' = run_tcnc fuel sorter log10 settings today text ct cx ids o.
Proof. intros (n & ->). reflexivity. Qed.
(** What the options make the machine do. *)
Theorem C132_settings log10 settings (cx : context ROps) (o : options ROps) u p :
  program_unit (o_gcode_units o) (cx_doc_units cx) u -> cx_scale cx <> 0 -> o_a_feed_match o = false -> log10 (o_tolerance o) = Ok p ->
  exists c, init_gcode log10 settings cx o = Ok c /\
    xyfeed c = o_xy_feed o /\ zfeed c = o_z_feed o /\ afeed c = o_a_feed o /\ zsafe c = o_z_safe o /\
    tolerance c = o_tolerance o /\ spindle_clockwise c = o_spindle_clockwise o /\ spindle_speed c = o_spindle_speed o /\
    @eq R (spindle_wait_on c) (o_spindle_wait_on o * 1000) /\
    gc_unit c = match u with SvgDocSpec.Inch => "in" | _ => "mm" end%string /\
    ndigits_out c = Z.to_nat (Z.max 2 (Z.min 15 p)) /\ axis_map c = [] /\ wrap_angles c = false /\ header_comments c = settings.
Proof.
  intros U K A Hp. destruct (init_gcode_ok log10 settings cx o u p U K ltac:(rewrite A; discriminate) Hp) as (c & Hc & H). exists c. split; [exact Hc|].
  rewrite A in H. destruct H as (H1 & H2 & H3 & H4 & _ & H6 & _ & _ & _ & _ & _ & H12 & _ & H14 & H15 & _ & H17 & H18 & _ & _ & H21 & H22 & _ & _ & H25).
  split; [exact H1|]. split; [exact H2|]. split; [exact H3|]. split; [exact H4|]. split; [exact H6|]. split; [exact H14|]. split; [exact H15|]. split; [exact H12|].
  split; [rewrite H17; destruct U; reflexivity|]. split; [rewrite H18; f_equal; lia|]. split; [exact H21|]. split; [exact H22|exact H25].
Qed.
Example C132_example : exists c, init_gcode (fun _ => Ok 3%Z) [] (Ctx doc_svg (Units (1:ROps) (1:ROps)) (1:ROps) (100:ROps) (100:ROps) (L "mm")) example_options = Ok c /\
  o_spindle_mode example_options <> "path"%string /\ o_a_feed_match example_options = false.
Proof.
  destruct (C132_settings (fun _ => Ok 3%Z) [] (Ctx doc_svg (Units (1:ROps) (1:ROps)) (1:ROps) (100:ROps) (100:ROps) (L "mm")) example_options SvgDocSpec.Inch 3%Z) as (c & H & _).
  - now constructor.
  - cbn. lra.
  - reflexivity.
  - reflexivity.
  - exists c. split; [exact H|]. split; [discriminate|reflexivity].
Qed.

(** ** C131 *)
(** The units of the program: as chosen or, for 'doc', inches for imperial and millimetres for metric documents. *)
Theorem C131_units choice d t : In choice (map L ["in"; "mm"; "doc"]%string) ->
  (gcode_units choice d = Ok t <-> exists u, program_unit choice d u /\ t = SvgDocSpec.unit_text u).
Proof.
  intros C. split.
  - intros H. change (In choice [L "in"; L "mm"; L "doc"]) in C. destruct C as [<-|[<-|[<-|[]]]].
    + exists SvgDocSpec.Inch. split; [now constructor|]. change (Ok (L "in") = Ok t) in H. assert (t = L "in") as -> by congruence. reflexivity.
    + exists SvgDocSpec.Mm. split; [now constructor|]. change (Ok (L "mm") = Ok t) in H. assert (t = L "mm") as -> by congruence. reflexivity.
    + unfold gcode_units in H. change (str_eqb (L "doc") (L "doc")) with true in H. cbv iota in H.
      assert (E : forall l, existsb (str_eqb d) l = true -> In d l).
      { intros l. rewrite existsb_exists. intros (x & Hx & He). apply str_eqb_eq in He. now subst. }
      destruct (str_eqb d (L "in")) eqn:E1; [|destruct (str_eqb d (L "mm")) eqn:E2]; cbn [negb andb] in H; cbv iota in H.
      * apply str_eqb_eq in E1. exists SvgDocSpec.Inch. split; [apply pu_imperial; [reflexivity|left; now rewrite E1]|]. rewrite E1 in H. assert (t = L "in") as -> by congruence. reflexivity.
      * apply str_eqb_eq in E2. exists SvgDocSpec.Mm. split; [apply pu_metric; [reflexivity|left; now rewrite E2]|]. rewrite E2 in H. assert (t = L "mm") as -> by congruence. reflexivity.
      * destruct (existsb _ IMPERIAL_UNITS) eqn:E3; [|destruct (existsb _ METRIC_UNITS) eqn:E4; [|discriminate]].
        -- exists SvgDocSpec.Inch. split; [apply pu_imperial; [reflexivity|exact (E _ E3)]|]. assert (t = L "in") as -> by congruence. reflexivity.
        -- exists SvgDocSpec.Mm. split; [apply pu_metric; [reflexivity|exact (E _ E4)]|]. assert (t = L "mm") as -> by congruence. reflexivity.
  - intros (u & U & ->). now apply gcode_units_spec.
Qed.
(** Any other document unit is refused. *)
Theorem C131_no_units d : ~ imperial d -> ~ metric d -> gcode_units (L "doc") d = Raise NameError.
Proof.
  intros H1 H2. unfold gcode_units. change (str_eqb (L "doc") (L "doc")) with true. cbv iota.
  assert (E : forall l, ~ In d l -> existsb (str_eqb d) l = false).
  { intros l NI. apply not_true_is_false. rewrite existsb_exists. intros (x & Hx & He). apply str_eqb_eq in He. now subst. }
  rewrite (E IMPERIAL_UNITS H1), (E METRIC_UNITS H2).
  destruct (str_eqb d (L "in")) eqn:E1; [exfalso; apply H1; apply str_eqb_eq in E1; left; now rewrite E1|].
  destruct (str_eqb d (L "mm")) eqn:E2; [exfalso; apply H2; apply str_eqb_eq in E2; left; now rewrite E2|]. reflexivity.
Qed.
(** A length of a drawing that is [d] of the units of the program is [d] in the program. *)
Theorem C131_lengths log10 settings (cx : context ROps) (o : options ROps) u p : 
  program_unit (o_gcode_units o) (cx_doc_units cx) u -> cx_scale cx <> 0 ->
  (o_a_feed_match o = true -> o_tool_width o <> 0) -> log10 (o_tolerance o) = Ok p ->
  exists c, init_gcode log10 settings cx o = Ok c /\
    forall d x, unit2uu (cx_units cx) (cx_scale cx) (VNum d) (SvgDocSpec.unit_text u) = Ok x -> x * unit_scale c = d.
Proof.
  intros U K A Hp. destruct (init_gcode_ok log10 settings cx o u p U K A Hp) as (c & Hc & _ & _ & _ & _ & Us & _). exists c. split; [exact Hc|].
  intros d x H. rewrite Us.
  assert (F : UU_CONV (cx_units cx) (SvgDocSpec.unit_text u) = Some (program_factor u)).
  { destruct U; (etransitivity; [reflexivity|]); f_equal; try reflexivity; cbn [program_factor]; try (change (Rlit 3543307 (-6)) with (3543307 / IZR (Z.pow_pos 10 6)); change (Z.pow_pos 10 6) with 1000000%Z; lra). }
  unfold unit2uu in H. rewrite F in H. assert (x = d * program_factor u * cx_scale cx) as -> by (cbn in H; congruence).
  pose proof (factor_pos u). field. split; [exact K|lra].
Qed.
(** An inch is 90 user units; a millimetre is taken to be 3.543307, accurate to a ten millionth. *)
Theorem C131_accuracy : program_factor SvgDocSpec.Inch = SvgDocSpec.user_units 0 0 SvgDocSpec.Inch /\
  Rabs (program_factor SvgDocSpec.Mm - SvgDocSpec.user_units 0 0 SvgDocSpec.Mm) <= 1 / 10000000 * SvgDocSpec.user_units 0 0 SvgDocSpec.Mm.
Proof. cbn. split; [reflexivity|]. apply Rabs_le. lra. Qed.
(** The safe height is given in machine units, but it is taken as user units: after every completed program the tool is at the
    safe height divided by the size of a machine unit. *)
Theorem C131_safe_height log10 settings today text ct (cx : context ROps) ids (o : options ROps) u p fuel sorter st :
  program_unit (o_gcode_units o) (cx_doc_units cx) u -> cx_scale cx <> 0 ->
  (o_a_feed_match o = true -> o_tool_width o <> 0) -> log10 (o_tolerance o) = Ok p -> (2 <= p <= 15)%Z ->
  run_tcnc fuel sorter log10 settings today text ct cx ids o = File st (Ok tt) ->
  exists m, replay ["X"; "Y"; "Z"; "A"]%string (out (gs st)) machine0 = Some m /\
    shows m "Z" (o_z_safe o / (program_factor u * cx_scale cx)) (/ 2 * / 10 ^ Z.to_nat p).
Proof.
  intros U K A Hp Dp H. destruct (init_gcode_ok log10 settings cx o u p U K A Hp) as (c & Hc & I0).
  destruct I0 as (_ & _ & _ & Iz & Iu & _ & _ & _ & _ & _ & _ & _ & _ & _ & _ & _ & _ & Ind & Ias & Iao & Iam & _).
  destruct (init_fields _ _ _ _ _ Hc) as (PC & _).
  apply run_cases in H as [[_ (e & E)]|(c' & pre & l & Hc' & G)]; [discriminate|]. assert (c' = c) as -> by congruence.
  apply job_ends in G as (m & Rm & M); [|exact PC|intros; apply paint_rapid_ok|intros c' q; apply em_paint_rapid; intros; exact Logic.I].
  assert (AX : axis_letters c = ["X"; "Y"; "Z"; "A"]%string) by (unfold axis_letters, out_name; rewrite Iam; reflexivity).
  assert (OZ : out_name c PZ = "Z"%string) by (unfold out_name; rewrite Iam; reflexivity).
  rewrite AX in Rm. rewrite OZ in M. exists m. split; [exact Rm|]. unfold shows. rewrite M. cbn [option_map].
  rewrite program_value_R by (unfold is_axis; auto). destruct (Rfmt_half (ndigits_out c) (exact_coord c PZ (zsafe c))) as (d & D & B). exists d. rewrite D. split; [reflexivity|].
  replace (ndigits_out c) with (Z.to_nat p) in B by (rewrite Ind; f_equal; lia).
  replace (o_z_safe o / (program_factor u * cx_scale cx)) with (exact_coord c PZ (zsafe c)); [exact B|].
  unfold exact_coord, scale_of, offset_of. rewrite Ias, Iao, Iu, Iz. cbn [pget pempty]. pose proof (factor_pos u).
  cbn [vZ pempty]; unfold pempty; cbn [vZ]; cbv iota. field. split; [exact K|lra].
Qed.
(** A safe height of one inch in a document without scaling leaves the tool less than a fiftieth of an inch above zero. *)
Theorem C131_safe_height_refuted log10 settings today text ct (cx : context ROps) ids (o : options ROps) p fuel sorter st :
  o_gcode_units o = L "in" -> cx_scale cx = 1 -> o_a_feed_match o = false -> log10 (o_tolerance o) = Ok p -> (2 <= p <= 15)%Z -> o_z_safe o = 1 ->
  run_tcnc fuel sorter log10 settings today text ct cx ids o = File st (Ok tt) ->
  exists m z, replay ["X"; "Y"; "Z"; "A"]%string (out (gs st)) machine0 = Some m /\ option_map dec_val (mpos m "Z") = Some (Some z) /\ z < 1 / 50.
Proof.
  intros Hu Hk Ha Hp Dp Hz H. destruct (C131_safe_height log10 settings today text ct cx ids o SvgDocSpec.Inch p fuel sorter st) as (m & Rm & z & Z1 & Z2); auto.
  - now constructor.
  - rewrite Hk. lra.
  - rewrite Ha. discriminate.
  - exists m, z. split; [exact Rm|]. split; [exact Z1|]. rewrite Hz, Hk in Z2. cbn [program_factor] in Z2.
    assert (B : / 10 ^ Z.to_nat p <= / 100).
    { apply Rinv_le_contravar; [lra|]. replace 100 with (10 ^ 2) by (cbn; lra). apply Rle_pow; [lra|lia]. }
    apply Rabs_def2b in Z2 || idtac. revert Z2. unfold Rabs. destruct (Rcase_abs _); lra.
Qed.
