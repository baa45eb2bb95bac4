(** * PropsTcnc: from the drawing to the program (C129).  Specification: [TcncSpec], [InkSpec], [CamSpec]. *)
From Verif Require Import Num NumR Str Gcode Geom GeomR GeomSpec GeomSpec2 GeomProofs GeomProofs4 GeomProofs5 Cam CamSpec CamProofs2 CamProofs4 CamR PropsCam2
  Bezier Ellipse Svg SvgSpec SvgProofs SvgDoc GeomSvg GeomSvgSpec PropsGeomSvg PropsGeomSvg2.
From Verif Require Preprocess PropsPreprocess SvgDocSpec SvgDocProofs2 PropsSvg PropsSvgDoc Ink PropsInk InkSpec InkProofs.
From Verif Require Import Tcnc TcncSpec.
From Coq Require Import ZArith Reals Lra Lia Bool List Psatz Ascii String.
Import ListNotations.
Local Open Scope R_scope.

Definition lines (l : list Pt) : list Gseg := match l with [] => [] | p :: r => through p r end.

(** ** Geometry of outlines *)
(** pieces that follow one another, the last one ending at [here] *)
Fixpoint chained (l : list piece) (here : xy R) : Prop :=
  match l with
  | [] => True
  | [x] => stop (snd x) = here
  | x :: (y :: _) as r => stop (snd x) = fst y /\ chained r here
  end.
Lemma chained_snoc l : forall here d, chained l here -> chained (l ++ [(here, d)]) (stop d).
Proof.
  induction l as [|x l IH]; intros here d H; [reflexivity|]. destruct l as [|y l].
  - cbn in *. auto.
  - destruct H as [H1 H2]. split; [exact H1|]. apply IH, H2.
Qed.
Lemma runs_chained l : forall here cur, chained cur here -> Forall straight l -> Forall (fun x => straight (snd x) /\ forall p, snd x <> DMove p) cur ->
  Forall (fun r => r <> [] /\ (exists h, chained r h) /\ Forall (fun x => straight (snd x) /\ forall p, snd x <> DMove p) r) (runs cur (located here l)).
Proof.
  assert (R0 : forall cur here, chained cur here -> Forall (fun x : piece => straight (snd x) /\ forall p, snd x <> DMove p) cur ->
    Forall (fun r => r <> [] /\ (exists h, chained r h) /\ Forall (fun x => straight (snd x) /\ forall p, snd x <> DMove p) r) (GeomSvgSpec.run cur)).
  { intros [|x cur] here C F; cbn [GeomSvgSpec.run]; constructor; [|constructor]. split; [discriminate|]. split; [eauto|exact F]. }
  induction l as [|d l IH]; intros here cur C S F; cbn [located runs]; [now apply (R0 cur here)|].
  inversion S as [|? ? Sd Sl]; subst. destruct d; try contradiction.
  - apply Forall_app. split; [now apply (R0 cur here)|]. apply IH; auto; exact Logic.I.
  - apply (IH (stop (DLine p))); auto.
    + apply chained_snoc, C.
    + apply Forall_app. split; [exact F|]. constructor; [|constructor]. split; [exact Logic.I|discriminate].
Qed.
Lemma shows_lines r : forall h g, chained r h -> Forall (fun x => straight (snd x) /\ forall p, snd x <> DMove p) r ->
  Forall2 shows r g -> g = lines (corners r).
Proof.
  induction r as [|[s d] r IH]; intros h g C F S; inversion S as [|? x ? g' S1 S2]; subst; [reflexivity|].
  inversion F as [|? ? [F1 F1'] F2]; subst. cbn [snd] in *. destruct d; try contradiction; try now destruct (F1' p).
  destruct S1 as (l & -> & L1 & L2). cbn [corners lines map fst snd stop through].
  replace l with (Ln (spot s) (spot p) : Geom.line ROps) by (destruct l; cbn in *; now subst). f_equal.
  destruct r as [|y r].
  - inversion S2. reflexivity.
  - destruct C as [C1 C2]. cbn [snd stop] in C1. rewrite (IH h g' C2 F2 S2). cbn [corners lines]. now rewrite <- C1.
Qed.

Lemma tidy_head tol k k' : tidy tol k k' -> forall q r, k = q :: r -> exists r', k' = q :: r'.
Proof. induction 1 as [p|p r0 r0' _ IH|p q0 r0 r0' _ _ _]; intros q r K; inversion K; subst; eauto. Qed.
Section Geometry.
  Context {E : Epsilon ROps}.
  Hypothesis He : 0 < EPS.
  Lemma outline_geom e cs : proper_element e -> outline e cs -> svg_element_to_geometry e None None = Ok (map Path (map lines cs)).
  Proof.
    intros HP H. destruct H as [x y w h Hn Hx Hy Hw Hh|s p q l Hn Hs Ht Hok|s p Hn Hs Hne H1 H2 H3 H4 St].
    - unfold svg_element_to_geometry, subpaths_of. rewrite (strip_named e "rect" eq_refl Hn).
      change (str_eqb (L "rect") (L "path")) with false. change (str_eqb (L "rect") (L "line")) with false. change (str_eqb (L "rect") (L "ellipse")) with false.
      change (str_eqb (L "rect") (L "rect")) with true. cbv iota. unfold convert_rect.
      rewrite (number_attr e "x" x), (number_attr e "y" y), (number_attr e "width" w), (number_attr e "height" h) by auto. reflexivity.
    - apply (C122_polyline e HP s p q l); auto.
    - unfold svg_element_to_geometry, subpaths_of. rewrite (strip_named e "path" eq_refl Hn).
      change (str_eqb (L "path") (L "path")) with true. cbv iota. rewrite (get_attr e "d" s HP Hs). destruct s as [|c s]; [congruence|].
      destruct (C120_path_partial He p (c :: s) true H1 H2 H3 H4) as (gs & Q & F).
      { clear -St. generalize (XY 0 0 : xy R). induction St as [|d l Hd _ IH]; intros h; cbn [located]; constructor; [|apply IH]. destruct d; try contradiction; exact Logic.I. }
      rewrite Q. cbn [rmap rbind]. replace gs with (map lines (map corners (subpaths (drawing p)))).
      + destruct (map Path _); reflexivity.
      + clear Q. pose proof (runs_chained (drawing p) (XY 0 0) [] Logic.I St (Forall_nil _)) as C. fold (subpaths (drawing p)) in C.
        induction F as [|r g rs gs Hr _ IH]; [reflexivity|]. inversion C as [|? ? (_ & (h & C1) & C2) C3]; subst. cbn [map]. f_equal; [|now apply IH].
        symmetry. exact (shows_lines r h g C1 C2 Hr).
  Qed.
  Lemma place_lines (m : mat ROps) l l' : tidy EPS l l' -> place_path m (lines l) = Ok (lines (map (apply m) l')).
  Proof.
    induction 1 as [p|p r r' _ IH|p q r r' D T0 IH]; [reflexivity| |].
    - cbn [lines through place_path g_p1 g_p2 p1 p2]. rewrite (proj2 (peq_true He p p)); [exact IH|]. rewrite (euclid_unique p p 0); [exact He|lra|ring].
    - cbn [lines through place_path g_p1 g_p2 p1 p2]. rewrite (proj2 (peq_false He p q)) by exact D. cbn [g_transform rbind].
      change (through q r) with (lines (q :: r)). rewrite IH. cbn [rbind map lines].
      destruct (tidy_head _ _ _ T0 q r eq_refl) as [r2 ->].
      reflexivity.
  Qed.
  Lemma place_outlines (m : mat ROps) cs cs' : Forall2 (tidy EPS) cs cs' ->
    place_paths m (map Path (map lines cs)) = Ok (map Path (map lines (map (map (apply m)) cs'))).
  Proof. induction 1 as [|c c' cs cs' H _ IH]; [reflexivity|]. cbn [map place_paths]. rewrite (place_lines m c c' H). cbn [rbind]. now rewrite IH. Qed.
  Lemma placed_outline e cs cs' (m flip : mat ROps) : proper_element e -> outline e cs -> Forall2 (tidy EPS) cs cs' ->
    svg_element_to_geometry e (Some m) (Some flip) = Ok (map Path (map lines (map (map (fun p => apply flip (apply m p))) cs'))).
  Proof.
    intros HP H F. pose proof (outline_geom e cs HP H) as Q. unfold svg_element_to_geometry in *.
    destruct (subpaths_of e) as [ps|]; cbn [rbind] in *; [|discriminate].
    assert (ps = map Path (map lines cs)) as -> by (destruct ps; injection Q; auto). clear Q.
    replace (map (map (fun p => apply flip (apply m p))) cs') with (map (map (apply (compose flip m))) cs').
    - destruct F as [|c c' cs cs' H1 H2]; [reflexivity|]. exact (place_outlines (compose flip m) _ _ (Forall2_cons _ _ H1 H2)).
    - apply map_ext. intros c. apply map_ext. intros p. apply apply_compose.
  Qed.
End Geometry.

(** ** The machine (see C130, C131) *)
Lemma fold_comments {N : NumOps} (l : list comment_arg) : forall c : config N,
  exists hc, fold_left (fun c a => rbind c (fun c => configure (SHeaderComment a) c)) l (Ok c) =
    Ok (mkcfg (xyfeed c) (zfeed c) (afeed c) (zsafe c) (unit_scale c) (tolerance c) (angle_tolerance c) (tool_wait_down c) (tool_wait_up c)
          (alt_tool_up c) (alt_tool_down c) (spindle_wait_on c) (spindle_wait_off c) (spindle_clockwise c) (spindle_speed c) (spindle_auto c)
          (wrap_angles c) (show_comments c) (show_line_numbers c) hc (blend_mode c) (blend_tolerance c) (blend_qtolerance c) (gc_unit c)
          (ndigits_out c) (axis_scale c) (axis_offset c) (axis_map c)) /\ hc = (header_comments c ++ l)%list.
Proof.
  induction l as [|a l IH]; intros c.
  - exists (header_comments c). split; [destruct c; reflexivity|now rewrite app_nil_r].
  - cbn [fold_left]. destruct c as [xyf zf af zs us tl atl twd twu atu atd swo swf scw ssp sau wr sc sln hc bm bt bq gu nd asc aof am].
    cbn [rbind configure]. destruct (IH (mkcfg xyf zf af zs us tl atl twd twu atu atd swo swf scw ssp sau wr sc sln (hc ++ [a]) bm bt bq gu nd asc aof am)) as (h & -> & ->).
    cbn. eexists. split; [reflexivity|]. now rewrite <- app_assoc.
Qed.
(** What the units option and the units of the document make the units of the program. *)
Definition imperial (u : pystr) : Prop := In u (map list_ascii_of_string ["in"; "ft"; "yd"; "pc"; "pt"; "px"]%string).
Definition metric (u : pystr) : Prop := In u (map list_ascii_of_string ["mm"; "cm"; "m"; "km"]%string).
Inductive program_unit (choice doc_units : pystr) : SvgDocSpec.unit_name -> Prop :=
| pu_in : choice = L "in" -> program_unit choice doc_units SvgDocSpec.Inch
| pu_mm : choice = L "mm" -> program_unit choice doc_units SvgDocSpec.Mm
| pu_imperial : choice = L "doc" -> imperial doc_units -> program_unit choice doc_units SvgDocSpec.Inch
| pu_metric : choice = L "doc" -> metric doc_units -> program_unit choice doc_units SvgDocSpec.Mm.
Lemma gcode_units_spec choice d u : program_unit choice d u -> gcode_units choice d = Ok (SvgDocSpec.unit_text u).
Proof.
  intros [-> | -> | -> H | -> H]; [reflexivity|reflexivity| |];
    cbn in H; repeat (destruct H as [<- |H]; [reflexivity|]); destruct H.
Qed.
(** The user units in a unit of the program, as the program sees them. *)
Definition program_factor (u : SvgDocSpec.unit_name) : R := match u with SvgDocSpec.Inch => 90 | _ => 3.543307 end.
Lemma factor_pos u : 0 < program_factor u.
Proof. destruct u; cbn; lra. Qed.
Lemma unit_scale_value us k u : k <> 0 -> u = SvgDocSpec.Inch \/ u = SvgDocSpec.Mm ->
  uu2unit (N:=ROps) us k (VStr (L "1.0")) (SvgDocSpec.unit_text u) = Ok (1 / (program_factor u * k)).
Proof.
  intros K U. set (n := Numeral NoSign [D1] (Some [D0]) None). assert (Hn : numeral_ok n) by (apply PropsSvg.numeral_ok_dec; reflexivity).
  change (L "1.0") with (numeral_text n). unfold uu2unit. rewrite SvgDocProofs2.convert_plain by exact Hn.
  assert (V : @eq R (numeral_value (N:=ROps) n) 1).
  { unfold numeral_value, n. cbn. lra. }
  destruct U as [-> | ->].
  - change (UU_CONV us (L "px")) with (Some (Rlit 1 0)). change (UU_CONV us (SvgDocSpec.unit_text SvgDocSpec.Inch)) with (Some (Rlit 90 0)). cbv beta iota.
    rewrite PropsSvgDoc.pydiv_R by (change (90 <> 0); lra). cbn [rbind]. rewrite PropsSvgDoc.pydiv_R by exact K. f_equal.
    change (numeral_value (N:=ROps) n * (1 / 90) / k = 1 / (90 * k)). rewrite V. field. exact K.
  - change (UU_CONV us (L "px")) with (Some (Rlit 1 0)). change (UU_CONV us (SvgDocSpec.unit_text SvgDocSpec.Mm)) with (Some (Rlit 3543307 (-6))). cbv beta iota.
    assert (W : Rlit 3543307 (-6) = 3.543307). { change (Rlit 3543307 (-6)) with (3543307 / IZR (Z.pow_pos 10 6)). change (Z.pow_pos 10 6) with 1000000%Z. lra. }
    rewrite W, PropsSvgDoc.pydiv_R by lra. cbn [rbind]. rewrite PropsSvgDoc.pydiv_R by exact K. f_equal.
    change (numeral_value (N:=ROps) n * (1 / 3.543307) / k = 1 / (3.543307 * k)). rewrite V. field. split; [exact K|lra].
Qed.

(** The settings of the G-code generator made from the options. *)
Lemma init_gcode_ok log10 settings (cx : context ROps) (o : options ROps) u p :
  program_unit (o_gcode_units o) (cx_doc_units cx) u -> cx_scale cx <> 0 ->
  (o_a_feed_match o = true -> o_tool_width o <> 0) -> log10 (o_tolerance o) = Ok p ->
  exists c, init_gcode log10 settings cx o = Ok c /\
    xyfeed c = o_xy_feed o /\ zfeed c = o_z_feed o /\
    @eq R (afeed c) (if o_a_feed_match o then o_xy_feed o / o_tool_width o / 2 * (180 / PI) else o_a_feed o) /\
    zsafe c = o_z_safe o /\ @eq R (unit_scale c) (1 / (program_factor u * cx_scale cx)) /\
    tolerance c = o_tolerance o /\ angle_tolerance c = o_tolerance o /\
    tool_wait_down c = o_tool_wait o /\ tool_wait_up c = o_tool_wait o /\ alt_tool_up c = None /\ alt_tool_down c = None /\
    @eq R (spindle_wait_on c) (o_spindle_wait_on o * 1000) /\ @eq R (spindle_wait_off c) 0 /\ spindle_clockwise c = o_spindle_clockwise o /\
    spindle_speed c = o_spindle_speed o /\ spindle_auto c = String.eqb (o_spindle_mode o) "path" /\
    gc_unit c = string_of_list_ascii (SvgDocSpec.unit_text u) /\ ndigits_out c = Z.to_nat (Z.max (Z.min (Z.max 0 p) 15) 2) /\
    axis_scale c = pempty /\ axis_offset c = pempty /\ axis_map c = [] /\ wrap_angles c = false /\ show_comments c = true /\
    show_line_numbers c = false /\ header_comments c = settings.
Proof.
  intros U K A Hp.
  assert (AF : exists af, a_feed_of o = Ok af /\ @eq R af (if o_a_feed_match o then o_xy_feed o / o_tool_width o / 2 * (180 / PI) else o_a_feed o)).
  { unfold a_feed_of. destruct (o_a_feed_match o).
    - rewrite PropsSvgDoc.pydiv_R by now apply A. cbn [rbind]. eexists. split; reflexivity.
    - eexists. split; reflexivity. }
  destruct AF as (af & Ha & Ea). unfold init_gcode. rewrite Ha. cbn [rbind].
  destruct (fold_comments settings (default_config (o_xy_feed o) (o_z_safe o) (Some (o_z_feed o)) (Some af))) as (hc & F & Hc).
  rewrite F. cbn [rbind]. rewrite (gcode_units_spec _ _ _ U). cbn [rbind].
  assert (U2 : u = SvgDocSpec.Inch \/ u = SvgDocSpec.Mm) by (destruct U; auto).
  rewrite (unit_scale_value _ _ _ K U2). cbn [rbind].
  assert (M : mem_str (string_of_list_ascii (SvgDocSpec.unit_text u)) ["in"; "mm"]%string = true) by (destruct U2 as [-> | ->]; reflexivity).
  cbn [default_config xyfeed zfeed afeed zsafe unit_scale tolerance angle_tolerance tool_wait_down tool_wait_up alt_tool_up alt_tool_down spindle_wait_on
       spindle_wait_off spindle_clockwise spindle_speed spindle_auto wrap_angles show_comments show_line_numbers header_comments blend_mode blend_tolerance
       blend_qtolerance gc_unit ndigits_out axis_scale axis_offset axis_map].
  cbn [configure]. rewrite M. cbn [rbind configure]. rewrite Hp. cbn [rbind configure].
  destruct (nonempty (o_blend_mode o)).
  - set (md := if String.eqb (upper (o_blend_mode o)) "G61" then "exact"%string else if String.eqb (upper (o_blend_mode o)) "G64" then "blend"%string else o_blend_mode o).
    destruct (mem_str md ["exact"; "blend"]%string); cbn [rbind set_machine]; eexists; (split; [reflexivity|]); cbn; subst hc; repeat split; auto.
  - cbn [rbind set_machine]. eexists. split; [reflexivity|]. cbn. subst hc. repeat split; auto.
Qed.

(** ** C129 *)
(** The visible shapes that are to be drawn: those of the selected elements or, without a selection, of the document. *)
Definition drawn_shapes (doc : Ink.xml) (ids : list pystr) (ss : list (Ink.xml * InkSpec.placement)) : Prop :=
  (ids = [] /\ InkSpec.shown_with_ancestors [] doc /\ exists f ps, InkSpec.ancestors_place [doc] f /\
     InkSpec.all_pictures doc Ink.DEFAULT_SHAPES (PropsInk.matches [is_tcnc]) [doc] (Ink.x_kids doc) ps /\
     ss = flat_map (InkSpec.shapes true f) ps) \/
  (ids <> [] /\ PropsInk.selected doc Ink.DEFAULT_SHAPES [is_tcnc] ids ss).
(** The strokes of a shape at its place. *)
Definition shape_strokes (tol height : R) (s : Ink.xml * InkSpec.placement) (strokes : list (list Pt)) : Prop :=
  exists e cs cs', element_is (fst s) e /\ proper_element e /\ outline e cs /\ Forall2 (tidy tol) cs cs' /\
    strokes = map (map (on_machine height (snd s))) cs'.
(** Nothing but the strokes themselves is asked for. *)
Definition plain_options (o : options ROps) : Prop :=
  o_sort_method o = "none"%string /\ o_tool_fillet o = false /\ o_tool_offset o = false /\ o_smooth_fillet o = false /\
  o_split_cusps o = false /\ o_reload_enable o = false /\ o_soft_landing o = false /\
  o_overshoot_mode o <> "auto"%string /\ o_overshoot_mode o <> "manual"%string.

Lemma drawing_lines (ls : list (list Pt)) :
  Preprocess.rmapl drawing_path (map Path (map lines ls)) = Ok (map (map Preprocess.DSeg) (map stroke ls)).
Proof.
  induction ls as [|l ls IH]; [reflexivity|]. cbn [map Preprocess.rmapl]. cbn [drawing_path].
  assert (H : Preprocess.rmapl drawing_seg (lines l) = Ok (map Preprocess.DSeg (stroke l))).
  { destruct l as [|p l]; [reflexivity|]. cbn [lines stroke]. revert p. clear. induction l as [|q l IH]; intros p; [reflexivity|].
    cbn [through Preprocess.rmapl drawing_seg rbind tool_path map]. rewrite IH. reflexivity. }
  rewrite H. cbn [rbind]. rewrite IH. reflexivity.
Qed.
Lemma stroke_vertices l : vertices (stroke l) = visits l.
Proof.
  destruct l as [|p l]; [reflexivity|]. cbn [stroke visits]. destruct l as [|q l]; [reflexivity|]. unfold vertices. cbn [tool_path map geo s_p1 s_p2 p1 p2].
  do 2 f_equal. revert q. induction l as [|r l IH]; intros q; [reflexivity|]. cbn [tool_path map geo s_p2 p2]. now rewrite IH.
Qed.
Lemma selected_visits ls : List.concat (map vertices (selected 1 (map stroke ls))) = List.concat (map visits ls).
Proof.
  unfold selected. cbn [Z.sub Z.to_nat skipn Z.pos_sub Z.add Z.opp]. induction ls as [|l ls IH]; [reflexivity|]. cbn [map filter].
  rewrite <- stroke_vertices. destruct (stroke l) as [|s r]; cbn [map List.concat vertices app]; [exact IH|]. now rewrite <- IH.
Qed.
Lemma plain_preprocess {E : Epsilon ROps} (o : options ROps) l : plain_options o ->
  Preprocess.preprocess_paths (init_prep o) (map (map Preprocess.DSeg) l) = Ok l.
Proof.
  intros (_ & Q1 & Q2 & Q3 & Q4 & _). rewrite (PropsPreprocess.C97_plain (init_prep o) (init_cam o) l).
  - assert (S : path_split_cusps (init_cam o) = false) by exact Q4. induction l as [|p l IH]; [reflexivity|]. cbn [preprocess]. rewrite S. cbn [rbind]. now rewrite IH.
  - cbn. now rewrite Q1.
  - cbn. now rewrite Q2.
  - cbn. exact Q3.
  - reflexivity.
Qed.
Lemma plain_paint {E : Epsilon ROps} (o : options ROps) c k l : plain_options o -> paint_paths c k (init_brush o) l = Ok l.
Proof.
  intros (_ & _ & _ & _ & _ & _ & Q1 & Q2 & Q3).
  assert (B : overshoot_enable (init_brush o) || soft_landing (init_brush o) = false).
  { cbn. rewrite Q1. destruct (String.eqb_spec (o_overshoot_mode o) "auto"); [contradiction|]. destruct (String.eqb_spec (o_overshoot_mode o) "manual"); [contradiction|reflexivity]. }
  induction l as [|p l IH]; [reflexivity|]. cbn [paint_paths]. rewrite B. cbn [rbind]. now rewrite IH.
Qed.
Lemma init_step (E : Epsilon ROps) (o : options ROps) : step_of (E:=E) (init_cam o) = pass_step EPS (o_z_step o) (o_z_depth o).
Proof.
  unfold step_of, pass_step. cbn [init_cam z_step z_depth]. unfold option_step. rewrite GeomProofs2.pymax_R. reflexivity.
Qed.
Lemma step_negative tol step depth : 0 < tol -> depth < 0 -> pass_step tol step depth < 0.
Proof.
  intros Ht Hd. unfold pass_step. pose proof (Rabs_pos step) as A.
  assert (M : Rmax (- Rabs step) depth <= 0) by (apply Rmax_lub; lra).
  destruct (Rlt_dec _ _) as [|L]; [exact Hd|]. destruct (Req_dec (Rmax (- Rabs step) depth) 0) as [Q|Q]; [|lra].
  rewrite Q, Rabs_R0 in L. lra.
Qed.
Lemma by_aim (aim : Prop) home start l ds ops : job_program_by (cut_aim aim) home start l ds ops -> job_program (N:=ROps) home start l ds ops.
Proof.
  intros (td & body & C & T0). exists td, body. split; [|exact T0].
  clear -C. induction C as [|d ds o os Hd _ IH]; constructor; [|exact IH].
  clear -Hd. induction Hd as [|p ps o os Hp _ IH]; constructor; [|exact IH].
  destruct Hp as (s & r & tx & a & body & -> & -> & C). exists s, r, tx, a, body. split; [reflexivity|]. split; [reflexivity|].
  clear -C. induction C as [|q qs o os Hq _ IH]; constructor; [|exact IH].
  destruct Hq as (o' & [Ho _] & S). exists o'. auto.
Qed.
Lemma as_element_is n e : element_is n e -> as_element n = e.
Proof. intros [H1 H2]. unfold as_element. rewrite H1, H2. now destruct e. Qed.
Lemma flip_machine h f (m : mat ROps) p : apply m p = P (fst (f (px p : R, py p : R))) (snd (f (px p : R, py p : R))) ->
  apply (mscale_translate (N:=ROps) 1 (-1) 0 h) (apply m p) = on_machine h f p.
Proof.
  intros ->. unfold on_machine. destruct (f (px p : R, py p : R)) as [x y]. cbn [fst snd].
  unfold mscale_translate, apply. cbn. f_equal; toR; ring.
Qed.
(** The geometry of the shapes. *)
Lemma shapes_geometry (tol h : R) ss strokes out : 0 < tol ->
  Forall2 (shape_strokes tol h) ss strokes -> Forall2 PropsInk.answer ss out ->
  svg_to_geometry (E:=tol) (map (fun x => (as_element (fst x), Some (snd x))) out) (Some (mscale_translate (N:=ROps) 1 (-1) 0 h)) =
    Ok (map Path (map lines (List.concat strokes))).
Proof.
  intros Ht F. revert out. induction F as [|[n f] st ss sts (e & cs & cs' & He & HP & HO & HT & ->) _ IH]; intros out A; inversion A as [|? [n' m] ? out' [A1 A2] A3]; subst; [reflexivity|].
  cbn [fst snd] in *. subst n'. cbn [map svg_to_geometry fst snd]. rewrite (as_element_is n e He).
  rewrite (placed_outline (E:=tol) Ht e cs cs' m _ HP HO HT). cbn [rbind]. rewrite (IH out' A3). cbn [rbind List.concat].
  rewrite !map_app. do 2 f_equal. f_equal. f_equal. apply map_ext. intros c. apply map_ext. intros p.
  apply flip_machine. specialize (A2 (px p : R, py p : R)). cbn [fst snd] in A2. destruct p. exact A2.
Qed.
(** What a run needs beside the drawing. *)
Definition usable (log10 : R -> res Z) (cx : context ROps) (o : options ROps) : Prop :=
  (exists u, program_unit (o_gcode_units o) (cx_doc_units cx) u) /\ cx_scale cx <> 0 /\
  (o_a_feed_match o = true -> o_tool_width o <> 0) /\ (exists p, log10 (o_tolerance o) = Ok p) /\
  0 < o_tolerance o /\ o_z_depth o < 0.
(** What the CAM gets of a drawing of strokes. *)
Lemma drawing_strokes sorter log10 settings today text ct (cx : context ROps) ids (o : options ROps) ss strokes c :
  InkSpec.wf_doc (cx_doc cx) -> PropsInk.readable_doc (cx_doc cx) ->
  drawn_shapes (cx_doc cx) ids ss -> ss <> [] -> Forall2 (shape_strokes (o_tolerance o) (cx_height cx)) ss strokes -> 0 < o_tolerance o ->
  init_gcode log10 settings cx o = Ok c ->
  exists k, forall fuel, (k <= fuel)%nat -> run_tcnc fuel sorter log10 settings today text ct cx ids o =
    let '(st, r) := paint_generate (E:=o_tolerance o) fuel sorter c (init_cam o) (init_prep o) (init_brush o) today text ct
      (map (map Preprocess.DSeg) (map stroke (List.concat strokes))) in File st r.
Proof.
  intros W RD DS NE F Ht Hc.
  assert (SH : exists k, forall fuel, (k <= fuel)%nat -> exists out,
    Ink.selected_shapes (N:=ROps) fuel (cx_doc cx) Ink.DEFAULT_SHAPES [is_tcnc] ids = Ok out /\ Forall2 PropsInk.answer ss out).
  { destruct DS as [(-> & S & f & ps & A & H & ->)|(NI & H)].
    - apply PropsInk.C124_shapes; auto. constructor.
    - apply PropsInk.C124_selection; auto. }
  destruct SH as (k1 & SH). exists k1. intros fuel Hf. destruct (SH fuel Hf) as (out & Hout & A).
  unfold run_tcnc. rewrite Hout. destruct out as [|o1 out]; [inversion A; subst; congruence|].
  pose proof (shapes_geometry (o_tolerance o) (cx_height cx) ss strokes (o1 :: out) Ht F A) as SG.
  match goal with |- context[match svg_to_geometry ?a ?b with _ => _ end] => replace (svg_to_geometry a b) with (Ok (map Path (map lines (List.concat strokes)))) by (symmetry; exact SG) end.
  rewrite Hc. cbn [rbind]. rewrite drawing_lines. reflexivity.
Qed.
(** A drawing of strokes, whatever the tool options make of them. *)
Lemma drawing_job sorter log10 settings today text ct (cx : context ROps) ids (o : options ROps) ss strokes l :
  InkSpec.wf_doc (cx_doc cx) -> PropsInk.readable_doc (cx_doc cx) ->
  drawn_shapes (cx_doc cx) ids ss -> ss <> [] -> Forall2 (shape_strokes (o_tolerance o) (cx_height cx)) ss strokes ->
  o_sort_method o = "none"%string -> o_reload_enable o = false -> usable log10 cx o ->
  (forall c, tolerance c = o_tolerance o ->
     rbind (Preprocess.preprocess_paths (E:=o_tolerance o) (init_prep o) (map (map Preprocess.DSeg) (map stroke (List.concat strokes))))
       (fun l => paint_paths (E:=o_tolerance o) c (init_cam o) (init_brush o) l) = Ok l) ->
  exists k, forall fuel, (k <= fuel)%nat -> exists st,
    run_tcnc fuel sorter log10 settings today text ct cx ids o = File st (Ok tt) /\
    job_program false 1 l (passes (o_z_depth o) (pass_step (o_tolerance o) (o_z_step o) (o_z_depth o))) (trace st).
Proof.
  intros W RD DS NE F PS PR (  (u & Hu) & Hk & Ha & (p & Hp) & Ht & Hd) HP.
  destruct (init_gcode_ok log10 settings cx o u p Hu Hk Ha Hp) as (c & Hc & _ & _ & _ & _ & _ & Htol & _).
  destruct (drawing_strokes sorter log10 settings today text ct cx ids o ss strokes c W RD DS NE F Ht Hc) as (k1 & DR).
  specialize (HP c Htol).
  assert (Hneg : step_of (E:=o_tolerance o) (init_cam o) < 0) by (rewrite init_step; now apply step_negative).
  destruct (job_depths (E:=o_tolerance o) c (init_cam o) Hneg) as (k2 & D). rewrite (init_step (o_tolerance o) o) in D. cbn [init_cam z_depth] in D.
  exists (Nat.max k1 k2). intros fuel Hf. rewrite (DR fuel ltac:(lia)).
  set (ds := passes _ _) in D |- *.
  set (k' := mkcam false None (option_step (o_z_step o) (o_z_depth o)) (o_z_depth o) (negb (o_disable_tangent o)) (o_split_cusps o) 1).
  set (pre := fun _ : list (list (cseg ROps)) => Ok l : res (list (list (cseg ROps)))).
  destruct (job_completes (E:=o_tolerance o) fuel c k' pre today text ct [] [] l ds False (R_self_close c ltac:(rewrite Htol; exact Ht)) eq_refl eq_refl) as (st & J & B).
  - intros n. apply Forall_forall. intros q _ _ [].
  - apply (D fuel). lia.
  - exists st. split.
    + unfold paint_generate.
      assert (Hk' : init_cam o = k') by (unfold init_cam, k'; now rewrite PS).
      rewrite Hk' in HP |- *. cbn [home_when_done path_sort_method z_step z_depth enable_tangent path_split_cusps path_count_start k']. fold k'.
      pose (E0 := o_tolerance o : Epsilon ROps).
      assert (G : generate_gcode (E:=E0) fuel c k' (fun _ => rbind (Ok (map (map Preprocess.DSeg) (map stroke (List.concat strokes))))
                    (fun l => rbind (Preprocess.preprocess_paths (init_prep o) l) (fun l => paint_paths c k' (init_brush o) l)))
                    (fun c => paint_rapid_to_path c k' (init_brush o)) today text ct [] cam_start = (st, Ok tt)).
      { rewrite <- J. unfold paint_rapid_to_path. assert (Hr : reload_enable (init_brush o) = false) by exact PR. rewrite Hr.
        unfold generate_gcode, cbind, lift. cbn [path_sort_method k']. cbn [rbind]. unfold pre.
        match goal with |- context[rbind (Preprocess.preprocess_paths ?a ?b) ?f] => replace (rbind (Preprocess.preprocess_paths a b) f) with (Ok l) by (symmetry; exact HP) end. reflexivity. }
      match goal with |- context[generate_gcode ?a ?b ?c ?d ?e ?f ?g ?h ?i ?j] => replace (generate_gcode a b c d e f g h i j) with (st, Ok tt : res unit) by (symmetry; exact G) end. reflexivity.
    + apply by_aim in B. exact B.
Qed.
Theorem C129_drawing sorter log10 settings today text ct (cx : context ROps) ids (o : options ROps) ss strokes :
  InkSpec.wf_doc (cx_doc cx) -> PropsInk.readable_doc (cx_doc cx) ->
  drawn_shapes (cx_doc cx) ids ss -> ss <> [] -> Forall2 (shape_strokes (o_tolerance o) (cx_height cx)) ss strokes ->
  plain_options o -> usable log10 cx o ->
  exists k, forall fuel, (k <= fuel)%nat -> exists st,
    run_tcnc fuel sorter log10 settings today text ct cx ids o = File st (Ok tt) /\
    let ds := passes (o_z_depth o) (pass_step (o_tolerance o) (o_z_step o) (o_z_depth o)) in
    job_program false 1 (map stroke (List.concat strokes)) ds (trace st) /\
    xy_route (trace st) = List.concat (map (fun _ => List.concat (map visits (List.concat strokes))) ds).
Proof.
  intros W RD DS NE F PO U.
  destruct (drawing_job sorter log10 settings today text ct cx ids o ss strokes (map stroke (List.concat strokes)) W RD DS NE F) as (k & H).
  - apply PO.
  - apply PO.
  - exact U.
  - intros c _. rewrite (plain_preprocess o _ PO). cbn [rbind]. apply (plain_paint o c _ _ PO).
  - exists k. intros fuel Hf. destruct (H fuel Hf) as (st & R0 & J). exists st. split; [exact R0|]. intros ds. split; [exact J|].
    rewrite (job_route _ _ _ _ _ J). cbn [home_when_done]. rewrite app_nil_r. cbn [path_count_start]. now rewrite selected_visits.
Qed.
(** Without anything to draw no file is written. *)
Theorem C129_nothing sorter log10 settings today text ct (cx : context ROps) ids (o : options ROps) :
  InkSpec.wf_doc (cx_doc cx) -> PropsInk.readable_doc (cx_doc cx) -> drawn_shapes (cx_doc cx) ids [] ->
  exists k, forall fuel, (k <= fuel)%nat -> run_tcnc fuel sorter log10 settings today text ct cx ids o = NoFile (Ok tt).
Proof.
  intros W RD DS.
  assert (SH : exists k, forall fuel, (k <= fuel)%nat -> exists out,
    Ink.selected_shapes (N:=ROps) fuel (cx_doc cx) Ink.DEFAULT_SHAPES [is_tcnc] ids = Ok out /\ Forall2 PropsInk.answer [] out).
  { destruct DS as [(-> & S & f & ps & A & H & Q)|(NI & H)].
    - rewrite Q. apply PropsInk.C124_shapes; auto. constructor.
    - apply PropsInk.C124_selection; auto. }
  destruct SH as (k & SH). exists k. intros fuel Hf. destruct (SH fuel Hf) as (out & Hout & A). inversion A; subst.
  unfold run_tcnc. rewrite Hout. reflexivity.
Qed.

(** A rectangle in a scaled group, on a page of height 100. *)
Definition doc_rect := PropsInk.elem 3 "rect" [("x", "1"); ("y", "1"); ("width", "2"); ("height", "2")]%string [].
Definition doc_group := PropsInk.elem 2 "g" [("transform", "scale(2)")]%string [doc_rect].
Definition doc_svg := PropsInk.elem 1 "svg" [] [doc_group].
Definition doc_place := SvgDocSpec.acts_all [SvgDocSpec.XScale PropsSvg.n2 None].
Definition example_options : options ROps :=
  mkopts (N:=ROps) (1/1000) (L "in") 10 10 60 1 "" 0 false (-3) 1 1 false 0 0 "" 0 0 true "none" 1 4 1
    false false false false false 0 false false "" 0 "" 0 false 0 0.
Lemma rect_picture : InkSpec.pictures doc_svg Ink.DEFAULT_SHAPES (PropsInk.matches [is_tcnc]) [doc_group; doc_svg] doc_rect (InkSpec.Draw doc_rect (SvgDocSpec.acts_all [])).
Proof.
  apply (InkSpec.p_shape _ _ _ _ doc_rect [] (L "rect")).
  - split; [apply PropsInk.plain_shown; PropsInk.lacking|]. intros Q. exfalso. revert Q. apply PropsInk.plain_inherit; PropsInk.lacking.
  - unfold InkSpec.element. cbn. intuition discriminate.
  - unfold InkSpec.element. cbn. intuition discriminate.
  - left. split; [PropsInk.lacking|reflexivity].
  - split; [cbn; intuition discriminate|]. left. reflexivity.
  - cbn. tauto.
Qed.
Example C129_example : exists ss strokes,
  InkSpec.wf_doc doc_svg /\ PropsInk.readable_doc doc_svg /\ drawn_shapes doc_svg [] ss /\ ss <> [] /\
  Forall2 (shape_strokes (1/1000) 100) ss strokes /\ plain_options example_options /\
  (forall w, usable (fun _ => Ok 3%Z) (Ctx doc_svg w (1:ROps) (100:ROps) (100:ROps) (L "mm")) example_options) /\
  List.concat strokes = [[P 2 98; P 2 94; P 6 94; P 6 98; P 2 98]] /\ passes (-3) (pass_step (1/1000) 1 (-3)) = [-1; -2; -3].
Proof.
  set (f := InkSpec.within (fun p => p) (SvgDocSpec.acts_all [])).
  set (ps := [InkSpec.Group doc_place [InkSpec.Draw doc_rect (SvgDocSpec.acts_all [])]]).
  exists (flat_map (InkSpec.shapes true f) ps), [[[P 2 98; P 2 94; P 6 94; P 6 98; P 2 98]]].
  assert (V1 : numeral_value (N:=ROps) PropsSvg.n1 = 1) by (unfold numeral_value; cbn; lra).
  assert (V2 : numeral_value (N:=ROps) PropsSvg.n2 = 2) by (unfold numeral_value; cbn; lra).
  split; [|split; [|split; [|split; [|split; [|split; [|split; [|split]]]]]]].
  - split.
    + intros ups n A. PropsInk.nodes A; unfold InkSpec.proper; cbn; repeat constructor; cbn; intuition discriminate.
    + intros u1 n1 u2 n2 id A B Ha Hb. PropsInk.nodes A; PropsInk.nodes B; unfold InkSpec.has in *; cbn in Ha, Hb; auto; exfalso; intuition discriminate.
  - intros ups n A. PropsInk.nodes A; apply PropsInk.plain_style; PropsInk.lacking.
  - left. split; [reflexivity|]. split; [constructor; [|constructor]; apply PropsInk.plain_shown; PropsInk.lacking|].
    exists f, ps. split; [|split; [|reflexivity]].
    + apply InkSpec.ap_cons; [|constructor]. left. split; [PropsInk.lacking|reflexivity].
    + constructor; [|constructor]. apply InkSpec.p_group.
      * split; [apply PropsInk.plain_shown; PropsInk.lacking|]. intros Q. exfalso. revert Q. apply PropsInk.plain_inherit; PropsInk.lacking.
      * left. reflexivity.
      * intros (name & H1 & _). cbn in H1. intuition discriminate.
      * right. exists (L "scale(2)"). split; [left; reflexivity|]. split; [repeat constructor; cbn; discriminate|]. apply (PropsInk.scale_text PropsSvg.n2). split; [cbn; discriminate|exact Logic.I].
      * constructor; [apply rect_picture|constructor].
  - discriminate.
  - constructor; [|constructor].
    exists (Elem (L "rect") [(L "x", L "1"); (L "y", L "1"); (L "width", L "2"); (L "height", L "2")]),
      [[P 1 1; P 1 (1 + 2); P (1 + 2) (1 + 2); P (1 + 2) 1; P 1 1]], [[P 1 1; P 1 (1 + 2); P (1 + 2) (1 + 2); P (1 + 2) 1; P 1 1]].
    split; [split; reflexivity|]. split; [repeat constructor; cbn; intuition discriminate|]. split; [|split].
    + apply ol_rect; [left; reflexivity| | | |]; right.
      * exists PropsSvg.n1, [], []. split; [split; [cbn; discriminate|exact Logic.I]|]. split; [constructor|]. split; [constructor|]. split; [cbn; tauto|now rewrite V1].
      * exists PropsSvg.n1, [], []. split; [split; [cbn; discriminate|exact Logic.I]|]. split; [constructor|]. split; [constructor|]. split; [cbn; tauto|now rewrite V1].
      * exists PropsSvg.n2, [], []. split; [split; [cbn; discriminate|exact Logic.I]|]. split; [constructor|]. split; [constructor|]. split; [cbn; tauto|now rewrite V2].
      * exists PropsSvg.n2, [], []. split; [split; [cbn; discriminate|exact Logic.I]|]. split; [constructor|]. split; [constructor|]. split; [cbn; tauto|now rewrite V2].
    + constructor; [|constructor].
      repeat (apply td_step; [match goal with |- _ <= euclid ?a ?b => rewrite (euclid_unique a b 2); [lra|lra|cbn; ring] end|]). apply td_one.
    + cbn [InkSpec.shapes flat_map app snd map]. unfold InkSpec.placed, f, doc_place, InkSpec.within, SvgDocSpec.acts_all, on_machine. cbn [px py fold_right SvgDocSpec.acts fst snd].
      assert (W2 : SvgDocSpec.value PropsSvg.n2 = 2) by (unfold SvgDocSpec.value; cbn; lra). rewrite ?W2. repeat f_equal; lra.
  - repeat split; discriminate.
  - intros w. split; [exists SvgDocSpec.Inch; now constructor|]. cbn. split; [lra|]. split; [discriminate|]. split; [now exists 3%Z|]. split; lra.
  - reflexivity.
  - assert (S1 : pass_step (1 / 1000) 1 (-3) = -1).
    { unfold pass_step. rewrite Rabs_R1, Rmax_left by lra. rewrite Rabs_left by lra. destruct (Rlt_dec _ _); lra. }
    rewrite S1. unfold passes. destruct (Rlt_dec 0 (-3)); [lra|]. destruct (Rlt_dec (-1) (-3)); [lra|].
    assert (F : Zfloor (-3 / -1) = 3%Z) by (apply Zfloor_unique; lra). rewrite F. change (map (fun i => INR (S i) * -1) (seq 0 3) = [-1; -2; -3]). cbn [seq map].
    replace (INR 1 * -1) with (-1) by (cbn; ring). replace (INR 2 * -1) with (-2) by (cbn; ring). replace (INR 3 * -1) with (-3) by (cbn; ring). reflexivity.
Qed.
