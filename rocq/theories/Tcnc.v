(** * Tcnc: model of tcnc/tcnc.py, of the option types of tcnc/inkscape/inkext.py and of the set-up of an Inkscape
      SVG context (tcnc/svg/svg.py 127-187, tcnc/inkscape/inksvg.py 66-88, 123-128).

    Simplifications: optparse itself (a library) is not modelled, only the type checkers and the processing of the
    values; math.log is a parameter; the text of the settings in the header is a parameter; the preview drawn by
    the plotter (gcodesvg.py), the debug layer, the log and the timer are left out; the output file can be opened. *)
From Coq Require Import String Ascii ZArith NArith List Bool.
From Verif Require Import Num Str Gcode Geom Bezier Ellipse Cam Offset Fillet Preprocess Svg SvgDoc GeomSvg Ink.
Import ListNotations.

(** ** inkext.py *)
(** [str.upper] on one character *)
Definition up (c : ascii) : ascii :=
  let n := nat_of_ascii c in if Nat.leb 97 n && Nat.leb n 122 then ascii_of_nat (n - 32) else c.
(** 31-41: [_check_inkbool]; [Raise ValueError] stands for OptionValueError *)
Definition check_inkbool (value : pystr) : res bool :=
  let s := map up value in
  if existsb (str_eqb s) (map L ["TRUE"; "T"; "YES"; "Y"]%string) then Ok true
  else if existsb (str_eqb s) (map L ["FALSE"; "F"; "NO"; "N"]%string) then Ok false
  else Raise ValueError.

Section Tcnc.
  Context {N : NumOps}.
  Local Open Scope num_scope.
  Local Open Scope res_scope.

  (** [float(value)]: blanks around the numeral are dropped *)
  Definition float_of (value : pystr) : res N := py_float (strip value).
  (** 44-51: [_check_degrees] (every exception becomes OptionValueError) *)
  Definition check_degrees (value : pystr) : res N :=
    match float_of value with Ok x => Ok (radians x) | Raise _ => Raise ValueError end.
  (** 54-60: [_check_percent] *)
  Definition check_percent (value : pystr) : res N :=
    match float_of value with Ok x => Ok (x / #100) | Raise _ => Raise ValueError end.

  (** ** The SVG context *)
  Record context := Ctx { cx_doc : xml; cx_units : units N; cx_scale : N; cx_width : N; cx_height : N; cx_doc_units : pystr }.
  (** [re.compile('[,\s\t]+').split(s)]: a separator at an end gives an empty field *)
  Fixpoint split_sep (w : pystr) (in_sep : bool) (s : pystr) : list pystr :=
    match s with
    | [] => [w]
    | c :: r =>
        if is_ws c || Ascii.eqb c "," then
          if in_sep then split_sep w true r else w :: split_sep [] true r
        else split_sep (w ++ [c]) false r
    end.
  (** inksvg.py 71: the first sodipodi:namedview element *)
  Definition NAMEDVIEW : string := "{http://sodipodi.sourceforge.net/DTD/sodipodi-0.dtd}namedview".
  Definition INK_UNITS : string := "{http://www.inkscape.org/namespaces/inkscape}document-units".
  Definition find_namedview (doc : xml) : option xml :=
    option_map snd (find (fun c => tag_is (snd c) NAMEDVIEW) (walk [] doc)).
  (** svg.py 127-187 and inksvg.py 66-83 *)
  Definition text_value (o : option pystr) : uvalue N := match o with Some s => VStr s | None => VNone end.
  Definition make_context (doc : xml) : res context :=
    let u := Units (lit 125 (-1)) (lit 125 (-1)) in
    do w <- unit_convert u (text_value (x_get doc "width")) (L "px") (L "px");
    do h <- unit_convert u (text_value (x_get doc "height")) (L "px") (L "px");
    do vb <- match x_get doc "viewBox" with
             | Some s => rmap Some (mapr float_of (split_sep [] false s))
             | None => Ok None
             end;
    do k <- view_scale (lit 1 (-5)) w h vb;
    let vb := match vb with Some l => l | None => [#0; #0; w; h] end in
    do x0 <- nth_res vb 0; do y0 <- nth_res vb 1; do x1 <- nth_res vb 2; do y1 <- nth_res vb 3;
    match find_namedview doc with
    | None => Raise AttributeError
    | Some base =>
        let old := match x_get base "units" with Some s => s | None => L "px" end in
        Ok (Ctx doc u k (x1 - x0) (y1 - y0) (match x_get base INK_UNITS with Some s => s | None => old end))
    end.

  (** inkext.py 268-285: one value of an option of type docunits that was given on the command line (247-251: the
      number is read by [float]); a document unit that is None or '' counts as px *)
  Definition docunits_option (cx : option context) (doc_units : pystr) (value : pystr) : res N :=
    do v <- float_of value;
    let doc_units := match doc_units with [] => L "px" | _ => doc_units end in
    match cx with
    | None => Raise AttributeError
    | Some cx => unit2uu (cx_units cx) (cx_scale cx) (VNum v) doc_units
    end.

  (** The value of an option: [default] if it is not on the command line (optparse takes a default that is not a text
      as it is, and 268-285 converts only options that were given), otherwise the text given, read by its type.
      OptionValueError is [Raise ValueError]. *)
  Inductive option_type := TFloat | TDegrees | TDocunits.
  Definition option_value (cx : option context) (doc_units : pystr) (t : option_type) (default : N) (given : option pystr) : res N :=
    match given with
    | None => Ok default
    | Some v =>
        match t with
        | TFloat => match float_of v with Ok x => Ok x | Raise _ => Raise ValueError end
        | TDegrees => check_degrees v
        | TDocunits => docunits_option cx doc_units v
        end
    end.

  (** ** tcnc.py *)
  (** The options read by the program (51-193), after processing. *)
  Record options := mkopts {
    o_tolerance : N; o_gcode_units : pystr;
    o_xy_feed : N; o_z_feed : N; o_a_feed : N; o_z_safe : N;
    o_blend_mode : string; o_blend_tolerance : N;
    o_disable_tangent : bool; o_z_depth : N; o_z_step : N;
    o_tool_width : N; o_a_feed_match : bool; o_trail_offset : N;
    o_tool_wait : N;
    o_spindle_mode : string; o_spindle_speed : N; o_spindle_wait_on : N; o_spindle_clockwise : bool;
    o_sort_method : string; o_biarc_tolerance : N; o_biarc_max_depth : nat; o_line_flatness : N;
    o_tool_fillet : bool; o_tool_offset : bool; o_preserve_g1 : bool; o_close_polygons : bool;
    o_smooth_fillet : bool; o_smooth_radius : N; o_split_cusps : bool;
    o_reload_enable : bool; o_pause_mode : string; o_reload_dwell : N;
    o_overshoot_mode : string; o_overshoot_distance : N; o_soft_landing : bool; o_landing_strip : N;
    o_skip_path_count : Z
  }.

  (** 197-199, 289-304: the units of the program; [Raise NameError] stands for the plain Exception at 302 *)
  Definition IMPERIAL_UNITS : list pystr := map L ["in"; "ft"; "yd"; "pc"; "pt"; "px"]%string.
  Definition METRIC_UNITS : list pystr := map L ["mm"; "cm"; "m"; "km"]%string.
  Definition gcode_units (units doc_units : pystr) : res pystr :=
    if str_eqb units (L "doc") then
      if negb (str_eqb doc_units (L "in")) && negb (str_eqb doc_units (L "mm")) then
        if existsb (str_eqb doc_units) IMPERIAL_UNITS then Ok (L "in")
        else if existsb (str_eqb doc_units) METRIC_UNITS then Ok (L "mm")
        else Raise NameError
      else Ok doc_units
    else Ok units.

  (** 244-325: [_init_gcode].  [log10 t] is round(abs(math.log(t, 10))), ValueError for t <= 0; [settings]: the header
      comments that list the options. *)
  Definition a_feed_of (o : options) : res N :=
    if o_a_feed_match o then do q <- pydiv (o_xy_feed o) (o_tool_width o); Ok (degrees (q / #2)) else Ok (o_a_feed o).
  Definition set_machine (o : options) (c : config N) : config N :=
    let '(mkcfg xyf zf af zs us tl atl twd twu atu atd swo swf scw ssp sau wr sc sln hc bm bt bq gu nd asc aof am) := c in
    mkcfg xyf zf af zs us tl atl (o_tool_wait o) (o_tool_wait o) atu atd (o_spindle_wait_on o * #1000) swf
      (o_spindle_clockwise o) (o_spindle_speed o) (String.eqb (o_spindle_mode o) "path") wr sc sln hc bm bt bq gu nd asc aof am.
  Definition init_gcode (log10 : N -> res Z) (settings : list comment_arg) (cx : context) (o : options) : res (config N) :=
    do af <- a_feed_of o;
    let c := default_config (o_xy_feed o) (o_z_safe o) (Some (o_z_feed o)) (Some af) in
    do c <- fold_left (fun c a => do c <- c; configure (SHeaderComment a) c) settings (Ok c);
    do u <- gcode_units (o_gcode_units o) (cx_doc_units cx);
    do k <- uu2unit (cx_units cx) (cx_scale cx) (VStr (L "1.0")) u;
    do c <- configure (SSetUnits (string_of_list_ascii u) k) c;
    do c <- configure (STolerance (o_tolerance o) None) c;
    do p <- log10 (o_tolerance o);
    do c <- configure (SPrecision (Z.max 0 p)) c;
    do c <- (if nonempty (o_blend_mode o) then configure (SBlend (o_blend_mode o) (Some (o_blend_tolerance o)) None) c else Ok c);
    Ok (set_machine o c).

  (** 327-385: [_init_cam], in the parts of the CAM model.  path_count_start and home_when_done keep their defaults;
      skip_path_count is stored in an attribute that nothing reads. *)
  Definition init_cam (o : options) : cam N :=
    mkcam false (if String.eqb (o_sort_method o) "none" then None else Some (o_sort_method o))
      (option_step (o_z_step o) (o_z_depth o)) (o_z_depth o) (negb (o_disable_tangent o)) (o_split_cusps o) 1.
  Definition init_prep (o : options) : prep N :=
    let t := negb (o_disable_tangent o) in
    mkprep (o_biarc_tolerance o) (o_biarc_max_depth o) (o_line_flatness o)
      (o_tool_fillet o && t) (o_tool_width o) (o_close_polygons o && t) (o_split_cusps o)
      (o_tool_offset o && t) (o_trail_offset o) (o_preserve_g1 o && t)
      (o_smooth_fillet o) (o_smooth_radius o).
  Definition init_brush (o : options) : brush N :=
    let auto := String.eqb (o_overshoot_mode o) "auto" in
    let manual := String.eqb (o_overshoot_mode o) "manual" in
    mkbrush (auto || manual) auto
      (if auto then o_tool_width o / #2 else if manual then o_overshoot_distance o else #0)
      (o_soft_landing o) (o_landing_strip o) (o_reload_enable o) (o_tool_width o) (o_trail_offset o).
  (** 361-367: brush_reload_pause and brush_reload_dwell are read only while reloading, which always raises (C118_reload_refuted);
      they are left out. *)

  (** The segments handed to the CAM.  A path is a list; iterating over a bare Line gives points. *)
  Definition drawing_seg (g : gseg N) : res (dseg N) :=
    match g with
    | GLine l => Ok (DSeg (plain (SLine l)))
    | GArc a => Ok (DSeg (plain (SArc a)))
    | GCurve b => Ok (DCurve b)
    | GEArc _ => Raise GCodeException
    end.
  Definition drawing_path (p : gpath N) : res (list (dseg N)) :=
    match p with Path l => rmapl drawing_seg l | Bare _ => Raise AttributeError end.

  (** paintcam.PaintCAM(gc).generate_gcode(path_list): simplecam.py 128-197 with preprocess_paths of PaintCAM
      (paintcam.py 55-73) over that of SimpleCAM.  [sorter] is util.sort_paths on such paths. *)
  Definition paint_generate {E : Epsilon N} (fuel : nat) (sorter : list (list (dseg N)) -> string -> res (list (list (dseg N))))
      (c : config N) (k : cam N) (pp : prep N) (b : brush N) (today : string) (text : Z -> Z -> N -> string)
      (count_text : nat -> string) (l : list (list (dseg N))) : cstate N * res unit :=
    generate_gcode fuel c (mkcam (home_when_done k) None (z_step k) (z_depth k) (enable_tangent k) (path_split_cusps k) (path_count_start k))
      (fun _ => do l <- match path_sort_method k with None => Ok l | Some m => sorter l m end;
                do l <- preprocess_paths pp l; paint_paths c k b l)
      (fun c => paint_rapid_to_path c k b) today text count_text [] cam_start.

  (** 'tcnc .*' (220) *)
  Definition is_tcnc (name : pystr) : bool := str_eqb (firstn 5 name) (L "tcnc ").
  Definition as_element (n : xml) : GeomSvg.element := Elem (match x_tag n with Some t => t | None => [] end) (x_attrs n).
  (** What a run leaves behind: no output file, or one written by the CAM in the given final state. *)
  Inductive outcome := NoFile (r : res unit) | File (st : cstate N) (r : res unit).
  (** 203-242: [run] *)
  Definition run_tcnc (fuel : nat) (sorter : list (list (dseg N)) -> string -> res (list (list (dseg N)))) (log10 : N -> res Z)
      (settings : list comment_arg) (today : string) (text : Z -> Z -> N -> string) (count_text : nat -> string)
      (cx : context) (ids : list pystr) (o : options) : outcome :=
    let E : Epsilon N := o_tolerance o in
    let flip := mscale_translate #1 (- #1) #0 (cx_height cx) in
    match selected_shapes fuel (cx_doc cx) DEFAULT_SHAPES [is_tcnc] ids with
    | Raise e => NoFile (Raise e)
    | Ok [] => NoFile (Ok tt)
    | Ok els =>
        match svg_to_geometry (map (fun x => (as_element (fst x), Some (snd x))) els) (Some flip) with
        | Raise e => NoFile (Raise e)
        | Ok paths =>
            match (do c <- init_gcode log10 settings cx o; do l <- rmapl drawing_path paths; Ok (c, l)) with
            | Raise e => File cam_start (Raise e)
            | Ok (c, l) =>
                let '(st, r) := paint_generate fuel sorter c (init_cam o) (init_prep o) (init_brush o) today text count_text l in
                File st r
            end
        end
    end.
End Tcnc.
Arguments context N : clear implicits.
Arguments options N : clear implicits.
Arguments outcome N : clear implicits.
