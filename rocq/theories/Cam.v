(** * Cam: model of tcnc/cam/simplecam.py, tcnc/cam/paintcam.py, tcnc/cam/util.py
      and the Z options of tcnc/tcnc.py.

    The CAM object drives a GCode object ([Gcode.v]).  Every call it makes on the
    GCode object is executed by [Gcode.exec] and also recorded, in order, in the
    ghost field [trace].  The text of the "Path: ..." comment ('%g' formatting) is a
    parameter.  Logging and debug SVG output are not modelled. *)
From Coq Require Import String ZArith NArith List Bool.
From Verif Require Import Num Gcode Geom.
Import ListNotations.
Local Open Scope string_scope.

(** A path segment (geom.Line or geom.Arc) with the attributes that the CAM code
    attaches to it: inline_z, inline_start_angle, inline_end_angle,
    inline_ignore_a (util.py 43-68, simplecam.py 496-498), ignore_g1
    (fillet.py 94) and g1 (offset.py 90). *)
Record cseg (N : NumOps) := mkseg {
  geo : @seg N;
  inline_z : option N;
  inline_sa : option N;
  inline_ea : option N;
  inline_ignore_a : bool;
  ignore_g1 : bool;
  g1 : bool
}.
Arguments mkseg {N}. Arguments geo {N}. Arguments inline_z {N}. Arguments inline_sa {N}.
Arguments inline_ea {N}. Arguments inline_ignore_a {N}. Arguments ignore_g1 {N}. Arguments g1 {N}.

(** The CAM properties used here (simplecam.py 65-126). *)
Record cam (N : NumOps) := mkcam {
  home_when_done : bool;
  path_sort_method : option string;
  z_step : N;
  z_depth : N;
  enable_tangent : bool;
  path_split_cusps : bool;
  path_count_start : Z
}.
Arguments mkcam {N}. Arguments home_when_done {N}. Arguments path_sort_method {N}.
Arguments z_step {N}. Arguments z_depth {N}. Arguments enable_tangent {N}.
Arguments path_split_cusps {N}. Arguments path_count_start {N}.

(** The brush properties of PaintCAM (paintcam.py 24-53) and the two inherited
    tool dimensions it reads. *)
Record brush (N : NumOps) := mkbrush {
  overshoot_enable : bool; overshoot_auto : bool; overshoot_distance : N;
  soft_landing : bool; landing_strip : N;
  reload_enable : bool;
  tool_width : N; tool_trail_offset : N
}.
Arguments mkbrush {N}. Arguments overshoot_enable {N}. Arguments overshoot_auto {N}.
Arguments overshoot_distance {N}. Arguments soft_landing {N}. Arguments landing_strip {N}.
Arguments reload_enable {N}. Arguments tool_width {N}. Arguments tool_trail_offset {N}.

(** The running job: the GCode object's state, the calls made on it (ghost),
    self.current_angle and self.feed_distance. *)
Record cstate (N : NumOps) := mkcs {
  gs : state N;
  trace : list (@op N);
  current_angle : N;
  feed_distance : N
}.
Arguments mkcs {N}. Arguments gs {N}. Arguments trace {N}. Arguments current_angle {N}.
Arguments feed_distance {N}.

Section Cam.
  Context {N : NumOps} {E : Epsilon N}.
  Local Open Scope num_scope.

  Notation path := (list (cseg N)).

  (** A fresh Line/Arc object has no hints. *)
  Definition plain (s : @seg N) : cseg N := mkseg s None None None false false false.
  Definition c_p1 (s : cseg N) : pt N := s_p1 (geo s).
  Definition c_p2 (s : cseg N) : pt N := s_p2 (geo s).

  (** ** util.py *)
  (** seg_start_angle / seg_end_angle (lines 57-68). *)
  Definition seg_start_angle (s : cseg N) : N := dflt (s_start_tangent (geo s)) (inline_sa s).
  Definition seg_end_angle (s : cseg N) : N := dflt (s_end_tangent (geo s)) (inline_ea s).

  (** split_path_g1 (lines 19-43): the loop body, and the whole; path[0] of an
      empty path raises IndexError. *)
  Definition cut_here (s1 s2 : cseg N) : bool :=
    negb (feq (s_end_tangent (geo s1)) (s_start_tangent (geo s2))) || ignore_g1 s1 || ignore_g1 s2.
  Fixpoint split_loop (path_list : list path) (new_path : path) (seg1 : cseg N) (rest : path) : list path :=
    match rest with
    | [] => (path_list ++ [new_path ++ [seg1]])%list
    | seg2 :: r =>
        let np := (new_path ++ [seg1])%list in
        if cut_here seg1 seg2 then split_loop (path_list ++ [np])%list [] seg2 r
        else split_loop path_list np seg2 r
    end.
  Definition split_path_g1 (p : path) : res (list path) :=
    match p with [] => Raise IndexError | s :: r => Ok (split_loop [] [] s r) end.

  (** ** simplecam.py: sorting *)
  (** list.sort: a stable sort with respect to '<' on the keys; reverse=True keeps
      stability (CPython reverses, sorts, reverses).  The keys of an empty path
      (cp[0]) raise IndexError. *)
  Fixpoint insert_by (lt : path -> path -> bool) (x : path) (l : list path) : list path :=
    match l with
    | [] => [x]
    | y :: r => if lt y x then y :: insert_by lt x r else x :: y :: r
    end.
  Definition sort_by (lt : path -> path -> bool) (l : list path) : list path :=
    fold_right (insert_by lt) [] l.
  Definition sort_rev (lt : path -> path -> bool) (l : list path) : list path :=
    rev (sort_by lt (rev l)).
  Definition no_empty (l : list path) : bool := forallb (fun p => match p with [] => false | _ => true end) l.

  (** cp[0].p1; the value for an empty path is irrelevant (see [no_empty]). *)
  Definition first_pt (p : path) : pt N := match p with s :: _ => c_p1 s | [] => P #0 #0 end.
  Definition last_pt (p : path) : pt N := c_p2 (last p (plain (SLine (Ln (P #0 #0) (P #0 #0))))).
  (** Tuple comparison: elementwise, by '<' at the first differing element. *)
  Definition lex_lt (a b a' b' : N) : bool := if a =? a' then b <? b' else a <? a'.
  Definition lt_yx (p q : path) : bool := lex_lt (py (first_pt p)) (px (first_pt p)) (py (first_pt q)) (px (first_pt q)).
  Definition lt_xy (p q : path) : bool := lex_lt (px (first_pt p)) (py (first_pt p)) (px (first_pt q)) (py (first_pt q)).
  Definition lt_x (p q : path) : bool := px (first_pt p) <? px (first_pt q).

  (** _path_reversed (lines 560-565): reversed() builds new segments, so hints are lost. *)
  Definition path_reversed (p : path) : path := map (fun s => plain (s_reversed (geo s))) (rev p).

  (** _flip_paths (lines 546-558).  The list or a path being empty raises IndexError. *)
  Fixpoint flip_loop (endp : pt N) (l : list path) : list path :=
    match l with
    | [] => []
    | p :: r =>
        let d1 := pdist endp (first_pt p) in
        let d2 := pdist endp (last_pt p) in
        let p' := if d2 <? d1 then path_reversed p else p in
        p' :: flip_loop (last_pt p') r
    end.
  Definition flip_paths (l : list path) : res (list path) :=
    match l with
    | [] => Raise IndexError
    | p :: _ => if no_empty l then Ok (flip_loop (last_pt p) l) else Raise IndexError
    end.

  (** _sort_segment_paths_1 (lines 453-480). *)
  Record bands := mkbands { b_new : list path; b_batch : list path; b_band : Z; b_max : N; b_even : bool }.
  Definition second_y (p : path) : N := match p with s :: _ => py (c_p2 s) | [] => #0 end.
  Definition band_step (bandwidth : N) (st : bands) (p : path) : bands :=
    if (py (first_pt p) <=? b_max st) && (second_y p <=? b_max st) then
      mkbands (b_new st) (b_batch st ++ [p])%list (b_band st) (b_max st) (b_even st)
    else
      let even := if Z.eqb (Z.modulo (b_band st) 2) 0 then negb (b_even st) else b_even st in
      let batch := if even then sort_rev lt_x (b_batch st) else sort_by lt_x (b_batch st) in
      mkbands (b_new st ++ batch)%list [p] (b_band st + 1) (b_max st + bandwidth) even.
  Definition sort_segment_paths_1 (l : list path) : res (list path) :=
    match nth_error l (Nat.div (length l) 2) with
    | None => Raise IndexError
    | Some p =>
        if no_empty l then
          let bandwidth := match p with s :: _ => s_length (geo s) * lit 15 (-1) | [] => #0 end in
          let l := sort_by lt_yx l in
          let st := fold_left (band_step bandwidth) l (mkbands [] [] 1 bandwidth false) in
          flip_paths (b_new st)
        else Raise IndexError
    end.

  (** sort_paths (lines 408-451). *)
  Definition keyed (l : list path) (r : list path) : res (list path) :=
    if no_empty l then Ok r else Raise IndexError.
  Definition sort_paths (l : list path) (method : string) : res (list path) :=
    if String.eqb method "flip" then flip_paths l
    else if String.eqb method "optimize" then sort_segment_paths_1 l
    else if String.eqb method "y+" then keyed l (sort_by lt_yx l)
    else if String.eqb method "y-" then keyed l (sort_rev lt_yx l)
    else if String.eqb method "x+" then keyed l (sort_by lt_xy l)
    else if String.eqb method "x-" then keyed l (sort_rev lt_xy l)
    else Ok l.

  (** ** simplecam.py: preprocessing *)
  (** preprocess_paths (lines 199-328) and path_biarc_approximation (330-361) for
      paths of lines and arcs, with path_tool_fillet, path_tool_offset and
      path_smooth_fillet off: only the cusp splitting is left.
      SIMPLIFICATION: the other stages (fillet.py, offset.py, Bezier conversion) are
      not composed here; the theorems about jobs quantify over every preprocessing
      function. *)
  Fixpoint preprocess (k : cam N) (l : list path) : res (list path) :=
    match l with
    | [] => Ok []
    | p :: r =>
        (do ps <- (if path_split_cusps k then split_path_g1 p else Ok [p]);
         do rs <- preprocess k r; Ok (ps ++ rs)%list)%res
    end.

  (** ** The job as a program on the GCode object *)
  Definition CM (A : Type) := cstate N -> cstate N * res A.
  Definition cret {A} (a : A) : CM A := fun s => (s, Ok a).
  Definition craise {A} (e : exn) : CM A := fun s => (s, Raise e).
  Definition cbind {A B} (m : CM A) (f : A -> CM B) : CM B :=
    fun s => match m s with (s', Ok a) => f a s' | (s', Raise e) => (s', Raise e) end.
  Definition cseq (m m' : CM unit) : CM unit := cbind m (fun _ => m').
  Definition cwhen (b : bool) (m : CM unit) : CM unit := if b then m else cret tt.

  (** A call on the GCode object. *)
  Definition call (c : config N) (o : @op N) : CM unit := fun s =>
    let '(g, r) := exec c o (gs s) in
    (mkcs g (trace s ++ [o])%list (current_angle s) (feed_distance s), r).
  Definition get_angle : CM N := fun s => (s, Ok (current_angle s)).
  Definition set_angle (a : N) : CM unit := fun s => (mkcs (gs s) (trace s) a (feed_distance s), Ok tt).
  Definition add_distance (d : N) : CM unit := fun s =>
    (mkcs (gs s) (trace s) (current_angle s) (feed_distance s + d), Ok tt).
  (** get_current_position_xy (gcode.py 757-765); None - float raises TypeError. *)
  Definition get_xy : CM (pt N) := fun s =>
    match vX (last_val (gs s)), vY (last_val (gs s)) with
    | Some x, Some y => (s, Ok (P x y))
    | _, _ => (s, Raise TypeError)
    end.

  Local Notation "m ;;; m'" := (cseq m m') (at level 61, right associativity).
  Local Notation "'get' x <- a ; b" := (cbind a (fun x => b)) (at level 200, x pattern, a at level 100, b at level 200).

  (** plunge (lines 371-382) *)
  Definition plunge (c : config N) (depth : N) (p : path) : CM unit :=
    match p with
    | [] => craise IndexError
    | s :: _ => call c (OToolDown (match inline_z s with Some _ => #0 | None => depth end) None None None)
    end.

  (** generate_rapid_move (lines 396-406); PaintCAM.generate_rapid_move (paintcam.py
      75-94) reads the attribute self._path_count, which nothing defines. *)
  Definition rapid_to_path (c : config N) (k : cam N) (p : path) : CM unit :=
    match p with
    | [] => craise IndexError
    | s :: _ =>
        (if enable_tangent k then
           get a <- get_angle; set_angle (a + calc_rotation a (seg_start_angle s))
         else cret tt) ;;;
        (get a <- get_angle;
         call c (ORapid (Some (px (c_p1 s))) (Some (py (c_p1 s))) None (Some a) None))
    end.
  Definition paint_rapid_to_path (c : config N) (k : cam N) (b : brush N) (p : path) : CM unit :=
    if reload_enable b then craise AttributeError else rapid_to_path c k p.

  (** generate_segment_gcode (lines 490-536) *)
  Definition segment_gcode (c : config N) (k : cam N) (s : cseg N) (depth : N) : CM unit :=
    add_distance (s_length (geo s)) ;;;
    (let depth := dflt depth (inline_z s) in
     get end_angle <-
       (if inline_ignore_a s || negb (enable_tangent k) then get_angle
        else
          get a <- get_angle;
          let rotation := calc_rotation a (seg_start_angle s) in
          get _ <- (if is_zero rotation then cret tt
                    else set_angle (a + rotation) ;;;
                         call c (OFeed None None None (Some (a + rotation)) None None));
          get a <- get_angle;
          cret (a + calc_rotation a (seg_end_angle s)));
     (match geo s with
      | SLine l => call c (OFeed (Some (px (p2 l))) (Some (py (p2 l))) (Some depth) (Some end_angle) None None)
      | SArc a =>
          get xy <- get_xy;
          let r := pdist (center a) xy in
          if negb (feq r (radius a)) then
            call c (OFeed (Some (px (ap2 a))) (Some (py (ap2 a))) (Some depth) (Some end_angle) None None)
          else
            let arcv := psub (center a) (ap1 a) in
            call c (OArc (is_clockwise a) (px (ap2 a)) (py (ap2 a)) (px arcv) (py arcv)
                         (Some end_angle) (Some depth) None None)
      end) ;;;
     set_angle end_angle).

  Fixpoint segments_gcode (c : config N) (k : cam N) (p : path) (depth : N) : CM unit :=
    match p with
    | [] => cret tt
    | s :: r => segment_gcode c k s depth ;;; segments_gcode c k r depth
    end.

  (** One path of one pass (lines 164-177). *)
  Definition cut_path (c : config N) (k : cam N) (rapid : path -> CM unit) (text : string)
             (p : path) (depth : N) : CM unit :=
    call c (OComment CNone false) ;;;
    call c (OComment (CStr text) false) ;;;
    rapid p ;;;
    plunge c depth p ;;;
    call c (OComment (CStr "Start tool path") false) ;;;
    segments_gcode c k p depth.

  (** One pass over the paths (lines 159-177); [i] is path_count. *)
  Fixpoint one_pass (c : config N) (k : cam N) (rapid : path -> CM unit) (text : Z -> Z -> N -> string)
           (i pass : Z) (depth : N) (l : list path) : CM unit :=
    match l with
    | [] => cret tt
    | p :: r =>
        (if negb (match p with [] => true | _ => false end) && Z.leb (path_count_start k) i
         then cut_path c k rapid (text i pass depth) p depth else cret tt) ;;;
        one_pass c k rapid text (i + 1) pass depth r
    end.

  (** The step between passes (lines 185-190). *)
  Definition next_depth (c : config N) (step zd depth : N) : N :=
    let rdist := abs (zd - depth) in
    if (rdist >? tolerance c) && (rdist <? step) then zd else depth + step.

  (** The depth loop (lines 157-191).  [fuel] bounds the number of passes; OutOfFuel
      is not a Python outcome: a loop that runs out for every fuel never ends. *)
  Fixpoint depth_loop (fuel : nat) (c : config N) (k : cam N) (rapid : path -> CM unit)
           (text : Z -> Z -> N -> string) (l : list path) (step zd : N) (pass : Z) (depth : N) : CM unit :=
    if depth >=? zd then
      match fuel with
      | O => craise OutOfFuel
      | S f => one_pass c k rapid text 1 pass depth l ;;;
               depth_loop f c k rapid text l step zd (pass + 1) (next_depth c step zd depth)
      end
    else cret tt.

  (** generate_header (lines 363-369): the header comments grow by two lines. *)
  Definition job_config (c : config N) (n : nat) (count_text : nat -> string) : config N :=
    match configure (SHeaderComment (CList [Some ""; Some (count_text n)])) c with
    | Ok c' => c' | Raise _ => c
    end.

  (** The effective step (lines 137-138) and the first depth (lines 153-156). *)
  Definition eff_step (k : cam N) : N := if is_zero (z_step k) then z_depth k else z_step k.
  Definition first_depth (k : cam N) : N :=
    if (z_depth k >? #0) || (eff_step k <? z_depth k) then z_depth k else eff_step k.

  (** generate_gcode (lines 128-197).  [pre] is the preprocess_paths method, [rapid]
      the generate_rapid_move method, [today]/[text]/[count_text] the clock and the
      comment texts. *)
  Definition lift {A} (r : res A) : CM A := fun s => (s, r).
  Definition generate_gcode (fuel : nat) (c : config N) (k : cam N)
             (pre : list path -> res (list path)) (rapid : config N -> path -> CM unit)
             (today : string) (text : Z -> Z -> N -> string) (count_text : nat -> string)
             (path_list : list path) : CM unit :=
    get l <- lift (match path_sort_method k with
                   | None => Ok path_list
                   | Some m => sort_paths path_list m
                   end);
    get l <- lift (pre l);
    let c := job_config c (length l) count_text in
    call c (OHeader today None) ;;;
    call c (OToolUp true None None) ;;;
    depth_loop fuel c k (rapid c) text l (eff_step k) (z_depth k) 1 (first_depth k) ;;;
    call c (OToolUp true None None) ;;;
    cwhen (home_when_done k) (call c (ORapid (Some #0) (Some #0) None (Some #0) None)) ;;;
    call c OFooter.

  (** A new CAM on a new GCode (simplecam.py 56-126, gcode.py 117-232). *)
  Definition cam_start : cstate N := mkcs init [] #0 #0.

  (** SimpleCAM.generate_gcode. *)
  Definition simple_job fuel c k today text count_text l : cstate N * res unit :=
    generate_gcode fuel c k (preprocess k) (fun c => rapid_to_path c k) today text count_text l cam_start.

  (** flip_tool (lines 538-544): self.gc.axis_offset does not exist. *)
  Definition flip_tool : CM unit := craise AttributeError.

  (** The command line (tcnc.py 333-334): z_step = max(-|step|, z_depth). *)
  Definition option_step (step zd : N) : N := pymax (- abs step) zd.

  (** ** paintcam.py *)
  (** process_brush_path (lines 96-147). *)
  Definition set_ea (s : cseg N) (a : option N) : cseg N :=
    mkseg (geo s) (inline_z s) (inline_sa s) a (inline_ignore_a s) (ignore_g1 s) (g1 s).
  Definition set_z (s : cseg N) (z : N) : cseg N :=
    mkseg (geo s) (Some z) (inline_sa s) (inline_ea s) (inline_ignore_a s) (ignore_g1 s) (g1 s).
  Definition lead_in (dist angle : N) (first : cseg N) : cseg N :=
    let delta := from_polar dist (angle + pi) in
    set_ea (plain (SLine (Ln (padd (c_p1 first) delta) (c_p1 first)))) (inline_sa first).
  Definition process_brush_path (c : config N) (k : cam N) (b : brush N) (p : path) : res path :=
    match p with
    | [] => Raise IndexError
    | s0 :: _ =>
        let start_angle := seg_start_angle s0 in
        let p1 := if landing_strip b >? tolerance c
                  then lead_in (landing_strip b) start_angle s0 :: p else p in
        let p2 := match p1 with
                  | s1 :: _ =>
                      if soft_landing b && (tool_trail_offset b >? tolerance c)
                      then set_z (lead_in (tool_trail_offset b) start_angle s1) (eff_step k) :: p1
                      else p1
                  | [] => p1
                  end in
        if overshoot_enable b then
          let od := if overshoot_auto b then tool_width b / #2 else overshoot_distance b in
          let sl := last p2 s0 in
          let dir := seg_end_angle sl in
          let oe := if od >? tolerance c then Some (padd (c_p2 sl) (from_polar od dir)) else None in
          let p3 := match oe with Some e => (p2 ++ [plain (SLine (Ln (c_p2 sl) e))])%list | None => p2 end in
          if soft_landing b && (tool_trail_offset b >? tolerance c) then
            match oe with
            | None => Raise UnboundLocalError
            | Some e => Ok (p3 ++ [set_z (plain (SLine (Ln e (padd e (from_polar (tool_trail_offset b) dir))))) #0])%list
            end
          else Ok p3
        else Ok p2
    end.
  (** preprocess_paths (lines 55-73), on the preprocessed list of SimpleCAM. *)
  Fixpoint paint_paths (c : config N) (k : cam N) (b : brush N) (l : list path) : res (list path) :=
    match l with
    | [] => Ok []
    | p :: r =>
        (do p' <- (if overshoot_enable b || soft_landing b then process_brush_path c k b p else Ok p);
         do r' <- paint_paths c k b r; Ok (p' :: r'))%res
    end.
  (** PaintCAM.generate_gcode. *)
  Definition paint_job fuel c k b today text count_text l : cstate N * res unit :=
    generate_gcode fuel c k (fun l => (do l' <- preprocess k l; paint_paths c k b l')%res)
      (fun c => paint_rapid_to_path c k b) today text count_text l cam_start.
End Cam.
