(** * Gcode: model of tcnc/cam/gcode.py (class GCodeGenerator).

    Line numbers below refer to /repo/tcnc/cam/gcode.py.

    What is simplified: numeric arguments are numbers of an instance of [NumOps]
    (the Python code is duck typed); TARGET is the constant 'linuxcnc'; gettext
    [_] is the identity; the creation date is an argument of [header]; the logger
    calls of feed_arc are omitted; [upper] is ASCII. *)
From Coq Require Import String Ascii ZArith NArith List Bool.
From Verif Require Import Num Str.
Import ListNotations.
Local Open Scope string_scope.

(** ** Parameters (lines 102, 810-813).
    Of the twenty letters of _GCODE_ORDERED_PARAMS only these eight are ever
    stored by gcode_command; the other twelve stay None. *)
Inductive param := PX | PY | PZ | PI | PJ | PR | PA | PF.

Definition param_eqb (a b : param) : bool :=
  match a, b with
  | PX, PX | PY, PY | PZ, PZ | PI, PI | PJ, PJ | PR, PR | PA, PA | PF, PF => true
  | _, _ => false
  end.

Definition letter (p : param) : string :=
  match p with
  | PX => "X" | PY => "Y" | PZ => "Z" | PI => "I" | PJ => "J" | PR => "R" | PA => "A" | PF => "F"
  end.
Definition letter_ascii (p : param) : ascii :=
  match p with
  | PX => "X" | PY => "Y" | PZ => "Z" | PI => "I" | PJ => "J" | PR => "R" | PA => "A" | PF => "F"
  end%char.

Definition param_of (s : string) : option param :=
  find (fun p => String.eqb (letter p) s) [PX; PY; PZ; PI; PJ; PR; PA; PF].

(** Order of processing (line 829) and order of output (_GCODE_ORDERED_PARAMS,
    line 102, restricted to the eight letters). *)
Definition scan_order : list param := [PX; PY; PZ; PI; PJ; PR; PA; PF].
Definition out_order : list param := [PX; PY; PZ; PA; PI; PJ; PR; PF].
(** All twenty parameter letters (line 102). *)
Definition ordered_params : string := "XYZUVWABCIJKRDHLPQSF".

(** A finite map from [param] (Python dicts _last_val, _axis_scale, ...). *)
Record pmap (A : Type) := mkp
  { vX : option A; vY : option A; vZ : option A; vI : option A;
    vJ : option A; vR : option A; vA : option A; vF : option A }.
Arguments mkp {A}.
Arguments vX {A}. Arguments vY {A}. Arguments vZ {A}. Arguments vI {A}.
Arguments vJ {A}. Arguments vR {A}. Arguments vA {A}. Arguments vF {A}.

Definition pempty {A} : pmap A := mkp None None None None None None None None.
Definition pget {A} (p : param) (m : pmap A) : option A :=
  match p with
  | PX => vX m | PY => vY m | PZ => vZ m | PI => vI m
  | PJ => vJ m | PR => vR m | PA => vA m | PF => vF m
  end.
Definition pset {A} (p : param) (v : A) (m : pmap A) : pmap A :=
  let '(mkp x y z i j r a f) := m in
  match p with
  | PX => mkp (Some v) y z i j r a f
  | PY => mkp x (Some v) z i j r a f
  | PZ => mkp x y (Some v) i j r a f
  | PI => mkp x y z (Some v) j r a f
  | PJ => mkp x y z i (Some v) r a f
  | PR => mkp x y z i j (Some v) a f
  | PA => mkp x y z i j r (Some v) f
  | PF => mkp x y z i j r a (Some v)
  end.
Definition pempty_b {A} (m : pmap A) : bool :=
  match m with mkp None None None None None None None None => true | _ => false end.
(** len(pos_params) *)
Definition plen {A} (m : pmap A) : nat :=
  length (filter (fun p => match pget p m with Some _ => true | None => false end) scan_order).

(** ** Output *)
(** A word: letter(s) followed by a number in fixed-point notation. *)
Record word := mkword { wname : string; wprec : nat; wval : decnum }.
(** The executable part of a line. *)
Inductive body :=
| Block (cmd : string) (ws : list word)     (* "G01 X1.000 Y2.000"; cmd may be "" *)
| IntWord (cmd : string) (name : string) (v : Z)   (* "M3 S1000" *)
| EqWord (cmd : string) (w : word)          (* "G92 A=12.000" *)
| Opaque (text : string).                   (* anything passed through verbatim *)
Inductive item :=
| Raw (s : string)                                    (* self._write(s) *)
| CLine (semi : bool) (c : string)                    (* comment-only line *)
| Line (num : option N) (b : body) (comment : option string).

(** Calls made to the preview plotter (lines 30-73). *)
Inductive plot_event (A : Type) :=
| PlotMove (x y z a : option A)
| PlotFeed (x y z a : option A)
| PlotArc (cx cy : A) (x y z a : option A) (clockwise : bool)
| PlotDown | PlotUp.
Arguments PlotMove {A}. Arguments PlotFeed {A}. Arguments PlotArc {A}.
Arguments PlotDown {A}. Arguments PlotUp {A}.

(** Python argument of comment(): None, a string, or an iterable of strings. *)
Inductive comment_arg := CNone | CStr (s : string) | CList (l : list (option string)).

(** ** Configuration (lines 135-232) and state *)
Record config (N : NumOps) := mkcfg {
  xyfeed : N; zfeed : N; afeed : N; zsafe : N;
  unit_scale : N; tolerance : N; angle_tolerance : N;
  tool_wait_down : N; tool_wait_up : N;
  alt_tool_up : option string; alt_tool_down : option string;
  spindle_wait_on : N; spindle_wait_off : N; spindle_clockwise : bool;
  spindle_speed : N; spindle_auto : bool;
  wrap_angles : bool; show_comments : bool; show_line_numbers : bool;
  header_comments : list comment_arg;
  blend_mode : option string; blend_tolerance : option N; blend_qtolerance : option N;
  gc_unit : string; ndigits_out : nat;
  axis_scale : pmap N; axis_offset : pmap N;
  axis_map : list (string * string)
}.
Arguments mkcfg {N}.
Arguments xyfeed {N}. Arguments zfeed {N}. Arguments afeed {N}. Arguments zsafe {N}.
Arguments unit_scale {N}. Arguments tolerance {N}. Arguments angle_tolerance {N}.
Arguments tool_wait_down {N}. Arguments tool_wait_up {N}. Arguments alt_tool_up {N}.
Arguments alt_tool_down {N}. Arguments spindle_wait_on {N}. Arguments spindle_wait_off {N}.
Arguments spindle_clockwise {N}. Arguments spindle_speed {N}. Arguments spindle_auto {N}.
Arguments wrap_angles {N}. Arguments show_comments {N}. Arguments show_line_numbers {N}.
Arguments header_comments {N}. Arguments blend_mode {N}. Arguments blend_tolerance {N}.
Arguments blend_qtolerance {N}. Arguments gc_unit {N}. Arguments ndigits_out {N}.
Arguments axis_scale {N}. Arguments axis_offset {N}. Arguments axis_map {N}.

Record state (N : NumOps) := mkst {
  last_val : pmap N;            (* self._last_val *)
  is_tool_up : bool;            (* self._is_tool_up *)
  line_number : N.t;            (* self.line_number *)
  axis_offset_reset : bool;     (* self._axis_offset_reset *)
  out : list item;              (* everything written, in order *)
  plots : list (plot_event N)   (* plotter calls, in order *)
}.
Arguments mkst {N}.
Arguments last_val {N}. Arguments is_tool_up {N}. Arguments line_number {N}.
Arguments axis_offset_reset {N}. Arguments out {N}. Arguments plots {N}.

Section Model.
  Context {N : NumOps}.
  Local Open Scope num_scope.

  (** State after __init__ (lines 207-232). *)
  Definition init : state N := mkst pempty false 0%N false [] [].

  (** set_output_precision (lines 284-286): max(min(int(p),15),2). *)
  Definition clamp_precision (p : Z) : nat := Z.to_nat (Z.max (Z.min p 15) 2).

  (** __init__ (lines 117-232): defaults.  The default precision is
      int(round(abs(log10(1e-6)))) = 6. *)
  Definition default_config (xyf zs : N) (zf af : option N) : config N :=
    mkcfg xyf (match zf with Some f => f | None => xyf end)
          (match af with Some f => f | None => xyf end) zs
          #1 (lit 1 (-6)) (lit 1 (-6)) #0 #0 None None #0 #0 true #0 false
          false true false [] None None None "in" (clamp_precision 6)
          pempty pempty [].

  (** State-and-exception monad: the state survives an exception, as attributes
      of a Python object do. *)
  Definition M (A : Type) := state N -> state N * res A.
  Definition ret {A} (a : A) : M A := fun s => (s, Ok a).
  Definition raise {A} (e : exn) : M A := fun s => (s, Raise e).
  Definition bind {A B} (m : M A) (f : A -> M B) : M B :=
    fun s => match m s with (s', Ok a) => f a s' | (s', Raise e) => (s', Raise e) end.
  Notation "m ;; k" := (bind m (fun _ => k)) (at level 61, right associativity).

  Definition emit (i : item) : M unit := fun s =>
    (mkst (last_val s) (is_tool_up s) (line_number s) (axis_offset_reset s) (out s ++ [i]) (plots s), Ok tt).
  Definition plot (e : plot_event N) : M unit := fun s =>
    (mkst (last_val s) (is_tool_up s) (line_number s) (axis_offset_reset s) (out s) (plots s ++ [e]), Ok tt).
  Definition set_up (b : bool) : M unit := fun s =>
    (mkst (last_val s) b (line_number s) (axis_offset_reset s) (out s) (plots s), Ok tt).
  Definition when (b : bool) (m : M unit) : M unit := if b then m else ret tt.

  (** _canonical_cmd (lines 932-938) *)
  Definition canonical_cmd (cmd : string) : string :=
    let cmd := upper cmd in
    match cmd with
    | String a (String b EmptyString) =>
        if is_digit b then String a (String "0" (String b EmptyString)) else cmd
    | _ => cmd
    end.

  Definition nonmodal_group := ["G04"; "G10"; "G28"; "G30"; "G53"; "G92"].   (* line 104 *)
  Definition motion_group := ["G00"; "G01"; "G02"; "G03"].                    (* lines 108, 110 *)

  (** _write_line (lines 885-900) for a non-empty line. *)
  Definition shown (c : config N) (comment : option string) : option string :=
    if show_comments c then
      match comment with Some s => if nonempty s then Some s else None | None => None end
    else None.
  Definition write_line (c : config N) (b : body) (comment : option string) : M unit := fun s =>
    let num := if show_line_numbers c then Some (line_number s) else None in
    let ln := if show_line_numbers c then (line_number s + 1)%N else line_number s in
    (mkst (last_val s) (is_tool_up s) ln (axis_offset_reset s)
          (out s ++ [Line num b (shown c comment)]) (plots s), Ok tt).

  (** _write_comment (lines 902-912) *)
  Definition write_comment (semi : bool) (comment : option string) : M unit :=
    match comment with
    | None => emit (Raw newline)
    | Some s => if nonempty s then emit (CLine semi s) else emit (Raw (";" ++ newline))
    end.

  (** comment (lines 415-434) *)
  Fixpoint write_comments (semi : bool) (l : list (option string)) : M unit :=
    match l with
    | [] => ret tt
    | x :: r => write_comment semi x ;; write_comments semi r
    end.
  Definition comment (c : config N) (a : comment_arg) (semi : bool) : M unit :=
    when (show_comments c)
      (match a with
       | CNone => write_comment semi None
       | CStr s => write_comment semi (Some s)
       | CList l => write_comments semi l
       end).

  (** ** gcode_command (lines 786-882) *)
  Record cmd_args := mkargs { a_vals : pmap N; a_params : option string;
                              a_force : string; a_comment : option string }.

  (** Axis transform of one value (lines 848-860). *)
  Definition scaled (c : config N) (k : param) (value : N) : N :=
    let value := value * (match pget k (axis_scale c) with Some s => s | None => #1 end) in
    value + (match pget k (axis_offset c) with Some o => o | None => #0 end).
  Definition is_angular (k : param) : bool := match k with PA => true | _ => false end.   (* k in 'ABC' *)
  Definition is_linear (k : param) : bool :=                                            (* k in 'XYZIJ' *)
    match k with PX | PY | PZ | PI | PJ => true | _ => false end.
  Definition to_machine (c : config N) (k : param) (value : N) : N :=
    let value := scaled c k value in
    if is_angular k then degrees value
    else if is_linear k then value * unit_scale c
    else value.

  (** One iteration of the loop at lines 829-861 over (last_val, is_tool_up, pos_params). *)
  Definition scan_param (c : config N) (base_cmd : string) (args : cmd_args)
             (acc : pmap N * bool * pmap N) (k : param) : pmap N * bool * pmap N :=
    let '(lv, up, pos) := acc in
    match pget k (a_vals args) with
    | None => acc
    | Some value0 =>
        let tol := if is_angular k then angle_tolerance c else tolerance c in
        let value := if is_angular k && wrap_angles c then fmod value0 two_pi else value0 in
        let changed := match pget k lv with
                       | None => true
                       | Some l => abs (value - l) >? tol
                       end in
        if str_mem (letter_ascii k) (a_force args) || changed || mem_str base_cmd nonmodal_group then
          let v := scaled c k value in
          let up' := if (match k with PZ => true | _ => false end) && up && (v <? zsafe c)
                     then false else up in
          (pset k value lv, up', pset k (to_machine c k value) pos)
        else acc
    end.

  Fixpoint assoc (k : string) (l : list (string * string)) : option string :=
    match l with
    | [] => None
    | (a, b) :: r => if String.eqb k a then Some b else assoc k r
    end.
  (** self._axis_map.get(k, k) (line 873) *)
  Definition out_name (c : config N) (k : param) : string :=
    match assoc (letter k) (axis_map c) with Some n => n | None => letter k end.

  (** Lines 869-875. *)
  Definition words_of (c : config N) (pos : pmap N) : list word :=
    flat_map (fun k => match pget k pos with
                       | Some v => [mkword (out_name c k) (ndigits_out c) (fmt (ndigits_out c) v)]
                       | None => []
                       end) out_order.

  Definition gcode_command (c : config N) (command : string) (args : cmd_args) : M unit :=
    if negb (nonempty command) then ret tt                                   (* 815-816 *)
    else
      let cmd := canonical_cmd command in                                    (* 817 *)
      let base_cmd := before "." cmd in                                      (* 818 *)
      let has_params := match a_params args with Some p => nonempty p | None => false end in
      if mem_str cmd motion_group && has_params then raise GCodeException    (* 822-823 *)
      else fun s =>
        let '(lv, up, pos) :=
          fold_left (scan_param c base_cmd args) scan_order
                    (last_val s, is_tool_up s, pempty) in
        let s' := mkst lv up (line_number s) (axis_offset_reset s) (out s) (plots s) in
        if Nat.ltb 0 (plen pos) then                                         (* 864 *)
          if Nat.ltb 1 (plen pos) || (match pget PF pos with None => true | _ => false end) then
            write_line c (Block cmd (words_of c pos)) (a_comment args) s'    (* 866-876 *)
          else (s', Ok tt)
        else if negb (mem_str base_cmd motion_group) then                    (* 879-882 *)
          let text := match a_params args with
                      | Some p => if nonempty p then cmd ++ " " ++ p else cmd
                      | None => cmd
                      end in
          write_line c (Opaque text) (a_comment args) s'
        else (s', Ok tt).

  Definition no_args (cm : option string) : cmd_args := mkargs pempty None "" cm.

  (** dwell (lines 518-537); '%.4f'. *)
  Definition pause_text (seconds : N) : string :=
    "Pause tool for " ++ dec_text 4 (fmt 4 seconds) ++ " seconds".
  Definition dwell (c : config N) (ms : N) (cm : option string) : M unit :=
    when (ms >? #0)
      (let seconds := ms / #1000 in
       write_line c (Block "G04" [mkword "P" 4 (fmt 4 seconds)])
                  (match cm with Some s => Some s | None => Some (pause_text seconds) end)).

  (** pause (lines 503-516) *)
  Definition pause (c : config N) (conditional : bool) (cm : option string) : M unit :=
    gcode_command c (if conditional then "M1" else "M0") (no_args cm).

  (** spindle_on (lines 607-628), spindle_off (630-642) *)
  Definition dflt {A} (d : A) (o : option A) : A := match o with Some x => x | None => d end.
  Definition spindle_on (c : config N) (speed : option N) (cw : option bool)
             (wait : option N) (cm : option string) : M unit :=
    let mcode := if dflt (spindle_clockwise c) cw then "M3" else "M4" in
    let w := dflt (spindle_wait_on c) wait in
    write_line c (IntWord mcode "S" (trunc (dflt (spindle_speed c) speed))) cm ;;
    when (w >? #0) (dwell c w None).
  Definition spindle_off (c : config N) (wait : option N) (cm : option string) : M unit :=
    let w := dflt (spindle_wait_off c) wait in
    write_line c (Opaque "M5") cm ;;
    when (w >? #0) (dwell c w None).

  (** tool_up (lines 539-574) *)
  Definition tool_up (c : config N) (rapid : bool) (wait : option N) (cm : option string) : M unit :=
    (match alt_tool_up c with
     | Some alt => gcode_command c alt (no_args None)
     | None => gcode_command c (if rapid then "G00" else "G01")
                 (mkargs (pset PZ (zsafe c) pempty) None "Z" cm)
     end) ;;
    when (spindle_auto c) (spindle_off c None None) ;;
    (let w := dflt (tool_wait_up c) wait in when (w >? #0) (dwell c w None)) ;;
    set_up true ;;
    plot PlotUp.

  (** tool_down (lines 576-605) *)
  Definition tool_down (c : config N) (z : N) (feed wait : option N) (cm : option string) : M unit :=
    when (spindle_auto c) (spindle_on c None None None None) ;;
    (match alt_tool_down c with
     | Some alt => gcode_command c alt (no_args None)
     | None => gcode_command c "G01"
                 (mkargs (pset PZ z (pset PF (dflt (zfeed c) feed) pempty)) None "" cm)
     end) ;;
    set_up false ;;
    (let w := dflt (tool_wait_down c) wait in when (w >? #0) (dwell c w None)) ;;
    plot PlotDown.

  (** _endp (lines 918-924) *)
  Definition orelse {A} (a b : option A) : option A := match a with Some _ => a | None => b end.
  Definition endp (x y z a : option N) (s : state N) : option N * option N * option N * option N :=
    (orelse x (vX (last_val s)), orelse y (vY (last_val s)),
     orelse z (vZ (last_val s)), orelse a (vA (last_val s))).

  (** rapid_move (lines 670-693).  [max(self.zsafe, None)] is zsafe in Python 2. *)
  Definition rapid_move (c : config N) (x y z a : option N) (cm : option string) : M unit :=
    (fun s =>
       let need := match vZ (last_val s) with
                   | None => true
                   | Some zp => (zp <? zsafe c) || is_tool_up s
                   end in
       when need (tool_up c true None None) s) ;;
    (let z' := match z with Some z0 => pymax (zsafe c) z0 | None => zsafe c end in
     gcode_command c "G00" (mkargs (mkp x y (Some z') None None None a None) None "" cm) ;;
     (fun s => let '(px, py, pz, pa) := endp x y (Some z') a s in plot (PlotMove px py pz pa) s)).

  (** feed (lines 695-720) *)
  Definition is_some {A} (o : option A) : bool := match o with Some _ => true | None => false end.
  Definition feed_default (c : config N) (x y z a feed : option N) : option N :=
    match feed with
    | Some f => Some f
    | None => if is_some x || is_some y then Some (xyfeed c)
              else if is_some z then Some (zfeed c)
              else if is_some a then Some (afeed c)
              else None
    end.
  Definition feed (c : config N) (x y z a fd : option N) (cm : option string) : M unit :=
    match feed_default c x y z a fd with
    | None => ret tt
    | Some f =>
        gcode_command c "G01" (mkargs (mkp x y z None None None a (Some f)) None "" cm) ;;
        (fun s => let '(px, py, pz, pa) := endp x y z a s in plot (PlotFeed px py pz pa) s)
    end.

  (** float_eq (lines 926-930) *)
  Definition float_eq (c : config N) (a b : N) : bool := abs (a - b) <? tolerance c.

  (** feed_arc (lines 722-759).  None + float raises TypeError. *)
  Definition feed_arc (c : config N) (clockwise : bool) (x y arc_x arc_y : N)
             (a z fd : option N) (cm : option string) : M unit := fun s =>
    match vX (last_val s), vY (last_val s) with
    | Some cx0, Some cy0 =>
        let cx := arc_x + cx0 in let cy := arc_y + cy0 in
        let start_radius := hypot (cx0 - cx) (cy0 - cy) in
        let end_radius := hypot arc_x arc_y in
        if negb (float_eq c start_radius end_radius) then raise GCodeException s
        else
          (gcode_command c (if clockwise then "G02" else "G03")
             (mkargs (mkp (Some x) (Some y) z (Some arc_x) (Some arc_y) None a
                          (Some (dflt (xyfeed c) fd))) None "IJ" cm) ;;
           (fun s => let '(px, py, pz, pa) := endp (Some x) (Some y) z a s in
                     plot (PlotArc cx cy px py pz pa clockwise) s)) s
    | _, _ => raise TypeError s
    end.

  (** feed_rate (lines 488-501).  [float_eq] is called with one argument, which is
      a TypeError whenever F is known. *)
  Definition feed_rate (c : config N) (f : N) : M unit := fun s =>
    match vF (last_val s) with
    | Some _ => raise TypeError s
    | None =>
        (write_line c (Block "" [mkword "F" (ndigits_out c) (fmt (ndigits_out c) f)]) None ;;
         (fun s => (mkst (pset PF f (last_val s)) (is_tool_up s) (line_number s)
                         (axis_offset_reset s) (out s) (plots s), Ok tt))) s
    end.

  (** normalize_axis_angle (lines 644-668).  [axis not in 'ABC'] is a substring
      test; B and C are never set, so abs(None) raises TypeError; '', 'AB', 'BC' and
      'ABC' pass the test and raise KeyError. *)
  Definition normalize_axis_angle (c : config N) (axis : string) : M unit := fun s =>
    let axis := upper axis in
    if negb (mem_str axis [""; "A"; "B"; "C"; "AB"; "BC"; "ABC"]) then raise GCodeException s
    else if negb (mem_str axis ["A"; "B"; "C"]) then raise KeyError s
    else if negb (String.eqb axis "A") then raise TypeError s
    else match vA (last_val s) with
         | None => raise TypeError s
         | Some angle =>
             if abs angle >? two_pi then
               let angle' := angle - two_pi * floor (angle / #2 * pi) in
               (write_line c (EqWord "G92" (mkword "A" (ndigits_out c)
                                                   (fmt (ndigits_out c) (degrees angle'))))
                           (Some "Normalize axis angle") ;;
                (fun s => (mkst (pset PA angle' (last_val s)) (is_tool_up s) (line_number s)
                                true (out s) (plots s), Ok tt))) s
             else (s, Ok tt)
         end.

  (** header (lines 436-477); [today] is datetime.today().isoformat(). *)
  Definition rule : string := "--------------------------------------------------------".
  Fixpoint comments_all (c : config N) (l : list comment_arg) : M unit :=
    match l with [] => ret tt | x :: r => comment c x true ;; comments_all c r end.
  Definition blend_line (c : config N) : M unit :=
    match blend_mode c with
    | Some m =>
        if String.eqb m "blend" then
          match blend_tolerance c with
          | None => write_line c (Opaque "G64") (Some "Blend with highest speed")
          | Some p =>
              match blend_qtolerance c with
              | Some q => write_line c (Block "G64" [mkword "P" (ndigits_out c) (fmt (ndigits_out c) p);
                                                     mkword "Q" (ndigits_out c) (fmt (ndigits_out c) q)])
                                     (Some "Blend with tolerances")
              | None => write_line c (Block "G64" [mkword "P" (ndigits_out c) (fmt (ndigits_out c) p)])
                                   (Some "Blend with tolerance")
              end
          end
        else if String.eqb m "exact" then write_line c (Opaque "G61") (Some "Exact path mode")
        else ret tt
    | None => ret tt
    end.
  Definition header (c : config N) (today : string) (cm : option comment_arg) : M unit :=
    emit (Raw ("%" ++ newline)) ;;
    comment c (CStr rule) true ;;
    comment c (CStr ("Creation date: " ++ today)) true ;;
    comment c (CStr "Target machine: LinuxCNC, version 2.4+") true ;;
    comments_all c (header_comments c) ;;
    (match cm with Some a => comment c a true | None => ret tt end) ;;
    comment c (CStr rule) true ;;
    emit (Raw newline) ;;
    write_line c (Opaque "G17") (Some "XY plane") ;;
    (if String.eqb (gc_unit c) "mm"
     then write_line c (Opaque "G21") (Some "Units are in millimeters")
     else write_line c (Opaque "G20") (Some "Units are in inches")) ;;
    write_line c (Opaque "G90") (Some "Use absolute positioning") ;;
    write_line c (Opaque "G40") (Some "Cancel tool diameter compensation") ;;
    write_line c (Opaque "G49") (Some "Cancel tool length compensation") ;;
    blend_line c ;;
    emit (Raw newline) ;;
    comment c (CStr "Default feed rate") true ;;
    feed_rate c (xyfeed c) ;;
    emit (Raw (newline ++ newline)).

  (** footer (lines 479-486) *)
  Definition footer (c : config N) : M unit :=
    emit (Raw newline) ;;
    (fun s => when (axis_offset_reset s)
                (gcode_command c "G92.1" (no_args (Some "Reset axis offsets to zero"))) s) ;;
    write_line c (Opaque "M2") (Some "End program.") ;;
    emit (Raw ("%" ++ newline)).

  (** position (lines 773-784) *)
  Definition position (axis : string) (s : state N) : res (option N) :=
    let axis := upper axis in
    match axis with
    | String ch EmptyString =>
        if str_mem ch ordered_params then
          Ok (match param_of axis with Some p => pget p (last_val s) | None => None end)
        else Raise GCodeException
    | _ => Raise GCodeException
    end.

  (** ** The public interface as a type of calls *)
  Inductive op :=
  | OComment (a : comment_arg) (semi : bool)
  | OHeader (today : string) (cm : option comment_arg)
  | OFooter
  | OFeedRate (f : N)
  | OPause (conditional : bool) (cm : option string)
  | ODwell (ms : N) (cm : option string)
  | OToolUp (rapid : bool) (wait : option N) (cm : option string)
  | OToolDown (z : N) (feed wait : option N) (cm : option string)
  | OSpindleOn (speed : option N) (cw : option bool) (wait : option N) (cm : option string)
  | OSpindleOff (wait : option N) (cm : option string)
  | ONormalize (axis : string)
  | ORapid (x y z a : option N) (cm : option string)
  | OFeed (x y z a feed : option N) (cm : option string)
  | OArc (clockwise : bool) (x y arc_x arc_y : N) (a z feed : option N) (cm : option string)
  | OCommand (command : string) (args : cmd_args).

  Definition exec (c : config N) (o : op) : M unit :=
    match o with
    | OComment a semi => comment c a semi
    | OHeader d cm => header c d cm
    | OFooter => footer c
    | OFeedRate f => feed_rate c f
    | OPause b cm => pause c b cm
    | ODwell ms cm => dwell c ms cm
    | OToolUp r w cm => tool_up c r w cm
    | OToolDown z f w cm => tool_down c z f w cm
    | OSpindleOn sp cw w cm => spindle_on c sp cw w cm
    | OSpindleOff w cm => spindle_off c w cm
    | ONormalize ax => normalize_axis_angle c ax
    | ORapid x y z a cm => rapid_move c x y z a cm
    | OFeed x y z a f cm => feed c x y z a f cm
    | OArc cw x y i j a z f cm => feed_arc c cw x y i j a z f cm
    | OCommand cmd args => gcode_command c cmd args
    end.

  (** A history: a client that carries on after exceptions. *)
  Definition run (c : config N) (ops : list op) (s : state N) : state N :=
    fold_left (fun s o => fst (exec c o s)) ops s.

  (** ** Setters (lines 240-413).  They change only the configuration. *)
  Inductive setter :=
  | SUnits (u : string)                             (* units setter, 240-244 *)
  | SSetUnits (u : string) (scale : N)              (* set_units, 288-306 *)
  | STolerance (t : N) (at_ : option N)             (* set_tolerance, 264-276 *)
  | SPrecision (p : Z)                              (* set_output_precision *)
  | SSpindle (speed : N) (cw : bool) (won woff : N) (auto : bool)   (* 308-329 *)
  | SBlend (mode : string) (t q : option N)         (* set_path_blending, 331-352 *)
  | SAxisOffset (kv : list (string * N))            (* set_axis_offset, 354-376 *)
  | SAxisScale (kv : list (string * N))             (* set_axis_scale, 378-395 *)
  | SMapAxis (canonical output : string)            (* map_axis, 397-409 *)
  | SHeaderComment (a : comment_arg).               (* add_header_comment, 411-413 *)

  Definition put_axes (kv : list (string * N)) (m : pmap N) : pmap N :=
    fold_left (fun m '(k, v) => match param_of (upper k) with Some p => pset p v m | None => m end) kv m.

  Definition configure (st : setter) (c : config N) : res (config N) :=
    let '(mkcfg xyf zf af zs us tl atl twd twu atu atd swo swf scw ssp sau wr sc sln hc bm bt bq gu nd asc aof am) := c in
    match st with
    | SUnits u =>
        if mem_str u ["in"; "mm"] then
          Ok (mkcfg xyf zf af zs us tl atl twd twu atu atd swo swf scw ssp sau wr sc sln hc bm bt bq u nd asc aof am)
        else Raise GCodeException
    | SSetUnits u k =>
        if mem_str u ["in"; "mm"] then
          Ok (mkcfg xyf zf af zs k tl atl twd twu atu atd swo swf scw ssp sau wr sc sln hc bm bt bq u nd asc aof am)
        else Raise GCodeException
    | STolerance t ot =>
        Ok (mkcfg xyf zf af zs us t (dflt t ot) twd twu atu atd swo swf scw ssp sau wr sc sln hc bm bt bq gu nd asc aof am)
    | SPrecision p =>
        Ok (mkcfg xyf zf af zs us tl atl twd twu atu atd swo swf scw ssp sau wr sc sln hc bm bt bq gu (clamp_precision p) asc aof am)
    | SSpindle sp cw won woff auto =>
        Ok (mkcfg xyf zf af zs us tl atl twd twu atu atd won woff cw sp auto wr sc sln hc bm bt bq gu nd asc aof am)
    | SBlend mode t q =>
        let mode := if String.eqb (upper mode) "G61" then "exact"
                    else if String.eqb (upper mode) "G64" then "blend" else mode in
        if mem_str mode ["exact"; "blend"] then
          Ok (mkcfg xyf zf af zs us tl atl twd twu atu atd swo swf scw ssp sau wr sc sln hc (Some mode) t q gu nd asc aof am)
        else Ok c
    | SAxisOffset kv =>
        Ok (mkcfg xyf zf af zs us tl atl twd twu atu atd swo swf scw ssp sau wr sc sln hc bm bt bq gu nd asc (put_axes kv aof) am)
    | SAxisScale kv =>
        Ok (mkcfg xyf zf af zs us tl atl twd twu atu atd swo swf scw ssp sau wr sc sln hc bm bt bq gu nd (put_axes kv asc) aof am)
    | SMapAxis k n =>
        Ok (mkcfg xyf zf af zs us tl atl twd twu atu atd swo swf scw ssp sau wr sc sln hc bm bt bq gu nd asc aof ((upper k, upper n) :: am))
    | SHeaderComment a =>
        Ok (mkcfg xyf zf af zs us tl atl twd twu atu atd swo swf scw ssp sau wr sc sln (hc ++ [a]) bm bt bq gu nd asc aof am)
    end.
End Model.

(** ** Text actually written to the output stream *)
Definition word_text (w : word) : string := wname w ++ dec_text (wprec w) (wval w).
(** ' '.join([command] + words) *)
Fixpoint join_sp (l : list string) : string :=
  match l with [] => "" | [x] => x | x :: r => x ++ " " ++ join_sp r end.
Definition body_text (b : body) : string :=
  match b with
  | Block cmd ws => join_sp ((if nonempty cmd then [cmd] else []) ++ map word_text ws)
  | IntWord cmd name v => cmd ++ " " ++ name ++ Z_text v
  | EqWord cmd w => cmd ++ " " ++ wname w ++ "=" ++ dec_text (wprec w) (wval w)
  | Opaque t => t
  end.
Definition item_text (i : item) : string :=
  match i with
  | Raw s => s
  | CLine true c => "; " ++ c ++ newline
  | CLine false c => "(" ++ c ++ ")" ++ newline
  | Line num b cm =>
      (match num with Some n => "N" ++ N_text n ++ " " | None => "" end)
      ++ body_text b
      ++ (match cm with Some c => " (" ++ c ++ ")" | None => "" end)
      ++ newline
  end.
Definition render (l : list item) : string := String.concat "" (map item_text l).
