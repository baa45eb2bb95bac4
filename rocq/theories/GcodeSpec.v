(** * GcodeSpec: an independent RS274/LinuxCNC machine that executes blocks.

    This is specification, not a model of /repo: it says what a controller does
    with the program.  It knows nothing about the generator's state. *)
From Coq Require Import String Ascii ZArith NArith List Bool.
From Verif Require Import Num Str Gcode.
Import ListNotations.
Local Open Scope string_scope.

(** A decimal number as it stands in the program: digits after the point, value. *)
Definition decimal := (nat * decnum)%type.

(** Machine state: position per axis letter (None: never commanded), modal feed
    rate, modal motion code. *)
Record machine := mkmach {
  mpos : string -> option decimal;
  mfeed : option decimal;
  mmode : option string
}.
Definition machine0 : machine := mkmach (fun _ => None) None None.

Definition upd (f : string -> option decimal) (k : string) (v : decimal) : string -> option decimal :=
  fun k' => if String.eqb k k' then Some v else f k'.

(** Axis words replace the coordinate (absolute mode). *)
Fixpoint move_to (axes : list string) (ws : list word) (f : string -> option decimal)
  : string -> option decimal :=
  match ws with
  | [] => f
  | w :: r =>
      move_to axes r (if mem_str (wname w) axes then upd f (wname w) (wprec w, wval w) else f)
  end.

Fixpoint feed_of (ws : list word) (f : option decimal) : option decimal :=
  match ws with
  | [] => f
  | w :: r => feed_of r (if String.eqb (wname w) "F" then Some (wprec w, wval w) else f)
  end.

Definition motion_codes := ["G00"; "G01"; "G02"; "G03"].
(** Codes that move no axis. *)
Definition passive_codes :=
  ["G17"; "G20"; "G21"; "G90"; "G40"; "G49"; "G61"; "G64"; "M00"; "M01"; "M2"; "M3"; "M4"; "M5"; "G04"].

(** One line.  [None] is a fault: a line this machine does not accept. *)
Definition step_item (axes : list string) (m : machine) (i : item) : option machine :=
  match i with
  | Raw _ | CLine _ _ => Some m
  | Line _ (Block cmd ws) _ =>
      if mem_str cmd motion_codes then
        Some (mkmach (move_to axes ws (mpos m)) (feed_of ws (mfeed m)) (Some cmd))
      else if String.eqb cmd "" then
        (* a line without a command: only an F word is accepted here *)
        if forallb (fun w => String.eqb (wname w) "F") ws
        then Some (mkmach (mpos m) (feed_of ws (mfeed m)) (mmode m)) else None
      else if mem_str cmd passive_codes then Some m
      else None
  | Line _ (IntWord cmd _ _) _ => if mem_str cmd passive_codes then Some m else None
  | Line _ (Opaque t) _ => if mem_str t passive_codes then Some m else None
  | Line _ (EqWord _ _) _ => None       (* 'A=1.0' is not an RS274 word *)
  end.

Fixpoint replay (axes : list string) (prog : list item) (m : machine) : option machine :=
  match prog with
  | [] => Some m
  | i :: r => match step_item axes m i with Some m' => replay axes r m' | None => None end
  end.

(** The position axes of the four-axis machine of gcode.py. *)
Definition is_axis (k : param) : Prop := k = PX \/ k = PY \/ k = PZ \/ k = PA.

(** What a tracked value [v] of axis [k] must look like in the program, spelled out
    from the user documentation (gcode.py lines 84-93, 378-381): axis scale, then
    offset, then radians to degrees for A, world to machine units for X, Y, Z. *)
Definition program_value {N : NumOps} (c : config N) (k : param) (v : N) : decimal :=
  let s := match pget k (axis_scale c) with Some s => s | None => of_Z 1 end in
  let o := match pget k (axis_offset c) with Some o => o | None => of_Z 0 end in
  let u := add (mul v s) o in
  (ndigits_out c,
   fmt (ndigits_out c) (match k with PA => degrees u | _ => mul u (unit_scale c) end)).

(** Letters under which the four axes appear in the program. *)
Definition axis_letters {N : NumOps} (c : config N) : list string :=
  map (out_name c) [PX; PY; PZ; PA].

(** A program line that rapidly moves X, Y or A. *)
Definition lateral_rapid {N : NumOps} (c : config N) (i : item) : Prop :=
  exists num ws cm, i = Line num (Block "G00" ws) cm /\
    exists w, In w ws /\ In (wname w) [out_name c PX; out_name c PY; out_name c PA].

(** Calls that are covered by the tracking guarantee: the whole documented
    interface except raw commands and normalize_axis_angle. *)
Definition tracked_op {N : NumOps} (o : @op N) : Prop :=
  match o with OCommand _ _ => False | ONormalize _ => False | _ => True end.

(** The configuration in which the program letters of the parameters are distinct
    and no alternate tool codes are set. *)
Definition plain_config {N : NumOps} (c : config N) : Prop :=
  NoDup (map (out_name c) out_order) /\ out_name c PF = "F" /\
  alt_tool_up c = None /\ alt_tool_down c = None.
