(** * Svg: the SVG path, transform and unit parsers of tcnc/svg/svg.py.

    A Python string is a list of ASCII characters; characters outside ASCII are
    not modelled. *)
From Coq Require Import String Ascii ZArith NArith List Bool.
From Verif Require Import Num Str.
Import ListNotations.

(** Python strings. *)
Notation pystr := (list ascii).
Definition L (s : string) : pystr := list_ascii_of_string s.

(** [c in 'literal'] for a one-character [c]. *)
Definition cin (c : ascii) (s : string) : bool := existsb (Ascii.eqb c) (L s).

Definition tab_nl_cr_ff_vt : string :=
  String "009" (String "010" (String "013" (String "012" (String "011" "")))).
Definition str_eqb (a b : pystr) : bool :=
  if list_eq_dec ascii_dec a b then true else false.

(** ** Python's [float(s)] and [int(s)] on ASCII text without blanks around it.
    [float] accepts an optional sign, digits with at most one point and at least
    one digit, and an optional exponent; the spellings of nan and the infinities
    are not modelled (the path tokenizer cannot produce them).  The value is that
    of the decimal literal: [lit m e] is m * 10^e. *)
Fixpoint span (p : ascii -> bool) (s : pystr) : pystr * pystr :=
  match s with
  | [] => ([], [])
  | c :: r => if p c then let '(a, b) := span p r in (c :: a, b) else ([], s)
  end.
Definition digit_val (c : ascii) : Z := (Z.of_N (N_of_ascii c) - 48)%Z.
Definition digits_Z (s : pystr) : Z :=
  fold_left (fun n c => n * 10 + digit_val c)%Z s 0%Z.
(** optional sign: is it a minus, and what is left *)
Definition take_sign (s : pystr) : bool * pystr :=
  match s with
  | c :: r => if Ascii.eqb c "-" then (true, r)
              else if Ascii.eqb c "+" then (false, r) else (false, s)
  | [] => (false, s)
  end.
Definition py_int (s : pystr) : res Z :=
  let '(neg, r) := take_sign s in
  match span is_digit r with
  | ((_ :: _) as ds, []) => Ok (if neg then - digits_Z ds else digits_Z ds)%Z
  | _ => Raise ValueError
  end.
(** decimal literal: sign, mantissa and exponent *)
Definition decimal (s : pystr) : res (bool * Z * Z) :=
  let '(neg, r) := take_sign s in
  let '(ip, r1) := span is_digit r in
  let '(fp, r2) := match r1 with
                   | c :: q => if Ascii.eqb c "." then span is_digit q else ([], r1)
                   | [] => ([], r1)
                   end in
  match ip ++ fp with
  | [] => Raise ValueError
  | ds =>
      let fl := Z.of_nat (length fp) in
      match r2 with
      | [] => Ok (neg, digits_Z ds, - fl)%Z
      | c :: q =>
          if cin c "eE" then
            match py_int q with
            | Ok e => Ok (neg, digits_Z ds, e - fl)%Z
            | Raise x => Raise x
            end
          else Raise ValueError
      end
  end.

(** ** svg.py 771-826: [path_tokenizer].  The generator is the list it yields:
    a token and the flag "is a command". *)
Definition token := (pystr * bool)%type.
Definition COMMA_WSP : string := ", " ++ tab_nl_cr_ff_vt.

Fixpoint tokenize (in_float : bool) (entity : pystr) (s : pystr) : list token :=
  match s with
  | [] => match entity with [] => [] | _ => [(entity, false)] end     (* 824-826 *)
  | c :: r =>
      if cin c "0123456789eE" then tokenize in_float (entity ++ [c]) r
      else if cin c COMMA_WSP && negb (match entity with [] => true | _ => false end) then
        (entity, false) :: tokenize false [] r
      else if cin c "MmZzLlHhVvCcSsQqTtAa" then
        match entity with
        | [] => ([c], true) :: tokenize in_float [] r
        | _ => (entity, false) :: ([c], true) :: tokenize false [] r
        end
      else if Ascii.eqb c "." then
        if in_float then (entity, false) :: tokenize true ["."%char] r
        else tokenize true (entity ++ ["."%char]) r
      else if cin c "+-" then
        match entity with
        | [] => tokenize in_float [c] r
        | _ => if cin (last entity " "%char) "eE" then tokenize in_float (entity ++ [c]) r
               else (entity, false) :: tokenize false [c] r
        end
      else tokenize in_float entity r                                 (* ignored *)
  end.
Definition path_tokenizer (s : pystr) : list token := tokenize false [] s.

(** ** svg.py 841-854: [_PATHDEFS].  [casts]: true = int, false = float;
    [axes]: the coordinate axis, [None] = -1. *)
Record pathdef := mkdef { outcmd : ascii; nparams : nat; casts : list bool; axes : list (option bool) }.
Definition ax : option bool := Some false.     (* 0 = X *)
Definition ay : option bool := Some true.      (* 1 = Y *)
Definition PATHDEFS (c : ascii) : option pathdef :=
  if Ascii.eqb c "M" then Some (mkdef "M" 2 [false; false] [ax; ay])
  else if Ascii.eqb c "L" then Some (mkdef "L" 2 [false; false] [ax; ay])
  else if Ascii.eqb c "H" then Some (mkdef "L" 1 [false] [ax])
  else if Ascii.eqb c "V" then Some (mkdef "L" 1 [false] [ay])
  else if Ascii.eqb c "C" then
    Some (mkdef "C" 6 [false; false; false; false; false; false] [ax; ay; ax; ay; ax; ay])
  else if Ascii.eqb c "S" then Some (mkdef "C" 4 [false; false; false; false] [ax; ay; ax; ay])
  else if Ascii.eqb c "Q" then Some (mkdef "Q" 4 [false; false; false; false] [ax; ay; ax; ay])
  else if Ascii.eqb c "T" then Some (mkdef "Q" 2 [false; false] [ax; ay])
  else if Ascii.eqb c "A" then
    Some (mkdef "A" 7 [false; false; false; true; true; false; false]
                [None; None; None; None; None; ax; ay])
  else if Ascii.eqb c "Z" then Some (mkdef "L" 0 [] [])
  else None.
Definition is_cmd (cur : option ascii) (c : ascii) : bool :=
  match cur with Some d => Ascii.eqb d c | None => false end.

Section Parse.
  Context {N : NumOps}.
  Local Open Scope num_scope.
  Local Open Scope res_scope.

  (** [float(token)] *)
  Definition py_float (s : pystr) : res N :=
    do (neg, m, e) <- decimal s;
    Ok (if neg then - lit m e else lit m e).

  (** A parameter value: a Python float, or a Python int (arc flags). *)
  Inductive pval := F (x : N) | I (z : Z).
  Definition pnum (v : pval) : N := match v with F x => x | I z => of_Z z end.
  (** value + float *)
  Definition padd (v : pval) (x : N) : pval := F (pnum v + x).
  (** params[-k] *)
  Definition pneg (ps : list pval) (k : nat) : res N :=
    if Nat.ltb (length ps) k then Raise IndexError
    else match nth_error ps (length ps - k) with
         | Some v => Ok (pnum v) | None => Raise IndexError end.
  Definition pidx (ps : list pval) (k : nat) : res N :=
    match nth_error ps k with Some v => Ok (pnum v) | None => Raise IndexError end.

  Definition outp := (ascii * list pval)%type.

  (** The local variables of [parse_path] (svg.py 876-894). *)
  Record pst := mkst {
    cur : option ascii; pdef : pathdef;
    moveto : N * N; pen : N * N; lastc : N * N;
    isrel : bool; expecting : bool; params : list pval }.

  Inductive outcome :=
  | Break
  | Fail (e : exn)
  | Cont (st : pst) (pushed : option token) (out : option outp).

  (** svg.py 908-928: a token where a command is expected. *)
  Definition step_command (st : pst) (tok : token) : outcome :=
    let '(t, is_command) := tok in
    if match cur st with None => true | _ => false end
       && negb (str_eqb (map upper_ascii t) (L "M"))
    then Break
    else if is_command then
      match t with
      | [c] =>
          let cmd := upper_ascii c in
          match PATHDEFS cmd with
          | None => Fail KeyError
          | Some d =>
              Cont (mkst (Some cmd) d (moveto st) (pen st) (lastc st)
                         (negb (Ascii.eqb c cmd)) false (params st))
                   (if Ascii.eqb cmd "Z" then Some ([], false) else None) None
          end
      | _ => Fail KeyError
      end
    else
      if is_cmd (cur st) "M" then
        match PATHDEFS "L" with
        | None => Fail KeyError
        | Some d =>
            Cont (mkst (Some "L"%char) d (moveto st) (pen st) (lastc st) (isrel st) false (params st))
                 (Some tok) None
        end
      else
        Cont (mkst (cur st) (pdef st) (moveto st) (pen st) (lastc st) (isrel st) false (params st))
             (Some tok) None.

  (** svg.py 934-947: accumulate one parameter. *)
  Definition accumulate (st : pst) (t : pystr) : res (list pval) :=
    let k := length (params st) in
    let d := pdef st in
    if Nat.ltb k (nparams d) then
      match nth_error (casts d) k with
      | None => Raise IndexError
      | Some is_int =>
          do v <- (if is_int then do z <- py_int t; Ok (I z) else do x <- py_float t; Ok (F x));
          if isrel st then
            match nth_error (axes d) k with
            | None => Raise IndexError
            | Some None => Ok (params st ++ [v])
            | Some (Some a) =>
                Ok (params st ++ [padd v (if a then snd (pen st) else fst (pen st))])
            end
          else Ok (params st ++ [v])
      end
    else Ok (params st).

  (** svg.py 949-968: all parameters are there. *)
  Definition complete (st : pst) (ps : list pval) : outcome :=
    let c := cur st in
    let r :=
      do (mv, ps1) <-
        (if is_cmd c "M" then
           do x <- pidx ps 0; do y <- pidx ps 1; Ok ((x, y), ps)
         else if is_cmd c "Z" then
           Ok (moveto st, ps ++ [F (fst (moveto st)); F (snd (moveto st))])
         else if is_cmd c "H" then Ok (moveto st, ps ++ [F (snd (pen st))])
         else if is_cmd c "V" then Ok (moveto st, F (fst (pen st)) :: ps)
         else if is_cmd c "S" || is_cmd c "T" then
           Ok (moveto st, F (fst (pen st) + (fst (pen st) - fst (lastc st)))
                            :: F (snd (pen st) + (snd (pen st) - snd (lastc st))) :: ps)
         else Ok (moveto st, ps));
      do lc <- (if is_cmd c "C" || is_cmd c "Q" then
                  do x <- pneg ps1 4; do y <- pneg ps1 3; Ok (x, y)
                else Ok (pen st));
      do x <- pneg ps1 2; do y <- pneg ps1 1;
      Ok (mkst c (pdef st) mv (x, y) lc (isrel st) true [], (outcmd (pdef st), ps1)) in
    match r with
    | Ok (st', o) => Cont st' None (Some o)
    | Raise e => Fail e
    end.

  (** svg.py 896-968: one pass of the [while True] loop on a token. *)
  Definition step (st : pst) (tok : token) : outcome :=
    if expecting st then step_command st tok
    else if snd tok then Break
    else
      match accumulate st (fst tok) with
      | Raise e => Fail e
      | Ok ps =>
          if Nat.eqb (length ps) (nparams (pdef st)) then complete st ps
          else Cont (mkst (cur st) (pdef st) (moveto st) (pen st) (lastc st)
                          (isrel st) false ps) None None
      end.

  Definition emit (o : option outp) (g : list outp * option exn) : list outp * option exn :=
    match o with Some x => (x :: fst g, snd g) | None => g end.

  (** The loop, with the pushed-back token; fuel because a pushed-back token is
      read again. *)
  Fixpoint ploop (fuel : nat) (pushed : option token) (toks : list token) (st : pst)
    : list outp * option exn :=
    match fuel with
    | O => ([], Some OutOfFuel)
    | S k =>
        match (match pushed with
               | Some t => Some (t, toks)
               | None => match toks with t :: r => Some (t, r) | [] => None end
               end) with
        | None => ([], None)
        | Some (t, r) =>
            match step st t with
            | Break => ([], None)
            | Fail e => ([], Some e)
            | Cont st' p o => emit o (ploop k p r st')
            end
        end
    end.

  Definition pst0 : pst :=
    mkst None (mkdef "M" 2 [false; false] [ax; ay]) (#0, #0) (#0, #0) (#0, #0) false true [].

  (** svg.py 856-968: [parse_path].  The generator is the list of the commands it
      yields, followed by the exception it ends with, if any. *)
  Definition parse_path (d : pystr) : list outp * option exn :=
    let toks := path_tokenizer d in
    ploop (2 * length toks + 1) None toks pst0.

  (** svg.py 970-991: [explode_path].  A piece is the data formatted into
      'M p1.x p1.y cmd params'; the formatting itself (6 decimals for the start
      point, [str] for the parameters) is not modelled. *)
  Fixpoint explode_loop (p1 : option (N * N)) (cmds : list outp)
    : res (list ((N * N) * ascii * list pval)) :=
    match cmds with
    | [] => Ok []
    | (c, ps) :: r =>
        do x <- pneg ps 2; do y <- pneg ps 1;
        if Ascii.eqb c "M" then explode_loop (Some (x, y)) r
        else
          do rest <- explode_loop (Some (x, y)) r;
          match p1 with
          | Some p => Ok ((p, c, ps) :: rest)
          | None => Ok rest
          end
    end.
  Definition explode_path (d : pystr) : res (list ((N * N) * ascii * list pval)) :=
    match parse_path d with
    | (cmds, None) => explode_loop None cmds
    | (cmds, Some e) => do _ <- explode_loop None cmds; Raise e
    end.
End Parse.
Arguments pval N : clear implicits.
Arguments outp N : clear implicits.
Arguments pst N : clear implicits.
