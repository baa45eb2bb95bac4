(** * SvgSpec: the meaning of SVG path data, independently of the parser.

    Source: the path data section of the SVG 1.1 specification (numerals,
    separators, commands, relative forms, implicit repetition, smooth curves). *)
From Coq Require Import String Ascii ZArith NArith List Bool.
From Verif Require Import Num.
Import ListNotations.

(** ** Numerals *)
Inductive digit := D0 | D1 | D2 | D3 | D4 | D5 | D6 | D7 | D8 | D9.
Definition digit_text (d : digit) : ascii :=
  match d with D0 => "0" | D1 => "1" | D2 => "2" | D3 => "3" | D4 => "4"
             | D5 => "5" | D6 => "6" | D7 => "7" | D8 => "8" | D9 => "9" end.
Definition digit_value (d : digit) : Z :=
  match d with D0 => 0 | D1 => 1 | D2 => 2 | D3 => 3 | D4 => 4
             | D5 => 5 | D6 => 6 | D7 => 7 | D8 => 8 | D9 => 9 end.
Inductive sgn := NoSign | Plus | Minus.
Definition sgn_text (s : sgn) : list ascii :=
  match s with NoSign => [] | Plus => ["+"%char] | Minus => ["-"%char] end.

(** sign, digits before the point, optionally a point and digits after it,
    optionally an exponent: letter (upper case?), sign, digits *)
Record numeral := Numeral {
  n_sgn : sgn; n_int : list digit; n_frac : option (list digit);
  n_exp : option (bool * sgn * list digit) }.

Definition frac_digits (n : numeral) : list digit :=
  match n_frac n with Some f => f | None => [] end.
(** at least one digit, and a non-empty exponent if there is one *)
Definition numeral_ok (n : numeral) : Prop :=
  n_int n ++ frac_digits n <> [] /\
  match n_exp n with Some (_, _, ds) => ds <> [] | None => True end.

Definition numeral_text (n : numeral) : list ascii :=
  sgn_text (n_sgn n) ++ map digit_text (n_int n) ++
  match n_frac n with Some f => "."%char :: map digit_text f | None => [] end ++
  match n_exp n with
  | Some (up, s, ds) => (if up then "E"%char else "e"%char) :: sgn_text s ++ map digit_text ds
  | None => [] end.

(** base ten *)
Fixpoint positional (acc : Z) (ds : list digit) : Z :=
  match ds with [] => acc | d :: r => positional (10 * acc + digit_value d) r end.
Definition signed (s : sgn) (z : Z) : Z := match s with Minus => - z | _ => z end.
Definition exponent (n : numeral) : Z :=
  match n_exp n with Some (_, s, ds) => signed s (positional 0 ds) | None => 0 end.
(** (digits of the integer and the fractional part) * 10^(exponent - fractional digits) *)
Definition numeral_value {N : NumOps} (n : numeral) : N :=
  let v := lit (positional 0 (n_int n ++ frac_digits n))
               (exponent n - Z.of_nat (length (frac_digits n))) in
  match n_sgn n with Minus => opp v | _ => v end.

(** ** Lexical structure: the items of path data and how they may be written *)
Inductive item := Cmd (c : ascii) | Num (n : numeral) | Flag (b : bool).
Definition item_text (i : item) : list ascii :=
  match i with
  | Cmd c => [c]
  | Num n => numeral_text n
  | Flag b => [if b then "1"%char else "0"%char]
  end.
Definition is_letter (c : ascii) : Prop :=
  In c ["M"; "m"; "Z"; "z"; "L"; "l"; "H"; "h"; "V"; "v"; "C"; "c"; "S"; "s";
        "Q"; "q"; "T"; "t"; "A"; "a"]%char.
Definition item_ok (i : item) : Prop :=
  match i with Cmd c => is_letter c | Num n => numeral_ok n | Flag _ => True end.
(** comma, space, tab, newline, carriage return, form feed, vertical tab *)
Definition is_sep (c : ascii) : Prop :=
  In c [","; " "; "009"; "010"; "013"; "012"; "011"]%char.
(** May item [j] follow item [i] without a separator?  Around a command letter,
    before a sign, and before a point when [i] already has one. *)
Definition may_touch (i j : item) : Prop :=
  match i, j with
  | Cmd _, _ | _, Cmd _ => True
  | _, Num n =>
      n_sgn n <> NoSign \/
      (n_int n = [] /\ exists m f, i = Num m /\ n_frac m = Some f)
  | _, Flag _ => False
  end.
(** [spells l s]: the text [s] spells the items [l], with no separator in front *)
Inductive spells : list item -> list ascii -> Prop :=
| sp_none : spells [] []
| sp_last i t : Forall is_sep t -> spells [i] (item_text i ++ t)
| sp_next i j l gap t :
    Forall is_sep gap -> (gap = [] -> may_touch i j) -> spells (j :: l) t ->
    spells (i :: j :: l) (item_text i ++ gap ++ t).
Definition written (l : list item) (s : list ascii) : Prop :=
  exists sep t, Forall is_sep sep /\ spells l t /\ s = sep ++ t.

(** ** Path data *)
Record xy (A : Type) := XY { xx : A; yy : A }.
Arguments XY {A} _ _.
Arguments xx {A} _.
Arguments yy {A} _.

(** One segment, with coordinates of type [A] *)
Inductive segment (A : Type) :=
| Move (p : xy A) | Line (p : xy A) | Hor (x : A) | Ver (y : A)
| Curve (a b p : xy A) | Smooth (b p : xy A)
| Quad (a p : xy A) | SmoothQuad (p : xy A)
| Arc (rx ry rot : A) (large sweep : bool) (p : xy A).
Arguments Move {A}. Arguments Line {A}. Arguments Hor {A}. Arguments Ver {A}.
Arguments Curve {A}. Arguments Smooth {A}. Arguments Quad {A}.
Arguments SmoothQuad {A}. Arguments Arc {A}.

(** A command: a letter (relative?) followed by one or more segments, or Z *)
Inductive pathcmd :=
| Segs (rel : bool) (first : segment numeral) (more : list (segment numeral))
| Close (rel : bool).

Definition letter {A} (s : segment A) : ascii :=
  match s with
  | Move _ => "M" | Line _ => "L" | Hor _ => "H" | Ver _ => "V"
  | Curve _ _ _ => "C" | Smooth _ _ => "S" | Quad _ _ => "Q"
  | SmoothQuad _ => "T" | Arc _ _ _ _ _ _ => "A"
  end.
Definition small (c : ascii) : ascii := ascii_of_N (N_of_ascii c + 32).

(** the numbers of a segment, in order *)
Definition xy_items (p : xy numeral) : list item := [Num (xx p); Num (yy p)].
Definition seg_items (s : segment numeral) : list item :=
  match s with
  | Move p | Line p | SmoothQuad p => xy_items p
  | Hor x => [Num x]
  | Ver y => [Num y]
  | Curve a b p => xy_items a ++ xy_items b ++ xy_items p
  | Smooth b p => xy_items b ++ xy_items p
  | Quad a p => xy_items a ++ xy_items p
  | Arc rx ry rot l s p => [Num rx; Num ry; Num rot; Flag l; Flag s] ++ xy_items p
  end.
Definition cmd_items (c : pathcmd) : list item :=
  match c with
  | Segs rel f more =>
      Cmd (if rel then small (letter f) else letter f) :: flat_map seg_items (f :: more)
  | Close rel => [Cmd (if rel then "z" else "Z")%char]
  end.
Definition path_items (p : list pathcmd) : list item := flat_map cmd_items p.

(** The further segments of a command repeat it; after a moveto they are lines. *)
Definition cmd_ok (c : pathcmd) : Prop :=
  match c with
  | Segs _ f more =>
      Forall (fun s => letter s = (match f with Move _ => "L"%char | _ => letter f end)) more
  | Close _ => True
  end.
(** Path data begins with a moveto. *)
Definition path_ok (p : list pathcmd) : Prop :=
  Forall cmd_ok p /\
  (p = [] \/ exists rel q more r, p = Segs rel (Move q) more :: r).

(** ** Reference semantics: absolute canonical commands *)
Section Sem.
  Context {N : NumOps}.
  Local Open Scope num_scope.

  Inductive drawn :=
  | DMove (p : xy N) | DLine (p : xy N) | DCurve (a b p : xy N) | DQuad (a p : xy N)
  | DArc (rx ry rot : N) (large sweep : bool) (p : xy N).

  (** what the previous segment was *)
  Inductive previous := AfterCurve (c : xy N) | AfterQuad (c : xy N) | AfterOther.
  Record pstate := PS { start : xy N; here : xy N; prev : previous }.

  Definition val (p : xy numeral) : xy N := XY (numeral_value (xx p)) (numeral_value (yy p)).
  (** a relative point is an offset from the current point *)
  Definition place (rel : bool) (c q : xy N) : xy N :=
    if rel then XY (xx q + xx c) (yy q + yy c) else q.
  (** reflection of [c] through [p] *)
  Definition reflect (c p : xy N) : xy N :=
    XY (xx p + (xx p - xx c)) (yy p + (yy p - yy c)).

  Definition sem_seg (rel : bool) (s : segment numeral) (st : pstate) : drawn * pstate :=
    let c := here st in
    let ab q := place rel c (val q) in
    match s with
    | Move q => let p := ab q in (DMove p, PS p p AfterOther)
    | Line q => let p := ab q in (DLine p, PS (start st) p AfterOther)
    | Hor x =>
        let v := numeral_value x in
        let p := XY (if rel then v + xx c else v) (yy c) in
        (DLine p, PS (start st) p AfterOther)
    | Ver y =>
        let v := numeral_value y in
        let p := XY (xx c) (if rel then v + yy c else v) in
        (DLine p, PS (start st) p AfterOther)
    | Curve a b q => (DCurve (ab a) (ab b) (ab q), PS (start st) (ab q) (AfterCurve (ab b)))
    | Smooth b q =>
        let a := match prev st with AfterCurve k => reflect k c | _ => c end in
        (DCurve a (ab b) (ab q), PS (start st) (ab q) (AfterCurve (ab b)))
    | Quad a q => (DQuad (ab a) (ab q), PS (start st) (ab q) (AfterQuad (ab a)))
    | SmoothQuad q =>
        let a := match prev st with AfterQuad k => reflect k c | _ => c end in
        (DQuad a (ab q), PS (start st) (ab q) (AfterQuad a))
    | Arc rx ry rot l w q =>
        (DArc (numeral_value rx) (numeral_value ry) (numeral_value rot) l w (ab q),
         PS (start st) (ab q) AfterOther)
    end.
  Fixpoint sem_segs (rel : bool) (ss : list (segment numeral)) (st : pstate)
    : list drawn * pstate :=
    match ss with
    | [] => ([], st)
    | s :: r => let '(d, st1) := sem_seg rel s st in
                let '(ds, st2) := sem_segs rel r st1 in (d :: ds, st2)
    end.
  Definition sem_cmd (c : pathcmd) (st : pstate) : list drawn * pstate :=
    match c with
    | Segs rel f more => sem_segs rel (f :: more) st
    | Close _ => ([DLine (start st)], PS (start st) (start st) AfterOther)
    end.
  Fixpoint sem_path (p : list pathcmd) (st : pstate) : list drawn :=
    match p with
    | [] => []
    | c :: r => let '(ds, st1) := sem_cmd c st in ds ++ sem_path r st1
    end.
  Definition origin : xy N := XY #0 #0.
  (** the drawing of path data: the first point is relative to the origin *)
  Definition drawing (p : list pathcmd) : list drawn := sem_path p (PS origin origin AfterOther).
End Sem.
Arguments drawn N : clear implicits.
Arguments pstate N : clear implicits.
Arguments previous N : clear implicits.

(** The path uses no S or T command. *)
Definition plain_seg {A} (s : segment A) : Prop :=
  match s with Smooth _ _ | SmoothQuad _ => False | _ => True end.
Definition plain (p : list pathcmd) : Prop :=
  Forall (fun c => match c with Segs _ f more => Forall plain_seg (f :: more) | Close _ => True end) p.

(** Every S directly follows a C segment and every T a Q segment. *)
Definition segs_of (c : pathcmd) : list (option (segment numeral)) :=
  match c with Segs _ f more => map Some (f :: more) | Close _ => [None] end.
Fixpoint smooth_after (before : option (segment numeral)) (l : list (option (segment numeral))) : Prop :=
  match l with
  | [] => True
  | s :: r =>
      match s with
      | Some (Smooth _ _) => exists a b p, before = Some (Curve a b p)
      | Some (SmoothQuad _) => exists a p, before = Some (Quad a p)
      | _ => True
      end /\ smooth_after s r
  end.
Definition smooth_directly (p : list pathcmd) : Prop := smooth_after None (flat_map segs_of p).
