(** * GcodeLexSpec: an independent reader for RS274 program text.

    Specification, not a model of /repo: what a controller does with the
    characters of the program.  A character machine over the whole text. *)
From Coq Require Import String Ascii ZArith NArith List Bool.
From Verif Require Import Num Str Gcode.
Import ListNotations.
Local Open Scope string_scope.

(** A number as read: sign, all digits as one integer, digits after the point. *)
Record lnum := mkl { lneg : bool; lmag : BinNums.N; lfrac : nat }.
(** A word: letter and number. *)
Definition token := (ascii * lnum)%type.

Inductive lmode :=
| Gap                                                        (* between words *)
| Start (l : ascii)                                          (* letter seen *)
| Num (l : ascii) (neg : bool) (mag : BinNums.N) (point : bool) (frac : nat) (digits : nat)
| Paren                                                      (* inside ( ) *)
| Semi.                                                      (* after ; *)

Record lexer := mklex { ldone : list (list token); lcur : list token; lmode_ : lmode }.

Definition is_letter (a : ascii) : bool :=
  let n := N_of_ascii a in ((65 <=? n) && (n <=? 90))%N.
Definition nl : ascii := ascii_of_N 10.

(** Close the number being read, if any; None if it has no digit. *)
Definition close_num (s : lexer) : option lexer :=
  match lmode_ s with
  | Num l neg mag _ frac digits =>
      if Nat.eqb digits 0 then None
      else Some (mklex (ldone s) (lcur s ++ [(l, mkl neg mag frac)])%list Gap)
  | Gap => Some s
  | _ => None
  end.

(** A character between words. *)
Definition lex_gap (s : lexer) (a : ascii) : option lexer :=
  if Ascii.eqb a " " then Some s
  else if Ascii.eqb a nl then
    Some (match lcur s with
          | [] => s                                          (* blank or comment-only line *)
          | _ => mklex (ldone s ++ [lcur s])%list [] Gap
          end)
  else if Ascii.eqb a "(" then Some (mklex (ldone s) (lcur s) Paren)
  else if Ascii.eqb a ";" then Some (mklex (ldone s) (lcur s) Semi)
  else if Ascii.eqb a "%" then match lcur s with [] => Some s | _ => None end
  else if is_letter a then Some (mklex (ldone s) (lcur s) (Start a))
  else None.

Definition lex_char (s : lexer) (a : ascii) : option lexer :=
  match lmode_ s with
  | Paren => if Ascii.eqb a ")" then Some (mklex (ldone s) (lcur s) Gap)
             else if Ascii.eqb a nl then None                (* unterminated comment *)
             else Some s
  | Semi => if Ascii.eqb a nl then lex_gap (mklex (ldone s) (lcur s) Gap) a else Some s
  | Start l =>
      if Ascii.eqb a "-" then Some (mklex (ldone s) (lcur s) (Num l true 0 false 0 0))
      else if is_digit a then Some (mklex (ldone s) (lcur s) (Num l false (N_of_ascii a - 48) false 0 1))
      else None
  | Num l neg mag point frac digits =>
      if is_digit a then
        Some (mklex (ldone s) (lcur s)
               (Num l neg (mag * 10 + (N_of_ascii a - 48))%N point (if point then S frac else frac) (S digits)))
      else if Ascii.eqb a "." then
        if point then None else Some (mklex (ldone s) (lcur s) (Num l neg mag true 0 digits))
      else match close_num s with Some s' => lex_gap s' a | None => None end
  | Gap => lex_gap s a
  end.

Fixpoint lex_str (t : string) (s : lexer) : option lexer :=
  match t with
  | EmptyString => Some s
  | String a r => match lex_char s a with Some s' => lex_str r s' | None => None end
  end.

(** The lines of the program that contain words, in order.  The text must end
    with a newline. *)
Definition read_program (t : string) : option (list (list token)) :=
  match lex_str t (mklex [] [] Gap) with
  | Some (mklex d [] Gap) => Some d
  | _ => None
  end.

(** ** What each block must read as *)
(** The codes the generator writes, as words. *)
Definition code_table : list (string * list token) :=
  let w a n := [(a%char, mkl false n 0)] in
  [ (""%string, []);
    ("G00"%string, w "G"%char 0%N); ("G01"%string, w "G"%char 1%N); ("G02"%string, w "G"%char 2%N);
    ("G03"%string, w "G"%char 3%N); ("G04"%string, w "G"%char 4%N); ("G17"%string, w "G"%char 17%N);
    ("G20"%string, w "G"%char 20%N); ("G21"%string, w "G"%char 21%N); ("G40"%string, w "G"%char 40%N);
    ("G49"%string, w "G"%char 49%N); ("G61"%string, w "G"%char 61%N); ("G64"%string, w "G"%char 64%N);
    ("G90"%string, w "G"%char 90%N); ("G92.1"%string, [("G"%char, mkl false 921 1)]);
    ("M00"%string, w "M"%char 0%N); ("M01"%string, w "M"%char 1%N); ("M2"%string, w "M"%char 2%N);
    ("M3"%string, w "M"%char 3%N); ("M4"%string, w "M"%char 4%N); ("M5"%string, w "M"%char 5%N) ].
Definition code_tokens (code : string) : option (list token) :=
  match find (fun p => String.eqb code (fst p)) code_table with Some (_, t) => Some t | None => None end.

Definition word_token (w : word) : option token :=
  match wname w, wval w with
  | String a EmptyString, DFin neg mag => Some (a, mkl neg mag (wprec w))
  | _, _ => None
  end.
Fixpoint all_some {A} (l : list (option A)) : option (list A) :=
  match l with
  | [] => Some []
  | Some x :: r => match all_some r with Some r' => Some (x :: r') | None => None end
  | None :: _ => None
  end.

(** The words that a numbered block stands for. *)
Definition block_tokens (nb : option BinNums.N * body) : option (list token) :=
  let n := match fst nb with Some n => [("N"%char, mkl false n 0)] | None => [] end in
  match snd nb with
  | Block cmd ws =>
      match code_tokens cmd, all_some (map word_token ws) with
      | Some a, Some b => Some (n ++ a ++ b)%list | _, _ => None end
  | IntWord cmd (String a EmptyString) v =>
      match code_tokens cmd with
      | Some t => Some (n ++ t ++ [(a, mkl (v <? 0)%Z (Z.abs_N v) 0)])%list | None => None end
  | Opaque t => match code_tokens t with Some a => Some (n ++ a)%list | None => None end
  | _ => None
  end.

(** Comment text that cannot end the comment it is put into. *)
Fixpoint clean (s : string) : bool :=
  match s with
  | EmptyString => true
  | String a r => negb (Ascii.eqb a ")") && negb (Ascii.eqb a nl) && clean r
  end.
