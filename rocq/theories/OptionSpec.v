(** * OptionSpec: spelling of words in options. *)
From Coq Require Import Ascii List.
Local Open Scope list_scope.
Import ListNotations.
(** [v] is the word [w], given in capitals, in any mixture of capitals and small letters. *)
Definition spelled (w v : list ascii) : Prop := Forall2 (fun w c => c = w \/ nat_of_ascii c = (nat_of_ascii w + 32)%nat) w v.
(** Fields separated by runs of blanks and commas. *)
Definition gap_char (c : ascii) : Prop := In c [" "; "009"; "010"; "013"; "012"; "011"; ","]%char.
Inductive separated : list (list ascii) -> list ascii -> Prop :=
| sp_one w : separated [w] w
| sp_more w g ws t : g <> [] -> Forall gap_char g -> separated ws t -> separated (w :: ws) (w ++ g ++ t).
