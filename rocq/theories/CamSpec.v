(** * CamSpec: what a cutting job must look like, stated on the calls made to the
      GCode object.  Specification only: it uses none of the functions of [Cam.v]
      except the data types. *)
From Coq Require Import String ZArith NArith List Bool Sorting.Permutation.
From Verif Require Import Num Gcode Geom Cam.
Import ListNotations.
Local Open Scope string_scope.

Section Spec.
  Context {N : NumOps}.
  Notation path := (list (cseg N)).

  (** The program of a list of things is the concatenation of their programs. *)
  Inductive concat_of {A} (R : A -> list (@op N) -> Prop) : list A -> list (@op N) -> Prop :=
  | co_nil : concat_of R [] []
  | co_cons x xs o os : R x o -> concat_of R xs os -> concat_of R (x :: xs) (o ++ os)%list.

  (** The height at which a segment is cut: its own Z hint, or the depth of the pass. *)
  Definition cut_height (depth : N) (s : cseg N) : N :=
    match inline_z s with Some z => z | None => depth end.

  (** The call that cuts segment [s]: a linear feed to its end point or, for an arc
      only, an arc feed in its direction, with its centre relative to its start. *)
  Definition cuts_segment (depth : N) (s : cseg N) (o : @op N) : Prop :=
    exists a,
      o = OFeed (Some (px (s_p2 (geo s)))) (Some (py (s_p2 (geo s)))) (Some (cut_height depth s)) (Some a) None None \/
      exists ar, geo s = SArc ar /\
        o = OArc (ltb (sweep ar) (of_Z 0)) (px (ap2 ar)) (py (ap2 ar))
                 (sub (px (center ar)) (px (ap1 ar))) (sub (py (center ar)) (py (ap1 ar)))
                 (Some a) (Some (cut_height depth s)) None None.

  (** The same without the choice: lines become linear feeds, arcs become arc feeds. *)
  Definition cuts_exactly (depth : N) (s : cseg N) (o : @op N) : Prop :=
    exists a, o =
      match geo s with
      | SLine l => OFeed (Some (px (p2 l))) (Some (py (p2 l))) (Some (cut_height depth s)) (Some a) None None
      | SArc ar => OArc (ltb (sweep ar) (of_Z 0)) (px (ap2 ar)) (py (ap2 ar))
                     (sub (px (center ar)) (px (ap1 ar))) (sub (py (center ar)) (py (ap1 ar)))
                     (Some a) (Some (cut_height depth s)) None None
      end.

  (** The paths that are cut: the non-empty ones from number [start] on (1 is the first). *)
  Definition selected (start : Z) (l : list path) : list path :=
    filter (fun p => match p with [] => false | _ => true end) (skipn (Z.to_nat (start - 1)) l).

  (** A whole job that cuts [l] at the depths [ds] in this order, where [path_prog]
      says what the program of one path at one depth is. *)
  Definition job_program_of (path_prog : N -> path -> list (@op N) -> Prop)
      (home : bool) (start : Z) (l : list path) (ds : list N) (ops : list (@op N)) : Prop :=
    exists today body,
      concat_of (fun d => concat_of (path_prog d) (selected start l)) ds body /\
      ops = ([OHeader today None; OToolUp true None None] ++ body ++ [OToolUp true None None]
             ++ (if home then [ORapid (Some (of_Z 0)) (Some (of_Z 0)) None (Some (of_Z 0)) None] else [])
             ++ [OFooter])%list.

  (** The programs below are parametrised by the calls that may cut a segment. *)
  Section By.
  Variable cut : N -> cseg N -> @op N -> Prop.
  (** One segment: at most one rotation of the tool in place, then the cut. *)
  Definition segment_program_by (depth : N) (s : cseg N) (ops : list (@op N)) : Prop :=
    exists o, cut depth s o /\
      (ops = [o] \/ exists a, ops = [OFeed None None None (Some a) None None; o]).

  (** One path: comments, rapid to its first point, plunge, then its segments in order. *)
  Definition path_program_by (depth : N) (p : path) (ops : list (@op N)) : Prop :=
    exists s r text a body,
      p = s :: r /\
      ops = (OComment CNone false :: OComment (CStr text) false ::
             ORapid (Some (px (s_p1 (geo s)))) (Some (py (s_p1 (geo s)))) None (Some a) None ::
             OToolDown (match inline_z s with Some _ => of_Z 0 | None => depth end) None None None ::
             OComment (CStr "Start tool path") false :: body)%list /\
      concat_of (segment_program_by depth) p body.

  Definition job_program_by := job_program_of path_program_by.
  End By.
  Definition segment_program := segment_program_by cuts_segment.
  Definition path_program := path_program_by cuts_segment.
  Definition job_program := job_program_by cuts_segment.

  (** Where the calls take the tool in the XY plane. *)
  Definition xy_target (o : @op N) : list (pt N) :=
    match o with
    | ORapid (Some x) (Some y) _ _ _ => [P x y]
    | OFeed (Some x) (Some y) _ _ _ _ => [P x y]
    | OArc _ x y _ _ _ _ _ _ => [P x y]
    | _ => []
    end.
  Definition xy_route (ops : list (@op N)) : list (pt N) := flat_map xy_target ops.
  (** The vertices of a path. *)
  Definition vertices (p : path) : list (pt N) :=
    match p with [] => [] | s :: _ => s_p1 (geo s) :: map (fun s => s_p2 (geo s)) p end.

  (** [l'] is [l] with some paths traversed backwards. *)
  Definition backwards (p : path) : path :=
    map (fun s => mkseg (s_reversed (geo s)) None None None false false false) (rev p).
  Definition flipped_of (l l' : list path) : Prop := Forall2 (fun p p' => p' = p \/ p' = backwards p) l l'.
End Spec.
