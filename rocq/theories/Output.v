(** * Output: model of tcnc/cam/output.py, the name of the output file.

    Simplifications: POSIX file names in ASCII; a path that starts with "~name" is not looked up in the user data
    base; file names asked for contain no characters special to fnmatch; the names in a directory are a function of
    its path, in whatever order the operating system lists them. *)
From Coq Require Import String Ascii ZArith NArith List Bool Arith.
From Verif Require Import Num Str Svg SvgDoc.
Import ListNotations.
Local Open Scope res_scope.

(** [s.split('/')] (Python library, used by posixpath.normpath) *)
Fixpoint split_on (sep : ascii) (s : pystr) : list pystr :=
  match s with
  | [] => [[]]
  | c :: r =>
      match split_on sep r with
      | w :: ws => if Ascii.eqb c sep then [] :: w :: ws else (c :: w) :: ws
      | [] => [[c]]
      end
  end.
(** ['/'.join(comps)] *)
Fixpoint join_with (sep : ascii) (l : list pystr) : pystr :=
  match l with [] => [] | [w] => w | w :: ws => w ++ sep :: join_with sep ws end.
(** posixpath.normpath, the loop over the components, [acc] = new_comps reversed; the path is absolute *)
Fixpoint norm_comps (acc : list pystr) (l : list pystr) : list pystr :=
  match l with
  | [] => rev acc
  | c :: r =>
      if str_eqb c [] || str_eqb c (L ".") then norm_comps acc r
      else if str_eqb c (L "..") then
        match acc with
        | [] => norm_comps [] r
        | a :: acc' => if str_eqb a (L "..") then norm_comps (c :: acc) r else norm_comps acc' r
        end
      else norm_comps (c :: acc) r
  end.
Definition normpath (p : pystr) : pystr :=
  let slashes := match p with
                 | "/"%char :: "/"%char :: "/"%char :: _ => L "/"
                 | "/"%char :: "/"%char :: _ => L "//"
                 | _ => L "/"
                 end in
  slashes ++ join_with "/" (norm_comps [] (split_on "/" p)).
(** posixpath.join of two parts *)
Definition path_join (a b : pystr) : pystr :=
  match b with
  | "/"%char :: _ => b
  | _ => match rev a with
         | [] => b
         | "/"%char :: _ => a ++ b
         | _ => a ++ "/"%char :: b
         end
  end.
(** posixpath.abspath; [cwd] is absolute *)
Definition abspath (cwd p : pystr) : pystr :=
  normpath (match p with "/"%char :: _ => p | _ => path_join cwd p end).
(** [s.rstrip('/')] *)
Fixpoint drop_slashes (s : pystr) : pystr :=
  match s with "/"%char :: r => drop_slashes r | _ => s end.
Definition rstrip_slash (s : pystr) : pystr := rev (drop_slashes (rev s)).
(** posixpath.expanduser with $HOME = [home] *)
Definition expanduser (home p : pystr) : pystr :=
  match p with
  | ["~"%char] => match rstrip_slash home with [] => L "/" | h => h end
  | "~"%char :: "/"%char :: r => rstrip_slash home ++ "/"%char :: r
  | _ => p
  end.
(** posixpath.split: up to the last slash, and what follows it *)
Fixpoint last_part (s : pystr) : pystr * pystr :=
  match s with
  | [] => ([], [])
  | c :: r =>
      let '(h, t) := last_part r in
      match h with
      | [] => if Ascii.eqb c "/" then ([c], t) else ([], c :: t)
      | _ => (c :: h, t)
      end
  end.
Definition path_split (p : pystr) : pystr * pystr :=
  let '(h, t) := last_part p in
  ((if forallb (fun c => Ascii.eqb c "/") h then h else rstrip_slash h), t).
(** posixpath.splitext of a name without slashes: at the last dot, unless only dots come before it *)
Fixpoint last_dot (s : pystr) : option (pystr * pystr) :=
  match s with
  | [] => None
  | c :: r =>
      match last_dot r with
      | Some (a, b) => Some (c :: a, b)
      | None => if Ascii.eqb c "." then Some ([], s) else None
      end
  end.
Definition splitext (s : pystr) : pystr * pystr :=
  match last_dot s with
  | Some (a, b) => if forallb (fun c => Ascii.eqb c ".") a then (s, []) else (a, b)
  | None => (s, [])
  end.

(** Is [p] at the front: what is left then *)
Fixpoint after (p s : pystr) : option pystr :=
  match p, s with
  | [], _ => Some s
  | a :: p', b :: s' => if Ascii.eqb a b then after p' s' else None
  | _ :: _, [] => None
  end.
(** fnmatch.fnmatchcase(name, root + '_[0-9]*' + ext) *)
Definition fn_match (root ext name : pystr) : bool :=
  match after (root ++ L "_") name with
  | Some (d :: r) => is_digit d && (match after (rev ext) (rev r) with Some _ => true | None => false end)
  | _ => false
  end.
(** '%04d' % n *)
Definition pad4 (n : Z) : pystr :=
  let t := L (N_text (Z.abs_N n)) in
  let w := if (n <? 0)%Z then 3 else 4 in
  (if (n <? 0)%Z then L "-" else []) ++ repeat "0"%char (w - List.length t) ++ t.
(** file_root[-4:], file_root[:-4] *)
Definition last4 (s : pystr) : pystr := skipn (List.length s - 4) s.
Definition but_last4 (s : pystr) : pystr := firstn (List.length s - 4) s.

(** output.py 47-71: the base name, with [files] = os.listdir(filedir) *)
Definition create_basename (basename : pystr) (append_suffix : bool) (files : list pystr)
    (default_basename default_ext : pystr) : res pystr :=
  let '(file_root, file_ext) := splitext basename in
  let file_root := match file_root with [] => default_basename | _ => file_root end in
  let file_ext := match file_ext with [] => default_ext | _ => file_ext end in
  if append_suffix then
    match rev (filter (fn_match file_root file_ext) files) with
    | last_file :: _ =>
        let '(file_root, file_ext) := splitext last_file in
        if Nat.ltb 4 (List.length file_root) then
          let suffix := match py_int (strip (last4 file_root)) with Ok n => (n + 1)%Z | Raise _ => 0%Z end in
          Ok (but_last4 file_root ++ pad4 suffix ++ file_ext)
        else Raise UnboundLocalError
    | [] => Ok (file_root ++ L "_0000" ++ file_ext)
    end
  else Ok (file_root ++ file_ext).
(** output.py 27-72: create_pathname.  The directory of an absolute path is never empty, so that default_dir
    (lines 45-46) has no effect. *)
Definition create_pathname (cwd home : pystr) (listdir : pystr -> list pystr) (filepath : pystr) (append_suffix : bool) : res pystr :=
  let filepath := abspath cwd (expanduser home (strip filepath)) in
  let '(filedir, basename) := path_split filepath in
  do basename <- create_basename basename append_suffix (listdir filedir) (L "output") (L ".ngc");
  Ok (path_join filedir basename).
