(** * SvgDoc: transform attributes, units and the view scale of tcnc/svg/svg.py. *)
From Coq Require Import String Ascii ZArith NArith List Bool.
From Verif Require Import Num Str Geom Svg.
Import ListNotations.

(** Whitespace of [str.split()], [str.strip()] and of [\s] in a regular expression. *)
Definition is_ws (c : ascii) : bool := cin c (" " ++ tab_nl_cr_ff_vt).

Fixpoint drop_while (p : ascii -> bool) (s : pystr) : pystr :=
  match s with c :: r => if p c then drop_while p r else s | [] => [] end.
(** [s.strip()] with the set of stripped characters given by [p] *)
Definition strip_by (p : ascii -> bool) (s : pystr) : pystr :=
  rev (drop_while p (rev (drop_while p s))).
Definition strip (s : pystr) : pystr := strip_by is_ws s.

(** [s.split()]: the maximal runs of non-blank characters; [w] is the current run. *)
Fixpoint split_ws_aux (w s : pystr) : list pystr :=
  match s with
  | [] => match w with [] => [] | _ => [w] end
  | c :: r => if is_ws c then match w with [] => split_ws_aux [] r | _ => w :: split_ws_aux [] r end
              else split_ws_aux (w ++ [c]) r
  end.
Definition split_ws (s : pystr) : list pystr := split_ws_aux [] s.
(** [s.replace(',', ' ')] *)
Definition commas_to_spaces (s : pystr) : pystr :=
  map (fun c => if Ascii.eqb c "," then " "%char else c) s.

(** ** svg.py 83-84: [_TRANSFORM_RE.findall].  No keyword is a prefix of another and blanks are
    not parentheses, so the matcher does not backtrack and this scanner is exact. *)
Definition keywords : list pystr :=
  [L "matrix"; L "translate"; L "scale"; L "rotate"; L "skewX"; L "skewY"].
Fixpoint lower_prefix (k s : pystr) : option (pystr * pystr) :=
  match k, s with
  | [], _ => Some ([], s)
  | a :: k', c :: r =>
      if Ascii.eqb (lower_ascii a) (lower_ascii c) then
        match lower_prefix k' r with Some (m, rest) => Some (c :: m, rest) | None => None end
      else None
  | _ :: _, [] => None
  end.
Fixpoint match_keyword (ks : list pystr) (s : pystr) : option (pystr * pystr) :=
  match ks with
  | [] => None
  | k :: r => match lower_prefix k s with Some x => Some x | None => match_keyword r s end
  end.
Definition match_transform (s : pystr) : option (pystr * pystr * pystr) :=
  match match_keyword keywords s with
  | None => None
  | Some (name, r) =>
      match drop_while is_ws r with
      | c :: r1 =>
          if Ascii.eqb c "(" then
            let '(args, r2) := span (fun c => negb (Ascii.eqb c ")")) r1 in
            match r2 with
            | [] => None
            | _ :: r3 =>
                let r4 := drop_while is_ws r3 in
                Some (name, args, match r4 with c :: r5 => if Ascii.eqb c "," then r5 else r4 | [] => r4 end)
            end
          else None
      | [] => None
      end
  end.
Fixpoint findall (fuel : nat) (s : pystr) : list (pystr * pystr) :=
  match fuel with
  | O => []
  | S k =>
      match s with
      | [] => []
      | _ :: tl =>
          match match_transform s with
          | Some (name, args, rest) => (name, args) :: findall k rest
          | None => findall k tl
          end
      end
  end.

Section Doc.
  Context {N : NumOps}.
  Local Open Scope num_scope.
  Local Open Scope res_scope.

  Fixpoint mapr {A B} (f : A -> res B) (l : list A) : res (list B) :=
    match l with
    | [] => Ok []
    | a :: r => do b <- f a; do bs <- mapr f r; Ok (b :: bs)
    end.

  Definition nth_res {A} (l : list A) (k : nat) : res A :=
    match nth_error l k with Some x => Ok x | None => Raise IndexError end.

  (** svg.py 406-433: the matrix of one transform of the list; [None] for a name that differs from
      the keywords in case. *)
  Definition transform_matrix (name : pystr) (vs : list N) : res (option (mat N)) :=
    if str_eqb name (L "translate") then
      do x <- nth_res vs 0;
      Ok (Some (translate x (match nth_error vs 1 with Some y => y | None => #0 end)))
    else if str_eqb name (L "scale") then
      do x <- nth_res vs 0;
      Ok (Some (mscale x (match nth_error vs 1 with Some y => y | None => x end) None))
    else if str_eqb name (L "rotate") then
      do a <- nth_res vs 0;
      Ok (Some (mrotate (radians a) (P (match nth_error vs 1 with Some y => y | None => #0 end)
                                       (match nth_error vs 2 with Some y => y | None => #0 end))))
    else if str_eqb name (L "skewX") then
      do a <- nth_res vs 0; Ok (Some (skew_x (radians a)))
    else if str_eqb name (L "skewY") then
      do a <- nth_res vs 0; Ok (Some (skew_y (radians a)))
    else if str_eqb name (L "matrix") then
      do a <- nth_res vs 0; do c <- nth_res vs 2; do e <- nth_res vs 4;
      do b <- nth_res vs 1; do d <- nth_res vs 3; do f <- nth_res vs 5;
      Ok (Some (Mx a c e b d f))
    else Ok None.

  Fixpoint transform_matrices (ts : list (pystr * pystr)) : res (list (mat N)) :=
    match ts with
    | [] => Ok []
    | (name, args) :: r =>
        do vs <- mapr py_float (split_ws (commas_to_spaces args));
        do m <- transform_matrix name vs;
        do ms <- transform_matrices r;
        Ok (match m with Some m => m :: ms | None => ms end)
    end.

  (** svg.py 390-440: [parse_transform_attr]; [None] is the Python None.  Simplification: float('nan')
      and float('inf') are rejected by the model, accepted by Python. *)
  Definition parse_transform_attr (attr : option pystr) : res (mat N) :=
    match attr with
    | None => Ok IDENTITY
    | Some s =>
        if forallb is_ws s then Ok IDENTITY
        else
          let t := strip s in
          do ms <- transform_matrices (findall (length t) t);
          Ok (fold_left compose ms IDENTITY)
    end.

  (** svg.py 1060-1063: [transform_attr] *)
  Definition transform_attr (m : mat N) : string :=
    let f x := dec_text 6 (fmt 6 x) in
    "matrix(" ++ f (m00 m) ++ "," ++ f (m10 m) ++ "," ++ f (m01 m) ++ "," ++ f (m11 m) ++ ","
      ++ f (m02 m) ++ "," ++ f (m12 m) ++ ")".

  (** svg.py 333-351: [get_parent_transform]; [ancestors]: the transform attributes of the parent, its
      parent, ..., up to but not including the root. *)
  Fixpoint parent_transform_loop (m : mat N) (ancestors : list (option pystr)) : res (mat N) :=
    match ancestors with
    | [] => Ok m
    | None :: r => parent_transform_loop m r
    | Some a :: r =>
        do pm <- parse_transform_attr (Some a);
        parent_transform_loop (compose pm m) r
    end.
  Definition get_parent_transform (ancestors : list (option pystr)) : res (mat N) :=
    parent_transform_loop (Mx #1 #0 #0 #0 #1 #0) ancestors.
  (** svg.py 312-330: [get_element_transform] *)
  Definition get_element_transform (own : option pystr) (ancestors : list (option pystr)) : res (mat N) :=
    do m <- get_parent_transform ancestors;
    match own with
    | Some (c :: r) => do nm <- parse_transform_attr (Some (c :: r)); Ok (compose m nm)
    | _ => Ok m
    end.

  (** ** Units *)
  (** svg.py 67-77: [_UU_CONV]; [em] and [ex] are set by the constructor (143-148). *)
  Record units := Units { u_em : N; u_ex : N }.
  Definition UU_CONV (u : units) (name : pystr) : option N :=
    if str_eqb name (L "em") then Some (u_em u)
    else if str_eqb name (L "ex") then Some (u_ex u)
    else if str_eqb name (L "px") then Some (lit 1 0)
    else if str_eqb name (L "pt") then Some (lit 125 (-2))
    else if str_eqb name (L "pc") then Some (lit 15 0)
    else if str_eqb name (L "mm") then Some (lit 3543307 (-6))
    else if str_eqb name (L "cm") then Some (lit 3543307 (-5))
    else if str_eqb name (L "in") then Some (lit 90 0)
    else if str_eqb name (L "m") then Some (lit 3543307 (-3))
    else if str_eqb name (L "ft") then Some (lit 1080 0)
    else if str_eqb name (L "yd") then Some (lit 3240 0)
    else None.
  Definition unit_names : list pystr :=
    [L "em"; L "ex"; L "px"; L "pt"; L "pc"; L "mm"; L "cm"; L "in"; L "m"; L "ft"; L "yd"].

  (** svg.py 80: [_UU_FLOAT.match]: the longest numeral at the start of the text.  The pattern does
      not backtrack: an exponent without digits is left out. *)
  Definition split_sign (s : pystr) : pystr * pystr :=
    match s with c :: r => if cin c "-+" then ([c], r) else ([], s) | [] => ([], s) end.
  Definition match_float (s : pystr) : option pystr :=
    let '(sg, r) := split_sign s in
    let '(ip, r1) := span is_digit r in
    let mant :=
      match ip, r1 with
      | [], c :: r2 =>
          if Ascii.eqb c "." then
            let '(fp, r3) := span is_digit r2 in
            match fp with [] => None | _ => Some (c :: fp, r3) end
          else None
      | [], [] => None
      | _, c :: r2 =>
          if Ascii.eqb c "." then let '(fp, r3) := span is_digit r2 in Some (ip ++ c :: fp, r3)
          else Some (ip, r1)
      | _, [] => Some (ip, r1)
      end in
    match mant with
    | None => None
    | Some (m, r3) =>
        match r3 with
        | c :: r4 =>
            if cin c "eE" then
              let '(es, r5) := split_sign r4 in
              let '(ed, _) := span is_digit r5 in
              match ed with
              | [] => Some (sg ++ m)
              | _ => Some (sg ++ m ++ c :: es ++ ed)
              end
            else Some (sg ++ m)
        | [] => Some (sg ++ m)
        end
    end.
  (** svg.py 79: [_UU_UNIT.search]: the leftmost, hence longest, unit name that ends the text; [$]
      also matches before a final newline. *)
  Fixpoint search_unit (s : pystr) : option pystr :=
    match find (fun u => str_eqb s u || str_eqb s (u ++ ["010"%char])) unit_names with
    | Some u => Some u
    | None => match s with [] => None | _ :: r => search_unit r end
    end.

  (** A value given to the conversion functions. *)
  Inductive uvalue := VStr (s : pystr) | VNum (x : N) | VNone.

  (** svg.py 227-262: [unit_convert].  [re.match] on something that is not a string raises
      TypeError, and so does arithmetic on the fallback strings of [dict.get]. *)
  Definition unit_convert (u : units) (value : uvalue) (to_unit from_unit : pystr) : res N :=
    match value with
    | VNum _ | VNone => Raise TypeError
    | VStr s =>
        match match_float s with
        | None => Ok (lit 0 0)
        | Some t =>
            do v <- py_float t;
            let src := match search_unit s with
                       | Some name => UU_CONV u name
                       | None => UU_CONV u from_unit
                       end in
            match src, UU_CONV u to_unit with
            | Some a, Some b => do q <- pydiv a b; Ok (v * q)
            | _, _ => Raise TypeError
            end
        end
    end.
  (** svg.py 189-211: [unit2uu] *)
  Definition unit2uu (u : units) (scale : N) (value : uvalue) (from_unit : pystr) : res N :=
    match value with
    | VNum x => match UU_CONV u from_unit with
                | Some c => Ok (x * c * scale)
                | None => Raise KeyError
                end
    | _ => do uu <- unit_convert u value (L "px") from_unit; Ok (uu * scale)
    end.
  (** svg.py 213-225: [uu2unit] *)
  Definition uu2unit (u : units) (scale : N) (value : uvalue) (to_unit : pystr) : res N :=
    do v <- unit_convert u value to_unit (L "px"); pydiv v scale.

  (** svg.py 158-187: the view scale of a document of the given viewport size, with the numbers of its
      viewBox attribute if there is one; [Raise NameError] stands for the plain Exception at 182. *)
  Definition view_scale (eps vw vh : N) (viewbox : option (list N)) : res N :=
    let vb := match viewbox with Some l => l | None => [#0; #0; vw; vh] end in
    do x0 <- nth_res vb 0; do y0 <- nth_res vb 1; do x1 <- nth_res vb 2; do y1 <- nth_res vb 3;
    do sw <- pydiv (x1 - x0) vw;
    do sh <- pydiv (y1 - y0) vh;
    if abs (sw - sh) <? eps then Ok sw else Raise NameError.
End Doc.
Arguments units N : clear implicits.
Arguments uvalue N : clear implicits.
