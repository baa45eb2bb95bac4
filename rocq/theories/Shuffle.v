(** * Shuffle: the path shuffler extension (tcnc/pathshuffler.py). *)
From Coq Require Import String Ascii ZArith NArith List Bool.
From Verif Require Import Num Str Geom Svg SvgDoc.
Import ListNotations.

(** Python 2.7 random.py: [shuffle]: for i from n-1 down to 1, swap item i with item j, where
    j = int(random() * (i + 1)).  [draw i] is the random choice; the modulus keeps it in range. *)
Fixpoint upd {A} (k : nat) (a : A) (l : list A) : list A :=
  match l, k with
  | [], _ => []
  | _ :: r, O => a :: r
  | x :: r, S k => x :: upd k a r
  end.
Definition swap {A} (i j : nat) (l : list A) : list A :=
  match nth_error l i, nth_error l j with
  | Some a, Some b => upd j a (upd i b l)
  | _, _ => l
  end.
Fixpoint shuffle_down {A} (draw : nat -> nat) (i : nat) (l : list A) : list A :=
  match i with
  | O => l
  | S k => shuffle_down draw k (swap (S k) (draw (S k) mod (S (S k))) l)
  end.
Definition shuffle {A} (draw : nat -> nat) (l : list A) : list A := shuffle_down draw (length l - 1) l.

Section Run.
  Context {N : NumOps}.
  Local Open Scope res_scope.

  (** An element: is it a path, its d, style and transform attributes, and the transform attributes of
      its ancestors from the parent up to the root. *)
  Record elem := Elem { e_path : bool; e_d : pystr; e_style : option pystr;
                        e_transform : option pystr; e_ancestors : list (option pystr) }.
  (** An element of the new layer: a given element moved there, or a new path element with one
      segment as data (the text of the data is not modelled, see [explode_path]). *)
  Inductive item := Moved (e : elem)
                  | Piece (p : (N * N) * ascii * list (pval N)) (style : option pystr) (transform : option string).

  (** pathshuffler.py 88-106 *)
  Definition explode_elem (e : elem) : res (list item) :=
    do m <- get_element_transform (N:=N) (e_transform e) (e_ancestors e);
    let tr := if is_identity m then None else Some (transform_attr m) in
    do pieces <- explode_path (N:=N) (e_d e);
    let style := match e_style e with Some (_ :: _) => e_style e | _ => None end in
    Ok (map (fun p => Piece p style tr) pieces).
  Fixpoint explode_all (es : list elem) : res (list item) :=
    match es with
    | [] => Ok []
    | e :: r => do a <- explode_elem e; do b <- explode_all r; Ok (a ++ b)
    end.

  Inductive arrange := MShuffle | MReverse | MOther.
  (** pathshuffler.py 48-119: [run].  [layers]: the selected elements, or the elements of each visible
      layer; the result is the content of the new layer, [None] if none is created. *)
  Definition run (opt_shuffle opt_explode : bool) (method : arrange) (draw : nat -> nat)
      (layers : list (list elem)) : res (option (list item)) :=
    if negb opt_shuffle && negb opt_explode then Ok None
    else
      let layer_paths := filter (fun l => match l with [] => false | _ => true end) (map (filter e_path) layers) in
      match layer_paths with
      | [] => Ok None
      | _ =>
          do paths <- (if opt_explode then explode_all (concat layer_paths)
                       else Ok (map Moved (concat layer_paths)));
          Ok (Some (match method with
                    | MShuffle => shuffle draw paths
                    | MReverse => rev paths
                    | MOther => paths
                    end))
      end.
End Run.
Arguments item N : clear implicits.
