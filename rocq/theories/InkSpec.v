(** * InkSpec: what an SVG drawing shows.  Only the data type [xml] comes from the model. *)
From Verif Require Import Num NumR Svg SvgSpec SvgDocSpec CssSpec Ink.
From Coq Require Import String Ascii ZArith NArith List Bool Reals.
Import ListNotations.
Local Open Scope R_scope.

Definition text : string -> list ascii := list_ascii_of_string.
(** ** Attributes *)
Definition has (n : xml) (name : string) (v : list ascii) : Prop := In (text name, v) (x_attrs n).
Definition lacks (n : xml) (name : string) : Prop := ~ In (text name) (map fst (x_attrs n)).
(** in XML no attribute is given twice *)
Definition proper (n : xml) : Prop := NoDup (map fst (x_attrs n)).

(** ** Where a node is: [at_node doc ups n], n is a node of doc, [ups] its ancestors, the parent first *)
Inductive at_node (doc : xml) : list xml -> xml -> Prop :=
| at_root : at_node doc [] doc
| at_kid ups n k : at_node doc ups n -> In k (x_kids n) -> at_node doc (n :: ups) k.
(** a document: attributes are not repeated, ids neither *)
Definition wf_doc (doc : xml) : Prop :=
  (forall ups n, at_node doc ups n -> proper n) /\
  (forall u1 n1 u2 n2 id, at_node doc u1 n1 -> at_node doc u2 n2 -> has n1 "id" id -> has n2 "id" id ->
     u1 = u2 /\ n1 = n2).

(** ** Kinds of elements *)
Definition svg_uri : string := "http://www.w3.org/2000/svg".
(** an element of that name, in the namespace of SVG or in none *)
Definition element (n : xml) (name : string) : Prop :=
  x_tag n = Some (text name) \/ x_tag n = Some (text ("{" ++ svg_uri ++ "}" ++ name)).
(** its name without the namespace *)
Definition local_name (n : xml) (w : list ascii) : Prop :=
  ~ In "}"%char w /\ (x_tag n = Some w \/ exists ns, x_tag n = Some (ns ++ "}"%char :: w)).

(** ** Visibility *)
(** the declarations of the style attribute *)
Definition style (n : xml) (l : list (list ascii * list ascii)) : Prop :=
  (lacks n "style" /\ l = []) \/
  exists s, has n "style" s /\ Forall (fun nv => word (fst nv) /\ word (snd nv)) l /\ spells_style l s.
(** the visibility: from the style or, failing that, from the attribute *)
Definition visibility (n : xml) (v : string) : Prop :=
  exists l, style n l /\
    (declared l (text "visibility") (text v) \/ ~ In (text "visibility") (map fst l) /\ has n "visibility" (text v)).
Definition hides (n : xml) : Prop :=
  (exists l, style n l /\ declared l (text "display") (text "none")) \/ visibility n "hidden" \/ visibility n "collapse".
Definition readable (n : xml) : Prop := exists l, style n l.
(** a node inside shown ancestors; one that says 'inherit' asks its ancestors again *)
Definition shown (ups : list xml) (n : xml) : Prop :=
  ~ hides n /\ (visibility n "inherit" -> Forall (fun m => ~ hides m) ups).
Definition shown_with_ancestors (ups : list xml) (n : xml) : Prop := Forall (fun m => ~ hides m) (n :: ups).

(** ** Transforms *)
Definition transform (n : xml) (l : list xform) : Prop :=
  (lacks n "transform" /\ l = []) \/ exists s, has n "transform" s /\ Forall xform_ok l /\ xlist l s.
(** A placement: where the points of the element's own coordinate system go. *)
Definition placement : Type := R * R -> R * R.
Definition within (f g : placement) : placement := fun p => f (g p).
Definition shift (x y : R) : placement := fun p => (fst p + x, snd p + y).
(** a coordinate of a use element *)
Definition coordinate (n : xml) (name : string) (x : R) : Prop :=
  (lacks n name /\ x = 0) \/ exists d, numeral_ok d /\ has n name (numeral_text d) /\ x = value d.

(** ** What is drawn: a shape in its place, or several things in a common place *)
Inductive picture := Draw (n : xml) (f : placement) | Group (f : placement) (l : list picture).
Definition nothing : picture := Group (fun p => p) [].
Definition href : string := "{http://www.w3.org/1999/xlink}href".
Definition label : string := "{http://www.inkscape.org/namespaces/inkscape}label".
Section Pictures.
  Variable doc : xml.
  Variable tags : list (list ascii).      (* the shapes asked for *)
  Variable skipped : list ascii -> Prop.  (* the names of the layers to skip *)
  Definition skipped_layer (n : xml) : Prop := exists name, has n label name /\ name <> [] /\ skipped name.
  (** the element below the root with that id *)
  Definition target (id : list ascii) (ups : list xml) (t : xml) : Prop :=
    at_node doc ups t /\ ups <> [] /\ has t "id" id /\ x_tag t <> None.
  Inductive pictures : list xml -> xml -> picture -> Prop :=
  | p_hidden ups n : ~ shown ups n -> pictures ups n nothing
  | p_skip ups n l : shown ups n -> element n "g" -> skipped_layer n -> transform n l -> pictures ups n nothing
  | p_group ups n l ps : shown ups n -> element n "g" -> ~ skipped_layer n -> transform n l ->
      all_pictures (n :: ups) (x_kids n) ps -> pictures ups n (Group (acts_all l) ps)
  | p_use ups n l c id tups t x y p : shown ups n -> element n "use" -> transform n l ->
      has n href (c :: id) -> target id tups t -> coordinate n "x" x -> coordinate n "y" y ->
      pictures tups t p -> pictures ups n (Group (within (acts_all l) (shift x y)) [p])
  | p_use_nothing ups n l : shown ups n -> element n "use" -> transform n l ->
      (forall c id, has n href (c :: id) -> forall tups t, ~ target id tups t) -> pictures ups n nothing
  | p_shape ups n l w : shown ups n -> ~ element n "g" -> ~ element n "use" -> transform n l ->
      local_name n w -> In w tags -> pictures ups n (Draw n (acts_all l))
  | p_other ups n l w : shown ups n -> ~ element n "g" -> ~ element n "use" -> transform n l ->
      local_name n w -> ~ In w tags -> pictures ups n nothing
  with all_pictures : list xml -> list xml -> list picture -> Prop :=
  | ps_nil ups : all_pictures ups [] []
  | ps_cons ups n r p ps : pictures ups n p -> all_pictures ups r ps -> all_pictures ups (n :: r) (p :: ps).
End Pictures.
Scheme pictures_rec := Minimality for pictures Sort Prop
  with all_pictures_rec := Minimality for all_pictures Sort Prop.
Combined Scheme pictures_mut from pictures_rec, all_pictures_rec.

(** the shapes of a picture in order, each with its place: in the drawing ([acc]), or only by its own transform *)
Definition placed (acc : bool) (f g : placement) : placement := if acc then within f g else g.
Fixpoint shapes (acc : bool) (f : placement) (p : picture) {struct p} : list (xml * placement) :=
  match p with
  | Draw n g => [(n, placed acc f g)]
  | Group g l => (fix go l := match l with [] => [] | p :: r => shapes acc (placed acc f g) p ++ go r end) l
  end.
(** the transforms of the ancestors, the outermost last *)
Inductive ancestors_place : list xml -> placement -> Prop :=
| ap_nil : ancestors_place [] (fun p => p)
| ap_cons n ups l f : transform n l -> ancestors_place ups f -> ancestors_place (n :: ups) (within f (acts_all l)).
