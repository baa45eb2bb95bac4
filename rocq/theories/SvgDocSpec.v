(** * SvgDocSpec: the meaning of SVG transform lists and units, over R. *)
From Verif Require Import Num NumR SvgSpec.
From Coq Require Import String Ascii ZArith NArith List Bool Reals.
Import ListNotations.
Local Open Scope R_scope.

(** ** Transforms *)
Inductive xform :=
| XTranslate (x : numeral) (y : option numeral)
| XScale (x : numeral) (y : option numeral)
| XRotate (a : numeral) (c : option (numeral * numeral))
| XSkewX (a : numeral) | XSkewY (a : numeral)
| XMatrix (a b c d e f : numeral).

Definition xname (t : xform) : list ascii :=
  list_ascii_of_string
    (match t with
     | XTranslate _ _ => "translate" | XScale _ _ => "scale" | XRotate _ _ => "rotate"
     | XSkewX _ => "skewX" | XSkewY _ => "skewY" | XMatrix _ _ _ _ _ _ => "matrix" end)%string.
Definition opt {A} (o : option A) : list A := match o with Some a => [a] | None => [] end.
Definition xargs (t : xform) : list numeral :=
  match t with
  | XTranslate x y | XScale x y => x :: opt y
  | XRotate a None => [a]
  | XRotate a (Some (x, y)) => [a; x; y]
  | XSkewX a | XSkewY a => [a]
  | XMatrix a b c d e f => [a; b; c; d; e; f]
  end.

Definition value (n : numeral) : R := numeral_value (N:=ROps) n.
Definition degree : R := PI / 180.
(** how a transform moves a point *)
Definition acts (t : xform) (p : R * R) : R * R :=
  let '(x, y) := p in
  match t with
  | XTranslate a None => (x + value a, y)
  | XTranslate a (Some b) => (x + value a, y + value b)
  | XScale a None => (value a * x, value a * y)
  | XScale a (Some b) => (value a * x, value b * y)
  | XRotate a None =>
      let t := value a * degree in (x * Rtrigo_def.cos t - y * Rtrigo_def.sin t, x * Rtrigo_def.sin t + y * Rtrigo_def.cos t)
  | XRotate a (Some (cx, cy)) =>
      let t := value a * degree in
      let u := x - value cx in let v := y - value cy in
      (value cx + (u * Rtrigo_def.cos t - v * Rtrigo_def.sin t), value cy + (u * Rtrigo_def.sin t + v * Rtrigo_def.cos t))
  | XSkewX a => (x + y * Rtrigo1.tan (value a * degree), y)
  | XSkewY a => (x, y + x * Rtrigo1.tan (value a * degree))
  | XMatrix a b c d e f =>
      (value a * x + value c * y + value e, value b * x + value d * y + value f)
  end.
(** A transform list: the last one is applied first. *)
Definition acts_all (l : list xform) (p : R * R) : R * R := fold_right acts p l.

(** Spelling: blanks and commas between the arguments and between the transforms, blanks before the
    parenthesis. *)
Definition blank (c : ascii) : Prop := In c [" "; "009"; "010"; "013"; "012"; "011"]%char.
Definition gapchar (c : ascii) : Prop := blank c \/ c = ","%char.
Inductive arglist : list numeral -> list ascii -> Prop :=
| al_end g : Forall gapchar g -> arglist [] g
| al_cons g n l t : Forall gapchar g -> arglist l t ->
    (l <> [] -> exists c r, t = c :: r /\ gapchar c) ->
    arglist (n :: l) (g ++ numeral_text n ++ t).
Inductive xlist : list xform -> list ascii -> Prop :=
| xl_end g : Forall gapchar g -> xlist [] g
| xl_cons g x b a l t : Forall gapchar g -> Forall blank b -> arglist (xargs x) a -> xlist l t ->
    xlist (x :: l) (g ++ xname x ++ b ++ "("%char :: a ++ ")"%char :: t).
Definition xform_ok (t : xform) : Prop := Forall numeral_ok (xargs t).

(** ** Units: user units (1/90 inch) in one unit; em and ex are given. *)
Inductive unit_name := Em | Ex | Px | Pt | Pc | Mm | Cm | Inch | Meter | Foot | Yard.
Definition unit_text (u : unit_name) : list ascii :=
  list_ascii_of_string
    (match u with Em => "em" | Ex => "ex" | Px => "px" | Pt => "pt" | Pc => "pc" | Mm => "mm" | Cm => "cm"
     | Inch => "in" | Meter => "m" | Foot => "ft" | Yard => "yd" end)%string.
Definition user_units (em ex : R) (u : unit_name) : R :=
  match u with
  | Em => em | Ex => ex | Px => 1 | Pt => 90 / 72 | Pc => 90 / 6
  | Mm => 90 / 25.4 | Cm => 90 / 2.54 | Inch => 90 | Meter => 90 / 0.0254 | Foot => 90 * 12 | Yard => 90 * 36
  end.
