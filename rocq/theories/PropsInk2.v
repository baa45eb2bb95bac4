(** * PropsInk2: what get_shape_elements does not do (C124), margins (C125), layers (C126, C127).  Specification: [InkSpec]. *)
From Verif Require Import Num NumR Str Geom GeomR GeomProofs GeomProofs2 GeomProofs4 Svg SvgSpec SvgProofs SvgDoc SvgDocSpec SvgDocProofs SvgDocProofs2 PropsSvg PropsSvgDoc Css CssSpec CssProofs PropsCss GeomSvg PropsGeomSvg2 Ink InkSpec InkProofs PropsInk.
From Coq Require Import String Ascii ZArith NArith List Bool Lia Reals Lra.
Import ListNotations.
Local Open Scope R_scope.

(** ** C124, continued *)
(** A comment next to the shapes makes it raise, wherever it is among them. *)
Theorem C124_comment_refuted fuel doc tags skip acc m ups root l1 u l2 :
  x_kids root = l1 ++ Xml u None [] [] :: l2 -> visible true ups root = Ok true ->
  forall out, get_shape_elements (N:=ROps) (S fuel) doc tags skip acc m ups root <> Ok out.
Proof.
  intros Hk Hv out. unfold get_shape_elements. rewrite Hv. cbn [rbind negb]. rewrite Hk. clear Hk. revert out.
  induction l1 as [|c l1 IH]; intros out.
  - cbn [app collect shape_nodes]. replace (visible false (root :: ups) (Xml u None [] [])) with (Ok true) by reflexivity. cbn [rbind negb].
    match goal with |- context[rbind (match m with Some _ => _ | None => _ end) _] => destruct (match m with Some m => Ok m | None => get_parent_transform (map (fun m0 : xml => x_get m0 "transform") (root :: ups)) end) as [m'|]; [|discriminate] end.
    cbn. discriminate.
  - cbn [app collect]. destruct (shape_nodes (S fuel) doc tags skip acc m false (root :: ups) c) as [o|]; [|discriminate]. cbn [rbind].
    destruct (collect _ _) as [o2|] eqn:Q; [destruct (IH o2 eq_refl)|discriminate].
Qed.
(** A use element inside the group it refers to: no depth of recursion is enough. *)
Definition loop_use := elem 3 "use" [(XLINK_HREF, "#a")]%string [].
Definition loop_group := elem 2 "g" [("id", "a")]%string [loop_use].
Definition loop_svg := elem 1 "svg" [] [loop_group].
Theorem C124_use_loop_refuted fuel : get_shape_elements (N:=ROps) fuel loop_svg DEFAULT_SHAPES [] true None [] loop_svg = Raise OutOfFuel.
Proof.
  assert (G : forall fuel m,
    shape_nodes (N:=ROps) fuel loop_svg DEFAULT_SHAPES [] true (Some m) false [loop_svg] loop_group = Raise OutOfFuel /\
    shape_nodes (N:=ROps) fuel loop_svg DEFAULT_SHAPES [] true (Some m) false [loop_group; loop_svg] loop_use = Raise OutOfFuel).
  { clear fuel. induction fuel as [|fuel IH]; intros m; [split; reflexivity|]. split.
    - assert (U : exists x, shape_nodes (N:=ROps) (S fuel) loop_svg DEFAULT_SHAPES [] true (Some m) false [loop_svg] loop_group =
          collect (shape_nodes (N:=ROps) fuel loop_svg DEFAULT_SHAPES [] true (Some x) false [loop_group; loop_svg]) [loop_use]) by (eexists; reflexivity).
      destruct U as (x & ->). cbn [collect]. destruct (IH x) as [_ ->]. reflexivity.
    - assert (U : exists x, shape_nodes (N:=ROps) (S fuel) loop_svg DEFAULT_SHAPES [] true (Some m) false [loop_group; loop_svg] loop_use =
          shape_nodes (N:=ROps) fuel loop_svg DEFAULT_SHAPES [] true (Some x) false [loop_svg] loop_group) by (eexists; reflexivity).
      destruct U as (x & ->). destruct (IH x) as [-> _]. reflexivity. }
  assert (U : get_shape_elements (N:=ROps) fuel loop_svg DEFAULT_SHAPES [] true None [] loop_svg =
     collect (shape_nodes (N:=ROps) fuel loop_svg DEFAULT_SHAPES [] true None false [loop_svg]) [loop_group]) by reflexivity.
  rewrite U. cbn [collect]. rewrite (shape_nodes_none loop_svg DEFAULT_SHAPES [] true fuel false [loop_svg] loop_group IDENTITY) by reflexivity.
  destruct (G fuel IDENTITY) as [-> _]. reflexivity.
Qed.
(** A shape whose visibility is 'visible' in a hidden group is drawn by SVG but not found; one with the attribute
    display="none" is not drawn but found; a labelled group that is no layer is skipped like a layer; what a symbol
    contains is drawn by a use element but not found. *)
Definition one_path (a : list (string * string)) := elem 3 "path" a [].
Definition in_group (a : list (string * string)) (k : xml) := elem 1 "svg" [] [elem 2 "g" a [k]].
Theorem C124_visible_child_refuted fuel :
  get_shape_elements (N:=ROps) (S fuel) (in_group [("visibility", "hidden")]%string (one_path [("visibility", "visible")]%string)) DEFAULT_SHAPES [] true None []
    (in_group [("visibility", "hidden")]%string (one_path [("visibility", "visible")]%string)) = Ok [].
Proof. reflexivity. Qed.
Theorem C124_display_attribute_refuted fuel : exists m,
  get_shape_elements (N:=ROps) (S (S fuel)) (in_group [] (one_path [("display", "none")]%string)) DEFAULT_SHAPES [] true None []
    (in_group [] (one_path [("display", "none")]%string)) = Ok [(one_path [("display", "none")]%string, m)].
Proof. eexists. reflexivity. Qed.
Theorem C124_labelled_group_refuted fuel :
  get_shape_elements (N:=ROps) (S fuel) (in_group [(INK_LABEL, "notes")]%string (one_path [])) DEFAULT_SHAPES [is_notes] true None []
    (in_group [(INK_LABEL, "notes")]%string (one_path [])) = Ok [].
Proof. reflexivity. Qed.
Definition symbol_svg := elem 1 "svg" [] [elem 2 "symbol" [("id", "a")]%string [one_path []]; elem 4 "use" [(XLINK_HREF, "#a")]%string []].
Theorem C124_symbol_refuted fuel : get_shape_elements (N:=ROps) (S (S fuel)) symbol_svg DEFAULT_SHAPES [] true None [] symbol_svg = Ok [].
Proof. reflexivity. Qed.

(** ** C125: the clipping rectangle.  Margins as in CSS: one for all sides; top and bottom, right and left; top, right and
    left, bottom; top, right, bottom, left.  Bottom is at y = 0. *)
Inductive margins : R -> list R -> R -> R -> R -> R -> Prop :=
| margins1 a : margins a [] a a a a
| margins2 a b : margins a [b] a b a b
| margins3 a b c : margins a [b; c] a b c b
| margins4 a b c d : margins a [b; c; d] a b c d.
Theorem C125_margins w h a args top right bottom left : margins a args top right bottom left ->
  left + right <= w -> bottom + top <= h ->
  let b := margin_cliprect (N:=ROps) w h a args in
  xmin b = left /\ w - xmax b = right /\ ymin b = bottom /\ h - ymax b = top.
Proof.
  intros M H1 H2. assert (E : margin_cliprect (N:=ROps) w h a args = mkbox (P left bottom) (P (w - right) (h - top))) by (inversion M; reflexivity).
  cbv zeta. rewrite E. unfold mkbox, xmin, xmax, ymin, ymax. cbn [b1 b2 px py]. rewrite !pymin_R, !pymax_R.
  rewrite Rmin_left, Rmin_left, Rmax_right, Rmax_right by (cbn; lra). cbn. repeat split; lra.
Qed.
Example C125_example : margins 1 [2; 3] 1 2 3 2 /\ 2 + 2 <= 100 /\ 3 + 1 <= 50.
Proof. split; [constructor|lra]. Qed.
(** In SVG coordinates y grows downwards, so the edge at y = 0 is the top: the margins of top and bottom change places. *)
Theorem C125_svg_top_refuted : exists w h a args top right bottom left, margins a args top right bottom left /\
  left + right <= w /\ bottom + top <= h /\ ymin (margin_cliprect (N:=ROps) w h a args) <> top.
Proof.
  exists 100, 100, 1, [1; 2], 1, 1, 2, 1. split; [constructor|]. split; [lra|]. split; [lra|].
  destruct (C125_margins 100 100 1 [1; 2] 1 1 2 1 (margins3 _ _ _)) as (_ & _ & H & _); [lra|lra|]. intros Q. cbv zeta in H.
  assert (2 = 1 :> R) by (rewrite <- H; exact Q). lra.
Qed.
