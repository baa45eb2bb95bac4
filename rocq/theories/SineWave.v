(** * SineWave: model of the extension tcnc/sinewave.py, from the options to the document.

    Not modelled: the command line and the conversion of its lengths to user units (SvgDoc.v has unit2uu), and
    scale_inline_style (svg.py 441-452): the style is an argument. *)
From Coq Require Import String Ascii ZArith NArith List Bool.
From Verif Require Import Num Str Geom Bezier Svg SvgDoc GeomSvg SvgOut Ink.
Import ListNotations.

(** [etree.SubElement(parent, ...)]: the document after it; [u] is the identity of the parent *)
Fixpoint add_child (u : nat) (k : xml) (n : xml) {struct n} : xml :=
  let 'Xml v t a l := n in
  if Nat.eqb u v then Xml v t a (l ++ [k]) else Xml v t a (map (add_child u k) l).
(** svg.py 719-725: [create_path]: the document afterwards; [fresh]: the identity of the new element *)
Definition create_path (doc : xml) (fresh : nat) (d : pystr) (style : pystr) (parent : xml) : xml :=
  add_child (x_uid parent) (Xml fresh (Some (L (SVG_NS ++ "path"))) [(L "d", d); (L "style", style)] []) doc.
Section SineWave.
  Context {N : NumOps} {E : Epsilon N}.
  (** svg.py 637-696: [create_polypath] with close_path=False; no element without segments *)
  Definition create_polypath (n : nat) (doc : xml) (fresh : nat) (path : list (gseg N)) (style : pystr) (parent : xml) : res xml :=
    rmap (fun d => match d with Some d => create_path doc fresh d style parent | None => doc end) (polypath_data n path false).
  (** sinewave.py 45-61: [run]; [view_height]: of the context; [n]: its precision; [fresh], [fresh']: the identities of the new
      elements *)
  Definition sinewave (n : nat) (doc : xml) (fresh fresh' : nat) (view_height : N) (style : pystr)
    (amplitude wavelength : N) (cycles : nat) (origin : pt N) : res xml :=
    rbind (create_layer doc fresh (L "sine wave") None true true (Some view_height) None) (fun '(doc, layer) =>
    create_polypath n doc fresh' (map (fun q => GCurve q) (bezier_sine_wave amplitude wavelength cycles origin)) style layer).
End SineWave.
