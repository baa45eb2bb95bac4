(** * Ink: model of tcnc/inkscape/inksvg.py, the drawing as a tree of XML nodes.

    Simplifications: attribute values are ASCII text; names and ids contain no double quote (they are pasted into
    XPath expressions); a regular expression of [skip_layers] is the set of the names it matches; Python's recursion
    limit is the fuel, so that RuntimeError is [OutOfFuel]. *)
From Coq Require Import String Ascii ZArith NArith List Bool.
From Verif Require Import Num Str Geom Svg SvgDoc Css GeomSvg.
Import ListNotations.

(** A node of an lxml tree: the identity of the Python object, the tag (None: a comment or a processing
    instruction, whose tag is a function), attributes, children. *)
Inductive xml := Xml (uid : nat) (tag : option pystr) (attrs : list (pystr * pystr)) (kids : list xml).
Definition x_uid (n : xml) : nat := let 'Xml u _ _ _ := n in u.
Definition x_tag (n : xml) : option pystr := let 'Xml _ t _ _ := n in t.
Definition x_attrs (n : xml) : list (pystr * pystr) := let 'Xml _ _ a _ := n in a.
Definition x_kids (n : xml) : list xml := let 'Xml _ _ _ k := n in k.
(** [node.get(name)] *)
Definition x_get (n : xml) (name : string) : option pystr :=
  match find (fun kv => str_eqb (fst kv) (L name)) (x_attrs n) with Some kv => Some (snd kv) | None => None end.

(** svg.py 38-40, inksvg.py 46-48: [svg_ns('g')], [inkscape_ns('label')] ... *)
Definition SVG_NS : string := "{http://www.w3.org/2000/svg}".
Definition XLINK_HREF : string := "{http://www.w3.org/1999/xlink}href".
Definition INK_LABEL : string := "{http://www.inkscape.org/namespaces/inkscape}label".
Definition INK_GROUPMODE : string := "{http://www.inkscape.org/namespaces/inkscape}groupmode".
Definition SODIPODI_INSENSITIVE : string := "{http://sodipodi.sourceforge.net/DTD/sodipodi-0.dtd}insensitive".
Definition UTLCO_TAG : string := "{http://www.utlco.com/namespaces/utlco}tag".

(** [node.tag == svg_ns(name)], [node.tag == name] *)
Definition tag_is (n : xml) (name : string) : bool :=
  match x_tag n with Some t => str_eqb t (L name) | None => false end.
Definition is_element (n : xml) : bool := match x_tag n with Some _ => true | None => false end.
(** svg.py 499-501: [node_is_group] *)
Definition node_is_group (n : xml) : bool := tag_is n (SVG_NS ++ "g") || tag_is n "g".
(** 419 *)
Definition node_is_use (n : xml) : bool := tag_is n (SVG_NS ++ "use") || tag_is n "use".

(** A node together with its ancestors, the parent first. *)
Definition located : Type := list xml * xml.
(** the node and everything below it, in document order *)
Fixpoint walk (ups : list xml) (n : xml) {struct n} : list located :=
  let 'Xml u t a k := n in
  (ups, n) :: (fix go l := match l with [] => [] | c :: r => walk (n :: ups) c ++ go r end) k.
(** [n.iterdescendants()] *)
Definition below (ups : list xml) (n : xml) : list located := flat_map (walk (n :: ups)) (x_kids n).

(** svg.py 1047-1057: [get_node_by_id] on an ElementTree, [find('//*[@id="..."]')]: the first element below (not
    at) the root with this id *)
Definition get_node_by_id (doc : xml) (id : pystr) : option located :=
  find (fun c => is_element (snd c) && match x_get (snd c) "id" with Some i => str_eqb i id | None => false end)
    (below [] doc).

(** svg.py 358-388, see Css.v *)
Definition visible (check_parent : bool) (ups : list xml) (n : xml) : res bool :=
  Css.node_is_visible false check_parent (map (fun m => Css.Node (x_get m "style") (x_get m "visibility")) (n :: ups)).

(** 254-257: [get_layer_name] *)
Definition get_layer_name (n : xml) : option pystr := x_get n INK_LABEL.
(** 328-334: [is_layer].  The value is the name itself, or False. *)
Definition is_layer (n : xml) : option pystr :=
  if node_is_group n then match get_layer_name n with Some (c :: r) => Some (c :: r) | _ => None end else None.

Section Ink.
  Context {N : NumOps}.
  Local Open Scope num_scope.
  Local Open Scope res_scope.

  (** [nodes.extend(f(node))] for each node *)
  Fixpoint collect {A B} (f : A -> res (list B)) (l : list A) : res (list B) :=
    match l with
    | [] => Ok []
    | a :: r => do x <- f a; do y <- collect f r; Ok (x ++ y)
    end.

  (** 428-429: [float(node.get('x', '0'))] *)
  Definition use_offset (n : xml) (name : string) : res N :=
    match x_get n name with Some s => py_float s | None => Ok #0 end.

  (** 377-439: [_get_shape_nodes_recurs] *)
  Fixpoint shape_nodes (fuel : nat) (doc : xml) (shapetags : list pystr) (skip_layers : list (pystr -> bool))
    (accumulate_transform : bool) (parent_transform : option (mat N)) (check_parent : bool) (ups : list xml) (n : xml)
    : res (list (xml * mat N)) :=
    match fuel with
    | O => Raise OutOfFuel
    | S fuel =>
        do vis <- visible check_parent ups n;
        if negb vis then Ok []
        else
          do pm <- match parent_transform with
                   | Some m => Ok m
                   | None => get_parent_transform (map (fun m => x_get m "transform") ups)
                   end;
          do own <- parse_transform_attr (x_get n "transform");
          let m := if accumulate_transform then compose pm own else own in
          let go := shape_nodes fuel doc shapetags skip_layers accumulate_transform in
          if node_is_group n then
            if match is_layer n with Some name => existsb (fun skip => skip name) skip_layers | None => false end
            then Ok []
            else collect (go (Some m) false (n :: ups)) (x_kids n)
          else if node_is_use n then
            match x_get n XLINK_HREF with
            | Some (_ :: id) =>
                match get_node_by_id doc id with
                | Some (tups, t) =>
                    do x <- use_offset n "x";
                    do y <- use_offset n "y";
                    let m := if negb (x =? #0) || negb (y =? #0) then compose m (translate x y) else m in
                    go (Some m) false tups t
                | None => Ok []
                end
            | _ => Ok []
            end
          else
            match x_tag n with
            | None => Raise AttributeError
            | Some t => if existsb (str_eqb (strip_ns t)) shapetags then Ok [(n, m)] else Ok []
            end
    end.

  (** 61-62: [_DEFAULT_SHAPES] *)
  Definition DEFAULT_SHAPES : list pystr :=
    map L ["path"; "rect"; "line"; "circle"; "ellipse"; "polyline"; "polygon"]%string.

  (** 336-375: [get_shape_elements] on an element *)
  Definition get_shape_elements (fuel : nat) (doc : xml) (shapetags : list pystr) (skip_layers : list (pystr -> bool))
    (accumulate_transform : bool) (parent_transform : option (mat N)) (ups : list xml) (root : xml)
    : res (list (xml * mat N)) :=
    do vis <- visible true ups root;
    if negb vis then Ok []
    else collect (shape_nodes fuel doc shapetags skip_layers accumulate_transform parent_transform false (root :: ups))
           (x_kids root).
  (** the same on a list of elements (None: no such element, which is not visible: svg.py 374-375) *)
  Definition get_shape_elements_list (fuel : nat) (doc : xml) (shapetags : list pystr)
    (skip_layers : list (pystr -> bool)) (accumulate_transform : bool) (parent_transform : option (mat N))
    (nodes : list (option located)) : res (list (xml * mat N)) :=
    collect (fun c => match c with
                      | Some (ups, n) => shape_nodes fuel doc shapetags skip_layers accumulate_transform parent_transform true ups n
                      | None => Ok []
                      end) nodes.

  (** inkext.py 151-154, 167-192: the elements selected by their ids, all of the document if there are none *)
  Definition selected_shapes (fuel : nat) (doc : xml) (shapetags : list pystr) (skip_layers : list (pystr -> bool))
    (ids : list pystr) : res (list (xml * mat N)) :=
    match ids with
    | [] => get_shape_elements fuel doc shapetags skip_layers true None [] doc
    | _ => get_shape_elements_list fuel doc shapetags skip_layers true None (map (get_node_by_id doc) ids)
    end.

  (** 87-117: [margin_cliprect]; [args]: the margins after the first *)
  Definition margin_cliprect (view_width view_height mtop : N) (args : list N) : box N :=
    let mright := match args with a :: _ => a | [] => mtop end in
    let mleft := match args with _ :: _ :: a :: _ => a | a :: _ => a | [] => mtop end in
    let mbottom := match args with _ :: a :: _ => a | _ => mtop end in
    mkbox (P mleft mbottom) (P (view_width - mright) (view_height - mtop)).
End Ink.

(** 297-304: [get_visible_layers] *)
Definition get_visible_layers (ups : list xml) (docroot : xml) : res (list xml) :=
  collect (fun n => match is_layer n with
                    | Some _ => rbind (visible true (docroot :: ups) n) (fun v => Ok (if v then [n] else []))
                    | None => Ok []
                    end) (x_kids docroot).
(** 306-324: [get_layer_elements] *)
Definition get_layer_elements (ups : list xml) (layer : xml) : res (list xml) :=
  rbind (visible true ups layer) (fun v =>
    if v then collect (fun n => rbind (visible false (layer :: ups) n) (fun v => Ok (if v then [n] else []))) (x_kids layer)
    else Ok []).
(** 276-282: [layer_is_locked] *)
Definition layer_is_locked (layer : xml) : bool :=
  match x_get layer SODIPODI_INSENSITIVE with
  | Some v => str_eqb (map lower_ascii v) (L "true")
  | None => false
  end.
(** 259-272: [get_parent_layer]; [node in layer.iter()] compares identities *)
Definition get_parent_layer (doc : xml) (node : xml) : option xml :=
  find (fun layer => existsb (fun c => Nat.eqb (x_uid (snd c)) (x_uid node)) (walk [] layer))
    (filter (fun n => tag_is n (SVG_NS ++ "g") &&
                      match x_get n INK_GROUPMODE with Some v => str_eqb v (L "layer") | None => false end)
      (map snd (walk [] doc))).

(** 138-148: [find_layer] *)
Definition find_layer (doc : xml) (name : pystr) : option xml :=
  find (fun n => tag_is n (SVG_NS ++ "g") && match x_get n INK_LABEL with Some v => str_eqb v name | None => false end)
    (map snd (walk [] doc)).
(** '%02d' % n *)
Definition two_digits (n : nat) : pystr :=
  let t := N_text (N.of_nat n) in L (if Nat.ltb n 10 then "0" ++ t else t)%string.
(** 182-187: the loop over the suffixes; the fuel is one more than the number of nodes *)
Fixpoint suffix_loop (fuel : nat) (doc : xml) (name : pystr) (suffix_n : nat) : res (pystr * option xml) :=
  match fuel with
  | O => Raise OutOfFuel
  | S fuel =>
      let layer_name := name ++ "_"%char :: two_digits suffix_n in
      match find_layer doc layer_name with
      | Some (Xml _ _ _ (_ :: _)) => suffix_loop fuel doc name (S suffix_n)
      | layer => Ok (layer_name, layer)
      end
  end.
(** [del layer[:]]: the document after it *)
Fixpoint clear_node (u : nat) (n : xml) {struct n} : xml :=
  let 'Xml v t a k := n in
  if Nat.eqb u v then Xml v t a [] else Xml v t a (map (clear_node u) k).
(** [etree.SubElement(docroot, 'g', attrs)] *)
Definition append_kid (n k : xml) : xml := let 'Xml u t a l := n in Xml u t a (l ++ [k]).
(** [min(max(opacity, 0.0), 1.0)] and '%.2f' *)
Definition opacity_style {N : NumOps} (o : N) : pystr :=
  L ("opacity: " ++ dec_text 2 (fmt 2 (pymin (pymax o (of_Z 0)) (of_Z 1))) ++ ";").
(** '%g' % x: six significant digits, trailing zeros of the decimals removed.  Simplifications: numbers of 999999.5 and more
    are rounded to an integer before they are rounded to six digits (ties upwards), and for numbers below 0.0001 no exponent
    is written. *)
Definition strip_zeros (s : pystr) : pystr := rev (drop_while (Ascii.eqb "0") (rev s)).
Definition with_point (f : pystr) : pystr := match strip_zeros f with [] => [] | f => "."%char :: f end.
Definition g_fixed (n : nat) (neg : bool) (mag : N) : pystr :=
  (if neg then ["-"%char] else []) ++ L (N_text (mag / 10 ^ N.of_nat n))
  ++ with_point (L (fixed n (mag mod 10 ^ N.of_nat n) "")).
Definition g_exponent (neg : bool) (mag : N) : pystr :=
  let k := N.of_nat (ndigits mag - 6) in
  let q := ((mag + 10 ^ k / 2) / 10 ^ k)%N in
  let '(q, e) := if (q =? 10 ^ 6)%N then (10 ^ 5, k + 6)%N else (q, k + 5)%N in
  (if neg then ["-"%char] else []) ++ L (N_text (q / 10 ^ 5)) ++ with_point (L (fixed 5 (q mod 10 ^ 5) ""))
  ++ L "e+" ++ two_digits (N.to_nat e).
(** [n] decimals, or fewer *)
Fixpoint g_loop {N : NumOps} (n : nat) (x : N) : pystr :=
  match fmt n x with
  | DFin neg mag => if (mag <? 10 ^ 6)%N then g_fixed n neg mag else match n with O => g_exponent neg mag | S k => g_loop k x end
  | d => L (dec_text n d)
  end.
Definition g_text {N : NumOps} (x : N) : pystr := g_loop 9 x.
(** 158-206: [create_layer]: the document afterwards and the layer.  [fresh]: the identity of a new element;
    the attributes come from a dictionary, so their order is arbitrary.  [flipy]: the height of the view if flipy
    is True. *)
Definition create_layer {N : NumOps} (doc : xml) (fresh : nat) (name : pystr) (opacity : option N) (clear incr_suffix : bool)
  (flipy : option N) (tag : option pystr) : res (xml * xml) :=
  let found := find_layer doc name in
  rbind (match found with
         | Some (Xml _ _ _ (_ :: _)) =>
             if incr_suffix then suffix_loop (S (List.length (walk [] doc))) doc name 0 else Ok (name, found)
         | _ => Ok (name, found)
         end) (fun '(layer_name, layer) =>
  Ok match layer with
     | None =>
         let attrs := [(L INK_GROUPMODE, L "layer"); (L INK_LABEL, layer_name)]
                      ++ match tag with Some t => [(L UTLCO_TAG, t)] | None => [] end
                      ++ match opacity with Some o => [(L "style", opacity_style o)] | None => [] end
                      ++ match flipy with
                         | Some h => [(L "transform", L "translate(0, " ++ g_text h ++ L ") scale(1, -1)")]
                         | None => []
                         end in
         let layer := Xml fresh (Some (L "g")) attrs [] in
         (append_kid doc layer, layer)
     | Some l => if clear then (clear_node (x_uid l) doc, clear_node (x_uid l) l) else (doc, l)
     end).
