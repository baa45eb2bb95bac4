(** * Css: inline styles, colours (tcnc/svg/css.py) and visibility of nodes (tcnc/svg/svg.py). *)
From Coq Require Import String Ascii ZArith NArith List Bool.
From Verif Require Import Num Str Svg SvgDoc.
Import ListNotations.

(** [s.split(sep)] for a one-character separator *)
Fixpoint split_on (sep : ascii) (s : pystr) : list pystr :=
  match s with
  | [] => [[]]
  | c :: r =>
      if Ascii.eqb c sep then [] :: split_on sep r
      else match split_on sep r with w :: ws => (c :: w) :: ws | [] => [[c]] end
  end.
(** [sep.join(l)] *)
Fixpoint join (sep : ascii) (l : list pystr) : pystr :=
  match l with
  | [] => []
  | [w] => w
  | w :: r => w ++ sep :: join sep r
  end.

(** A dictionary of strings: its items in iteration order, keys distinct. *)
Definition dict := list (pystr * pystr).
Fixpoint dict_get (k : pystr) (d : dict) : option pystr :=
  match d with [] => None | (k', v) :: r => if str_eqb k k' then Some v else dict_get k r end.
(** [d[k] = v].  Simplification: a new key goes last (Python 2 dictionaries have an arbitrary order;
    the theorems hold for every order of the items). *)
Fixpoint dict_set (k v : pystr) (d : dict) : dict :=
  match d with
  | [] => [(k, v)]
  | (k', v') :: r => if str_eqb k k' then (k', v) :: r else (k', v') :: dict_set k v r
  end.

(** css.py 180: [_SVG_WS] *)
Definition is_svg_ws (c : ascii) : bool :=
  cin c (String " " (String "009" (String "013" (String "010" (String "012" ""))))).

(** css.py 184-189: one pass of the loop; tuple assignment raises ValueError unless there are
    exactly two parts. *)
Definition style_property (d : dict) (p : pystr) : res dict :=
  match p with
  | [] => Ok d
  | _ =>
      match split_on ":" p with
      | [name; value] =>
          let name := strip_by is_svg_ws name in
          let value := strip_by is_svg_ws value in
          match name, value with
          | _ :: _, _ :: _ => Ok (dict_set name value d)
          | _, _ => Ok d
          end
      | _ => Raise ValueError
      end
  end.
Fixpoint style_properties (d : dict) (ps : list pystr) : res dict :=
  match ps with
  | [] => Ok d
  | p :: r => rbind (style_property d p) (fun d => style_properties d r)
  end.
(** css.py 170-190: [inline_style_to_dict]; [None] is the Python None. *)
Definition inline_style_to_dict (style : option pystr) : res dict :=
  match style with
  | None | Some [] => Ok []
  | Some s => style_properties [] (split_on ";" s)
  end.
(** css.py 193-205: [dict_to_inline_style], for string values *)
Definition dict_to_inline_style (d : dict) : pystr :=
  join ";" (map (fun '(n, v) => n ++ ":"%char :: v) d).

(** ** Visibility, svg.py 353-388.  A node is its style and visibility attributes; the list holds the
    node and its ancestors, and the recursive calls are on the parent with check_parent = True. *)
Record node := Node { n_style : option pystr; n_vis : option pystr }.
Fixpoint node_is_visible (recurs check : bool) (chain : list node) : res bool :=
  match chain with
  | [] => Ok recurs
  | n :: parents =>
      match inline_style_to_dict (n_style n) with
      | Raise e => Raise e
      | Ok styles =>
          let display_none := match dict_get (L "display") styles with
                              | Some v => str_eqb v (L "none") | None => false end in
          if display_none then Ok false
          else
            let visibility := match dict_get (L "visibility") styles with Some v => Some v | None => n_vis n end in
            let is v := match visibility with Some w => str_eqb w (L v) | None => false end in
            if is "inherit"%string && negb check then node_is_visible true true parents
            else if is "hidden"%string || is "collapse"%string then Ok false
            else if check then node_is_visible true true parents
            else Ok true
      end
  end.

(** ** Colours *)
Definition rgb := (Z * Z * Z)%type.
(** css.py 16-163: [CSS_COLORS] *)
Definition CSS_COLORS : list (pystr * rgb) :=
  [(L "aliceblue", (240, 248, 255)); (L "antiquewhite", (250, 235, 215)); (L "aqua", (0, 255, 255));
   (L "aquamarine", (127, 255, 212)); (L "azure", (240, 255, 255)); (L "beige", (245, 245, 220));
   (L "bisque", (255, 228, 196)); (L "black", (0, 0, 0)); (L "blanchedalmond", (255, 235, 205));
   (L "blue", (0, 0, 255)); (L "blueviolet", (138, 43, 226)); (L "brown", (165, 42, 42));
   (L "burlywood", (222, 184, 135)); (L "cadetblue", (95, 158, 160)); (L "chartreuse", (127, 255, 0));
   (L "chocolate", (210, 105, 30)); (L "coral", (255, 127, 80)); (L "cornflowerblue", (100, 149, 237));
   (L "cornsilk", (255, 248, 220)); (L "crimson", (220, 20, 60)); (L "cyan", (0, 255, 255));
   (L "darkblue", (0, 0, 139)); (L "darkcyan", (0, 139, 139)); (L "darkgoldenrod", (184, 134, 11));
   (L "darkgray", (169, 169, 169)); (L "darkgreen", (0, 100, 0)); (L "darkgrey", (169, 169, 169));
   (L "darkkhaki", (189, 183, 107)); (L "darkmagenta", (139, 0, 139)); (L "darkolivegreen", (85, 107, 47));
   (L "darkorange", (255, 140, 0)); (L "darkorchid", (153, 50, 204)); (L "darkred", (139, 0, 0));
   (L "darksalmon", (233, 150, 122)); (L "darkseagreen", (143, 188, 143)); (L "darkslateblue", (72, 61, 139));
   (L "darkslategray", (47, 79, 79)); (L "darkslategrey", (47, 79, 79)); (L "darkturquoise", (0, 206, 209));
   (L "darkviolet", (148, 0, 211)); (L "deeppink", (255, 20, 147)); (L "deepskyblue", (0, 191, 255));
   (L "dimgray", (105, 105, 105)); (L "dimgrey", (105, 105, 105)); (L "dodgerblue", (30, 144, 255));
   (L "firebrick", (178, 34, 34)); (L "floralwhite", (255, 250, 240)); (L "forestgreen", (34, 139, 34));
   (L "fuchsia", (255, 0, 255)); (L "gainsboro", (220, 220, 220)); (L "ghostwhite", (248, 248, 255));
   (L "gold", (255, 215, 0)); (L "goldenrod", (218, 165, 32)); (L "gray", (128, 128, 128));
   (L "green", (0, 128, 0)); (L "greenyellow", (173, 255, 47)); (L "grey", (128, 128, 128));
   (L "honeydew", (240, 255, 240)); (L "hotpink", (255, 105, 180)); (L "indianred", (205, 92, 92));
   (L "indigo", (75, 0, 130)); (L "ivory", (255, 255, 240)); (L "khaki", (240, 230, 140));
   (L "lavender", (230, 230, 250)); (L "lavenderblush", (255, 240, 245)); (L "lawngreen", (124, 252, 0));
   (L "lemonchiffon", (255, 250, 205)); (L "lightblue", (173, 216, 230)); (L "lightcoral", (240, 128, 128));
   (L "lightcyan", (224, 255, 255)); (L "lightgoldenrodyellow", (250, 250, 210)); (L "lightgray", (211, 211, 211));
   (L "lightgreen", (144, 238, 144)); (L "lightgrey", (211, 211, 211)); (L "lightpink", (255, 182, 193));
   (L "lightsalmon", (255, 160, 122)); (L "lightseagreen", (32, 178, 170)); (L "lightskyblue", (135, 206, 250));
   (L "lightslategray", (119, 136, 153)); (L "lightslategrey", (119, 136, 153)); (L "lightsteelblue", (176, 196, 222));
   (L "lightyellow", (255, 255, 224)); (L "lime", (0, 255, 0)); (L "limegreen", (50, 205, 50));
   (L "linen", (250, 240, 230)); (L "magenta", (255, 0, 255)); (L "maroon", (128, 0, 0));
   (L "mediumaquamarine", (102, 205, 170)); (L "mediumblue", (0, 0, 205)); (L "mediumorchid", (186, 85, 211));
   (L "mediumpurple", (147, 112, 219)); (L "mediumseagreen", (60, 179, 113)); (L "mediumslateblue", (123, 104, 238));
   (L "mediumspringgreen", (0, 250, 154)); (L "mediumturquoise", (72, 209, 204)); (L "mediumvioletred", (199, 21, 133));
   (L "midnightblue", (25, 25, 112)); (L "mintcream", (245, 255, 250)); (L "mistyrose", (255, 228, 225));
   (L "moccasin", (255, 228, 181)); (L "navajowhite", (255, 222, 173)); (L "navy", (0, 0, 128));
   (L "oldlace", (253, 245, 230)); (L "olive", (128, 128, 0)); (L "olivedrab", (107, 142, 35));
   (L "orange", (255, 165, 0)); (L "orangered", (255, 69, 0)); (L "orchid", (218, 112, 214));
   (L "palegoldenrod", (238, 232, 170)); (L "palegreen", (152, 251, 152)); (L "paleturquoise", (175, 238, 238));
   (L "palevioletred", (219, 112, 147)); (L "papayawhip", (255, 239, 213)); (L "peachpuff", (255, 218, 185));
   (L "peru", (205, 133, 63)); (L "pink", (255, 192, 203)); (L "plum", (221, 160, 221));
   (L "powderblue", (176, 224, 230)); (L "purple", (128, 0, 128)); (L "red", (255, 0, 0));
   (L "rosybrown", (188, 143, 143)); (L "royalblue", (65, 105, 225)); (L "saddlebrown", (139, 69, 19));
   (L "salmon", (250, 128, 114)); (L "sandybrown", (244, 164, 96)); (L "seagreen", (46, 139, 87));
   (L "seashell", (255, 245, 238)); (L "sienna", (160, 82, 45)); (L "silver", (192, 192, 192));
   (L "skyblue", (135, 206, 235)); (L "slateblue", (106, 90, 205)); (L "slategray", (112, 128, 144));
   (L "slategrey", (112, 128, 144)); (L "snow", (255, 250, 250)); (L "springgreen", (0, 255, 127));
   (L "steelblue", (70, 130, 180)); (L "tan", (210, 180, 140)); (L "teal", (0, 128, 128));
   (L "thistle", (216, 191, 216)); (L "tomato", (255, 99, 71)); (L "turquoise", (64, 224, 208));
   (L "violet", (238, 130, 238)); (L "wheat", (245, 222, 179)); (L "white", (255, 255, 255));
   (L "whitesmoke", (245, 245, 245)); (L "yellow", (255, 255, 0)); (L "yellowgreen", (154, 205, 50))]%Z.
Fixpoint color_get (k : pystr) (t : list (pystr * rgb)) : option rgb :=
  match t with [] => None | (k', v) :: r => if str_eqb k k' then Some v else color_get k r end.

Definition hex_val (c : ascii) : option Z :=
  let n := N_of_ascii c in
  if ((48 <=? n) && (n <=? 57))%N then Some (Z.of_N n - 48)%Z
  else if ((97 <=? n) && (n <=? 102))%N then Some (Z.of_N n - 87)%Z
  else if ((65 <=? n) && (n <=? 70))%N then Some (Z.of_N n - 55)%Z
  else None.
Fixpoint hex_digits (a : Z) (s : pystr) : option Z :=
  match s with [] => Some a | c :: r => match hex_val c with Some d => hex_digits (16 * a + d)%Z r | None => None end end.
(** [int(s, 16)] on one or two characters: blanks around are skipped, a sign is accepted.  A prefix 0x
    needs a digit after it, so it does not occur in two characters. *)
Definition int16 (s : pystr) : res Z :=
  let '(neg, r) := take_sign (strip s) in
  match r with
  | [] => Raise ValueError
  | _ => match hex_digits 0 r with Some n => Ok (if neg then - n else n)%Z | None => Raise ValueError end
  end.
Definition starts_with (p s : pystr) : bool := str_eqb (firstn (length p) s) p.
Definition ends_with_percent (s : pystr) : bool := match rev s with c :: _ => Ascii.eqb c "%" | [] => false end.

(** css.py 244-270: [csshex_to_rgb] *)
Definition csshex_to_rgb (hex_color : pystr) : rgb :=
  let h := drop_while (fun c => Ascii.eqb c "#") (strip hex_color) in
  let r :=
    match h with
    | [a; b; c; d; e; f] =>
        rbind (int16 [a; b]) (fun r => rbind (int16 [c; d]) (fun g => rbind (int16 [e; f]) (fun b => Ok (r, g, b))))
    | [a; b; c] =>
        rbind (int16 [a]) (fun r => rbind (int16 [b]) (fun g => rbind (int16 [c]) (fun b =>
          Ok (r * 16 + r, g * 16 + g, b * 16 + b)%Z)))
    | _ => Raise ValueError
    end in
  match r with Ok v => v | Raise _ => (0, 0, 0)%Z end.

(** '%02x' % n for an integer: lower case, padded with 0 to two characters, sign in front *)
Definition hex_char (d : Z) : ascii := ascii_of_N (Z.to_N (if (d <? 10)%Z then d + 48 else d + 87)%Z).
Fixpoint hex_text_aux (fuel : nat) (n : Z) : pystr :=
  match fuel with
  | O => []
  | S k => if (n <? 16)%Z then [hex_char n] else hex_text_aux k (n / 16)%Z ++ [hex_char (n mod 16)%Z]
  end.
Definition hex_text (n : Z) : pystr := hex_text_aux (S (Z.to_nat (Z.log2 n))) n.
Definition fmt02x (n : Z) : pystr :=
  if (n <? 0)%Z then "-"%char :: hex_text (- n)
  else match hex_text n with [c] => ["0"%char; c] | t => t end.

Section Channels.
  Context {N : NumOps}.
  Local Open Scope num_scope.

  (** [float(s)]: blanks around are skipped; the infinities and nan have spellings of their own.
      Simplification: a decimal literal beyond the binary64 range is not an infinity over R. *)
  Inductive pyflt := Fin (x : N) | Infinite | NaN.
  Definition float_of (s : pystr) : res pyflt :=
    let t := strip s in
    let '(_, u) := take_sign t in
    let w := map lower_ascii u in
    if str_eqb w (L "inf") || str_eqb w (L "infinity") then Ok Infinite
    else if str_eqb w (L "nan") then Ok NaN
    else rbind (py_float t) (fun x => Ok (Fin x)).
  (** [int(x)] of a float *)
  Definition int_of (x : pyflt) : res Z :=
    match x with Fin x => Ok (trunc x) | Infinite => Raise OverflowError | NaN => Raise ValueError end.
  Definition pct (x : pyflt) : pyflt :=
    match x with Fin x => Fin (x / lit 100 0 * #255) | y => y end.

  (** css.py 296-316: [parse_channel_value]; only ValueError is caught. *)
  Definition parse_channel_value (value : pystr) : res Z :=
    let value := strip value in
    let n :=
      if ends_with_percent value then
        rbind (float_of (rev (drop_while (fun c => Ascii.eqb c "%") (rev value)))) (fun x => int_of (pct x))
      else match value with
           | [] => Ok 0%Z
           | _ => if forallb is_digit value then py_int value else Ok 0%Z
           end in
    match n with
    | Ok n => Ok (Z.max (Z.min n 255) 0)
    | Raise ValueError => Ok 0%Z
    | Raise e => Raise e
    end.

  (** css.py 273-293: [cssrgb_to_rgb].  The list never is empty: [split] returns at least one part. *)
  Definition cssrgb_to_rgb (rgb_color : pystr) : res (list Z) :=
    let t := strip_by (fun c => cin c "rgba() ") (strip rgb_color) in
    rbind (mapr parse_channel_value (firstn 4 (split_on "," t))) (fun l => Ok (l ++ repeat 0%Z (3 - length l))%list).

  (** A colour is a tuple, or the list that [cssrgb_to_rgb] returns. *)
  Inductive color := Tup (c : rgb) | Lst (l : list Z).
  (** css.py 208-241: [csscolor_to_rgb] *)
  Definition csscolor_to_rgb (css_color : pystr) : res color :=
    let s := map lower_ascii (strip css_color) in
    if starts_with (L "#") s then Ok (Tup (csshex_to_rgb s))
    else if starts_with (L "rgb") s then rbind (cssrgb_to_rgb s) (fun l => Ok (Lst l))
    else if starts_with (L "hsl") s then Ok (Tup (0, 0, 0)%Z)
    else match color_get s CSS_COLORS with
         | Some c => Ok (Tup c)
         | None => if forallb (fun c => match hex_val c with Some _ => true | None => false end) s
                   then Ok (Tup (csshex_to_rgb s)) else Ok (Tup (0, 0, 0)%Z)
         end.

  (** css.py 319-344: [csscolor_to_cssrgb].  Formatting with a list instead of a tuple raises
      TypeError.  [gray] is 0 for numbers from 256 on. *)
  Inductive color_arg := ColorText (s : pystr) | ColorFloat (x : N) | ColorInt (n : Z).
  Definition css_text (c : rgb) : pystr :=
    let '(r, g, b) := c in "#"%char :: fmt02x r ++ fmt02x g ++ fmt02x b.
  Definition csscolor_to_cssrgb (color : color_arg) : res pystr :=
    match color with
    | ColorText s => rbind (csscolor_to_rgb s) (fun c => match c with Tup c => Ok (css_text c) | Lst _ => Raise TypeError end)
    | ColorFloat x =>
        let gray := if (#0 <? x) && (x <? #1) then trunc (x * #255) else if x <? #256 then trunc x else 0%Z in
        Ok (css_text (gray, gray, gray))
    | ColorInt n =>
        let gray := if (n <? 256)%Z then n else 0%Z in Ok (css_text (gray, gray, gray))
    end.
End Channels.
