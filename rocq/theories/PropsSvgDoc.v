(** * PropsSvgDoc: transform attributes, units and the view scale (C57, C58, C84-C86).
    Specification: [SvgDocSpec]. *)
From Verif Require Import Num NumR Str Geom GeomR GeomProofs GeomProofs4 Svg SvgSpec SvgProofs PropsSvg SvgDoc SvgDocSpec SvgDocProofs SvgDocProofs2.
From Coq Require Import String Ascii ZArith NArith List Bool Lia Reals Lra.
Import ListNotations.
Local Open Scope R_scope.

(** ** C57: a transform list acts on points as its transforms applied from the last to the first,
    whatever the blanks and commas between names and numbers. *)
Theorem C57_transform_list l s : Forall xform_ok l -> xlist l s ->
  exists m, parse_transform_attr (N:=ROps) (Some s) = Ok m /\
    forall p, apply m (P (fst p) (snd p)) = P (fst (acts_all l p)) (snd (acts_all l p)).
Proof. apply transform_points. Qed.

Definition sample_xform : list xform := [XTranslate n1 (Some m45); XRotate n9 None; XScale n2 None].
Definition sample_xtext : pystr := L " translate(1,-4.5) rotate (9),scale(2 )".
Example C57_example : Forall xform_ok sample_xform /\ xlist sample_xform sample_xtext.
Proof.
  split.
  - repeat constructor; discriminate.
  - change sample_xtext with
      (L " " ++ xname (XTranslate n1 (Some m45)) ++ [] ++ "("%char :: L "1,-4.5" ++ ")"%char ::
       L " " ++ xname (XRotate n9 None) ++ L " " ++ "("%char :: L "9" ++ ")"%char ::
       L "," ++ xname (XScale n2 None) ++ [] ++ "("%char :: L "2 " ++ ")"%char :: [])%list.
    constructor; [repeat constructor|constructor| |constructor; [repeat constructor|repeat constructor| |constructor; [|constructor| |constructor; constructor]]].
    + apply (al_cons [] n1 [m45] (L ",-4.5")); [constructor| |intros _; do 2 eexists; split; [reflexivity|now right]].
      apply (al_cons (L ",") m45 [] []); [repeat constructor; now right|constructor; constructor|congruence].
    + apply (al_cons [] n9 [] []); [constructor|constructor; constructor|congruence].
    + repeat constructor; now right.
    + apply (al_cons [] n2 [] (L " ")); [constructor|constructor; repeat constructor|congruence].
Qed.

(** No attribute and a blank attribute mean no transform; so does, silently, a name in the wrong case. *)
Theorem C57_nothing s : Forall blank s -> parse_transform_attr (N:=ROps) None = Ok IDENTITY /\
  parse_transform_attr (N:=ROps) (Some s) = Ok IDENTITY.
Proof.
  intros H. split; [reflexivity|]. unfold parse_transform_attr.
  assert (forallb is_ws s = true) as ->; [|reflexivity].
  apply forallb_forall. intros c Hc. rewrite Forall_forall in H. apply blank_ws. now apply H.
Qed.

(** A transform whose name is spelled with the wrong capital or small letters is skipped silently, but its arguments still
    have to be numbers: everything up to the closing parenthesis is read as arguments. *)
Lemma str_eqb_reflect (a b : pystr) : reflect (a = b) (str_eqb a b).
Proof. unfold str_eqb. destruct (list_eq_dec ascii_dec a b); constructor; assumption. Qed.
Lemma lower_prefix_spec k : forall s, lower_prefix k s =
  if str_eqb (map lower_ascii (firstn (length k) s)) (map lower_ascii k) then Some (firstn (length k) s, skipn (length k) s) else None.
Proof.
  induction k as [|a k IH]; intros s; [reflexivity|]. destruct s as [|c s]; [reflexivity|]. cbn [lower_prefix length firstn skipn map]. rewrite IH.
  destruct (str_eqb_reflect (lower_ascii c :: map lower_ascii (firstn (length k) s)) (lower_ascii a :: map lower_ascii k)) as [E|E].
  - injection E as E1 E2. rewrite E1, Ascii.eqb_refl, E2. destruct (str_eqb_reflect (map lower_ascii k) (map lower_ascii k)); congruence.
  - destruct (Ascii.eqb_spec (lower_ascii a) (lower_ascii c)) as [E1|]; [|reflexivity].
    destruct (str_eqb_reflect (map lower_ascii (firstn (length k) s)) (map lower_ascii k)); congruence.
Qed.
Lemma keyword_wrong x w r : map lower_ascii w = map lower_ascii (xname x) -> match_keyword keywords (w ++ r) = Some (w, r).
Proof.
  intros E. assert (LN : length w = length (xname x)) by (apply (f_equal (@length _)) in E; now rewrite !map_length in E).
  assert (K : forall k, lower_prefix k (w ++ r) = if str_eqb (firstn (length k) (map lower_ascii (xname x) ++ map lower_ascii r)) (map lower_ascii k)
    then Some (firstn (length k) (w ++ r), skipn (length k) (w ++ r)) else None).
  { intros k. rewrite lower_prefix_spec, <- firstn_map, map_app, E. reflexivity. }
  assert (W : firstn (length (xname x)) (w ++ r) = w /\ skipn (length (xname x)) (w ++ r) = r).
  { rewrite <- LN. split; [rewrite firstn_app, Nat.sub_diag, firstn_all, app_nil_r|rewrite skipn_app, Nat.sub_diag, skipn_all]; reflexivity. }
  destruct W as [W1 W2]. unfold keywords. cbn [match_keyword]. rewrite !K. clear K LN E. destruct x; cbn [xname] in *; rewrite <- W1, <- W2 at 1; rewrite ?W1, ?W2; cbn in W1, W2 |- *; rewrite ?W1, ?W2; reflexivity.
Qed.
Theorem C57_wrong_case (x : xform) (w a : pystr) : map lower_ascii w = map lower_ascii (xname x) -> w <> xname x -> arglist (xargs x) a -> xform_ok x ->
  parse_transform_attr (N:=ROps) (Some (w ++ "("%char :: a ++ [")"%char])) = Ok IDENTITY.
Proof.
  intros E NE Ha Hok. unfold parse_transform_attr.
  assert (WS : forall c, is_ws c = is_ws (lower_ascii c)) by (intros [[] [] [] [] [] [] [] []]; reflexivity).
  assert (HW : exists c r, w = c :: r /\ is_ws c = false).
  { destruct w as [|c r]; [destruct x; discriminate|]. exists c, r. split; [reflexivity|]. rewrite WS. cbn [map] in E.
    destruct x; cbn in E; injection E as E _; rewrite E; reflexivity. }
  destruct HW as (c & r & -> & Hc).
  assert (forallb is_ws ((c :: r) ++ "("%char :: a ++ [")"%char]) = false) as -> by (cbn [app forallb]; rewrite Hc; reflexivity).
  assert (strip ((c :: r) ++ "("%char :: a ++ [")"%char]) = (c :: r) ++ "("%char :: a ++ [")"%char]) as ->.
  { unfold strip, strip_by. replace (drop_while is_ws ((c :: r) ++ "("%char :: a ++ [")"%char])) with ((c :: r) ++ "("%char :: a ++ [")"%char]) by (cbn [app drop_while]; rewrite Hc; reflexivity).
    rewrite (app_comm_cons a [")"%char]), app_assoc. generalize ((c :: r) ++ "("%char :: a)%list. intros u. rewrite rev_app_distr. cbn [rev app drop_while]. change (is_ws ")") with false. cbv iota. cbn [rev]. rewrite rev_involutive. reflexivity. }
  assert (M : match_transform ((c :: r) ++ "("%char :: a ++ [")"%char]) = Some (c :: r, a, [])).
  { unfold match_transform. rewrite (keyword_wrong x) by exact E. cbn [drop_while]. change (is_ws "(") with false. cbv iota.
    change (Ascii.eqb "(" "(") with true. cbv iota.
    rewrite span_all; [reflexivity|now apply args_no_paren in Ha|reflexivity]. }
  assert (F : findall (length ((c :: r) ++ "("%char :: a ++ [")"%char])) ((c :: r) ++ "("%char :: a ++ [")"%char]) = [(c :: r, a)]).
  { cbn [app length findall]. cbn [app] in M. rewrite M. destruct (length _); reflexivity. }
  rewrite F. cbn [transform_matrices]. rewrite (split_args _ _ Hok Ha), (mapr_floats (xargs x) Hok). cbn [rbind].
  assert (T1 : transform_matrix (N:=ROps) (c :: r) (map numeral_value (xargs x)) = Ok None).
  { assert (NF : forall y, str_eqb (c :: r) (xname y) = false).
    { intros y. destruct (str_eqb_reflect (c :: r) (xname y)) as [Q|]; [exfalso|reflexivity]. apply NE. rewrite Q in E |- *. clear - E. destruct x, y; first [reflexivity | discriminate E]. }
    assert (N1 : str_eqb (c :: r) (L "translate") = false) by exact (NF (XTranslate n9 None)). assert (N2 : str_eqb (c :: r) (L "scale") = false) by exact (NF (XScale n9 None)). assert (N3 : str_eqb (c :: r) (L "rotate") = false) by exact (NF (XRotate n9 None)). assert (N4 : str_eqb (c :: r) (L "skewX") = false) by exact (NF (XSkewX n9)).
    assert (N5 : str_eqb (c :: r) (L "skewY") = false) by exact (NF (XSkewY n9)). assert (N6 : str_eqb (c :: r) (L "matrix") = false) by exact (NF (XMatrix n9 n9 n9 n9 n9 n9)).
    unfold transform_matrix. rewrite N1, N2, N3, N4, N5, N6. reflexivity. }
  rewrite T1. reflexivity.
Qed.
Example C57_wrong_case_example : map lower_ascii (L "SkewX") = map lower_ascii (xname (XSkewX n9)) /\ L "SkewX" <> xname (XSkewX n9).
Proof. split; [reflexivity|discriminate]. Qed.
Theorem C57_wrong_case_arguments : parse_transform_attr (N:=ROps) (Some (L "Scale(x)")) = Raise ValueError.
Proof. reflexivity. Qed.
(** ** C84: writing a matrix and reading it back changes no entry by more than 0.0000005. *)
Theorem C84_transform_attr_round_trip (m : mat ROps) :
  exists m', parse_transform_attr (Some (L (transform_attr m))) = Ok m' /\
    Rabs (m00 m' - m00 m) <= 0.0000005 /\ Rabs (m01 m' - m01 m) <= 0.0000005 /\ Rabs (m02 m' - m02 m) <= 0.0000005 /\
    Rabs (m10 m' - m10 m) <= 0.0000005 /\ Rabs (m11 m' - m11 m) <= 0.0000005 /\ Rabs (m12 m' - m12 m) <= 0.0000005.
Proof.
  destruct (fmt6_matrix m) as (x & Hx & Hl & m' & E & H). exists m'. split.
  - rewrite (parse_transform_any (N:=ROps) [x]) by (auto; discriminate). cbn [map fold_left].
    now rewrite compose_identity_l, E.
  - replace 0.0000005 with (/ 2000000) by lra. exact H.
Qed.

(** ** C85: an element is moved by its own transform first, then by those of its ancestors from the
    nearest to the root.  An attribute is the list it spells, or absent. *)
Inductive attribute : list xform -> option pystr -> Prop :=
| absent : attribute [] None
| present l s : Forall xform_ok l -> xlist l s -> attribute l (Some s).

Lemma parent_loop_points ls ancestors (m : mat ROps) : Forall2 attribute ls ancestors ->
  exists m', parent_transform_loop m ancestors = Ok m' /\
    forall p q, apply m p = as_pt q -> apply m' p = as_pt (fold_left (fun q l => acts_all l q) ls q).
Proof.
  intros H. revert m. induction H as [|l a ls ancestors Ha _ IH]; intros m.
  - exists m. split; auto.
  - destruct Ha as [|l s Hok Hl].
    + cbn [parent_transform_loop]. destruct (IH m) as (m' & E & Hm). exists m'. split; [exact E|]. exact Hm.
    + cbn [parent_transform_loop]. destruct (transform_points l s Hok Hl) as (k & -> & Hk). cbn [rbind].
      destruct (IH (compose k m)) as (m' & E & Hm). exists m'. split; [exact E|].
      intros p q Hq. cbn [fold_left]. apply Hm. now rewrite apply_compose, Hq, Hk.
Qed.
Theorem C85_element_transform l own ls ancestors : attribute l own -> Forall2 attribute ls ancestors ->
  exists m, get_element_transform (N:=ROps) own ancestors = Ok m /\
    forall p, let q := fold_left (fun q l => acts_all l q) (l :: ls) p in
      apply m (P (fst p) (snd p)) = P (fst q) (snd q).
Proof.
  intros Ho Ha. unfold get_element_transform, get_parent_transform.
  destruct (parent_loop_points ls ancestors (Mx (of_Z 1) (of_Z 0) (of_Z 0) (of_Z 0) (of_Z 1) (of_Z 0)) Ha) as (m & -> & Hm).
  cbn [rbind].
  assert (forall q, apply m (as_pt q) = as_pt (fold_left (fun q l => acts_all l q) ls q)) as Hm'.
  { intros q. apply Hm. destruct q. unfold apply, as_pt. cbn. f_equal; match goal with |- ?a = ?b => change (@eq R a b) end; rnum; ring. }
  destruct Ho as [|l s Hok Hl].
  - exists m. split; [reflexivity|]. intros p. apply Hm'.
  - destruct s as [|c s].
    + exists m. split; [reflexivity|]. intros p. cbv zeta.
      inversion Hl as [|g x b a l' t' ? ? ? ? E1 E2]; subst; [apply Hm'|]. destruct g, x; discriminate.
    + destruct (transform_points l (c :: s) Hok Hl) as (k & -> & Hk). cbn [rbind].
      exists (compose m k). split; [reflexivity|]. intros p. cbv zeta. cbn [fold_left].
      rewrite apply_compose. fold (as_pt p). rewrite Hk. apply Hm'.
Qed.
Example C85_example : attribute sample_xform (Some sample_xtext) /\
  Forall2 attribute [sample_xform; []; sample_xform] [Some sample_xtext; None; Some sample_xtext].
Proof.
  destruct C57_example as [H1 H2]. assert (attribute sample_xform (Some sample_xtext)) as H by now constructor.
  split; [exact H|]. constructor; [exact H|]. constructor; [constructor|]. constructor; [exact H|constructor].
Qed.

(** ** C58: units.  [us] holds the size of em and ex, [scale] is the view scale. *)
Definition conv_ok (us : units ROps) (u : unit_name) (c : R) : Prop :=
  let k := user_units (u_em us) (u_ex us) u in
  (In u [Em; Ex; Px; Pt; Pc; Inch; Foot; Yard] -> c = k) /\ Rabs (c - k) <= 0.00000003 * Rabs k.

Lemma pydiv_R (x y : R) : y <> 0 -> @pydiv ROps x y = Ok (x / y).
Proof.
  intros H. unfold pydiv. change (@Num.eqb ROps y (of_Z 0)) with (Reqb y 0). destruct (Reqb y 0) eqn:E; [rbool; contradiction|reflexivity].
Qed.
Lemma unit_table us u : exists c : R, UU_CONV us (unit_text u) = Some c /\ conv_ok us u c.
Proof.
  destruct u; (eexists; split; [reflexivity|]); unfold conv_ok; cbn [user_units lit ROps Rlit];
    try match goal with |- context [Z.pow_pos 10 ?k] => let z := eval vm_compute in (Z.pow_pos 10 k) in change (Z.pow_pos 10 k) with z end.
  1-2: split; [reflexivity|]; rewrite Rminus_diag_eq, Rabs_R0 by reflexivity; pose proof (Rabs_pos (u_em us)); pose proof (Rabs_pos (u_ex us)); lra.
  all: split; [intros H; match goal with |- ?a = ?b => change (@eq R a b) end; try lra; exfalso; cbn in H; repeat (destruct H as [H|H]; [discriminate H|]); destruct H|
    unfold Rabs; repeat destruct (Rcase_abs _); lra].
Qed.
Lemma unit_in u : In (unit_text u) unit_names.
Proof. destruct u; cbn; tauto. Qed.

(** A string with a unit suffix, a string without, and a number, in user units. *)
Theorem C58_unit2uu us scale n u u0 : numeral_ok n ->
  exists c, conv_ok us u c /\
    unit2uu us scale (VStr (numeral_text n ++ unit_text u)) u0 = Ok (value n * c * scale) /\
    unit2uu us scale (VStr (numeral_text n)) (unit_text u) = Ok (value n * c * scale) /\
    forall x : R, unit2uu us scale (VNum x) (unit_text u) = Ok (x * c * scale).
Proof.
  intros Hn. destruct (unit_table us u) as (c & Hc & Hok). exists c. split; [exact Hok|].
  assert (UU_CONV us (L "px") = Some (lit 1 0)) as Hpx by reflexivity.
  assert (pydiv (N:=ROps) c (lit 1 0) = Ok c) as Hd.
  { rewrite pydiv_R by (change (1 <> 0); lra). f_equal. change (c / 1 = c). lra. }
  unfold unit2uu. split; [|split].
  - rewrite convert_suffix by (auto using unit_in). rewrite Hc, Hpx. cbv beta iota. rewrite Hd. cbn [rbind]. reflexivity.
  - rewrite convert_plain by assumption. rewrite Hc, Hpx. cbv beta iota. rewrite Hd. cbn [rbind]. reflexivity.
  - intros x. now rewrite Hc.
Qed.

(** The number printed by the caller and read back in the unit it came from is the original one. *)
Theorem C58_inverse_partial us scale u x n : scale <> 0 -> user_units (u_em us) (u_ex us) u <> 0 -> numeral_ok n ->
  unit2uu us scale (VNum x) (unit_text u) = Ok (value n) ->
  uu2unit us scale (VStr (numeral_text n)) (unit_text u) = Ok x.
Proof.
  intros Hs Hu Hn H. destruct (unit_table us u) as (c & Hc & Hok).
  assert (c <> 0) as Hc0.
  { intros ->. destruct Hok as [_ Hok]. apply Hu. pose proof (Rabs_pos (user_units (u_em us) (u_ex us) u)) as Hp.
    destruct (Req_dec (user_units (u_em us) (u_ex us) u) 0) as [E|E]; [exact E|exfalso].
    apply Rabs_pos_lt in E. rewrite Rminus_0_l, Rabs_Ropp in Hok. lra. }
  unfold unit2uu in H. rewrite Hc in H. injection H as H. change (x * c * scale = value n) in H.
  unfold uu2unit. rewrite convert_plain by assumption. rewrite Hc.
  change (UU_CONV us (L "px")) with (Some (lit (n:=ROps) 1 0)). cbv beta iota.
  rewrite pydiv_R by assumption. cbn [rbind]. rewrite pydiv_R by assumption. f_equal. fold (value n). rewrite <- H.
  change (@Ok R (x * c * scale * (1 / c) / scale) = @Ok R x). apply (f_equal (@Ok R)). field. split; assumption.
Qed.
Example C58_example : exists us : units ROps, forall scale, scale = 2 ->
  user_units (u_em us) (u_ex us) Inch <> 0 /\ unit2uu us scale (VNum (1/36)) (unit_text Inch) = Ok (value n5).
Proof.
  exists (Units (N:=ROps) 1 1). intros scale ->. split; [cbn; lra|]. cbn. f_equal.
  unfold value. cbn. change (1 / 36 * 90 * 2 = 5). lra.
Qed.

(** A string that does not start like a number is 0. *)
Theorem C58_unparsed us scale s u : match s with c :: _ => cin c "-+.0123456789" = false | [] => True end ->
  unit2uu us scale (VStr s) u = Ok 0.
Proof.
  intros H. unfold unit2uu, unit_convert. assert (match_float s = None) as ->.
  { unfold match_float. destruct s as [|c s]; [reflexivity|].
    assert (forall k, In k (L "-+.0123456789") -> c <> k) as Hk.
    { intros k Hk ->. apply In_cin in Hk. congruence. }
    assert (cin c "-+" = false) as E1.
    { destruct (cin c "-+") eqn:E; [|reflexivity]. apply cin_In in E. exfalso. apply (Hk c); [|reflexivity]. cbn in *. tauto. }
    assert (is_digit c = false) as E2.
    { destruct (is_digit c) eqn:E; [|reflexivity]. exfalso. revert H E. clear. destruct c as [[] [] [] [] [] [] [] []]; discriminate. }
    assert (Ascii.eqb c "." = false) as E3.
    { destruct (Ascii.eqb_spec c "."); [|reflexivity]. exfalso. apply (Hk c); [|reflexivity]. subst. cbn. tauto. }
    cbn [split_sign]. rewrite E1. cbn [span]. rewrite E2, E3. reflexivity. }
  cbn [rbind]. f_equal. change (0 * scale = 0). ring.
Qed.

(** uu2unit is documented for numbers but raises on every one, so it is not the inverse as documented;
    a blank after the unit makes the unit be ignored. *)
Theorem C58_number_refuted us scale x u : uu2unit (N:=ROps) us scale (VNum x) u = Raise TypeError.
Proof. reflexivity. Qed.
Theorem C58_blank_refuted us scale : unit2uu (N:=ROps) us scale (VStr (L "3in")) (L "px") = Ok (3 * 90 * scale) /\
  unit2uu (N:=ROps) us scale (VStr (L "3in ")) (L "px") = Ok (3 * scale).
Proof.
  assert (forall c : R, pydiv (N:=ROps) c (Rlit 1 0) = Ok c) as Hd.
  { intros c. rewrite pydiv_R by (change (1 <> 0); lra). f_equal. change (c / 1 = c). lra. }
  split.
  - destruct (C58_unit2uu us scale n3 Inch (L "px")) as (c & [Hc _] & H & _); [apply numeral_ok_dec; reflexivity|].
    rewrite Hc in H by (cbn; tauto). exact H.
  - unfold unit2uu, unit_convert. change (match_float (L "3in ")) with (Some (numeral_text n3)).
    cbv iota. rewrite py_float_text by (apply numeral_ok_dec; reflexivity). cbn [rbind].
    change (search_unit (L "3in ")) with (@None pystr). change (UU_CONV us (L "px")) with (Some (Rlit 1 0)).
    cbv beta iota zeta. rewrite Hd. cbn [rbind]. f_equal. unfold numeral_value. cbn. change (3 * 1 * scale = 3 * scale). ring.
Qed.

(** ** C86: the view scale. *)
Theorem C86_view_scale_partial eps vw vh w h : vw <> 0 -> vh <> 0 -> 0 < eps -> w / vw = h / vh ->
  view_scale (N:=ROps) eps vw vh (Some [0; 0; w; h]) = Ok (w / vw).
Proof.
  intros H1 H2 H3 H4. unfold view_scale, nth_res. cbn [nth_error rbind]. rewrite pydiv_R by assumption. cbn [rbind]. rewrite pydiv_R by assumption. cbn [rbind].
  rnum. rewrite !Rminus_0_r. destruct (Rltb (Rabs (w / vw - h / vh)) eps) eqn:E; [reflexivity|].
  rbool. rewrite H4, Rminus_diag_eq, Rabs_R0 in E by reflexivity. lra.
Qed.
Theorem C86_no_viewbox eps vw vh : vw <> 0 -> vh <> 0 -> 0 < eps -> view_scale (N:=ROps) eps vw vh None = Ok 1.
Proof.
  intros H1 H2 H3. change (view_scale (N:=ROps) eps vw vh None) with (view_scale (N:=ROps) eps vw vh (Some [0; 0; vw; vh])).
  rewrite C86_view_scale_partial; auto; [f_equal|]; field; auto.
Qed.
(** A viewBox of 100 by 100 units at 10,10 on a viewport of 100 by 100 pixels has scale 1; the code finds 0.9. *)
Theorem C86_origin_refuted eps : 0 < eps -> exists s, view_scale (N:=ROps) eps 100 100 (Some [10; 10; 100; 100]) = Ok s /\ s = 0.9.
Proof.
  intros H3. unfold view_scale, nth_res. cbn [nth_error rbind]. rewrite !pydiv_R by lra. cbn [rbind]. rnum.
  destruct (Rltb (Rabs ((100 - 10) / 100 - (100 - 10) / 100)) eps) eqn:E.
  - eexists. split; [reflexivity|]. lra.
  - rbool. rewrite Rminus_diag_eq, Rabs_R0 in E by reflexivity. lra.
Qed.
(** A viewBox of another shape than the viewport is refused, unless the scales differ by less than the precision. *)
Theorem C86_aspect eps vw vh w h : vw <> 0 -> vh <> 0 ->
  (exists s, view_scale (N:=ROps) eps vw vh (Some [0; 0; w; h]) = Ok s) <-> Rabs (w / vw - h / vh) < eps.
Proof.
  intros H1 H2. unfold view_scale, nth_res. cbn [nth_error rbind]. rewrite pydiv_R by assumption. cbn [rbind]. rewrite pydiv_R by assumption. cbn [rbind].
  rnum. rewrite !Rminus_0_r. destruct (Rltb (Rabs (w / vw - h / vh)) eps) eqn:E; rbool; split; intros H; eauto; try lra.
  destruct H as (s & H). discriminate.
Qed.
