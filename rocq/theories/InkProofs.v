(** * InkProofs: the shapes of a drawing. *)
From Verif Require Import Num NumR Str Geom GeomR GeomProofs GeomProofs4 Svg SvgSpec SvgProofs SvgDoc SvgDocSpec SvgDocProofs SvgDocProofs2 PropsSvgDoc Css CssSpec CssProofs PropsCss GeomSvg PropsGeomSvg2 Ink InkSpec.
From Coq Require Import String Ascii ZArith NArith List Bool Lia Reals Lra.
Import ListNotations.

(** ** Attributes *)
Lemma x_get_has n name v : proper n -> has n name v -> x_get n name = Some v.
Proof.
  unfold proper, has, x_get, text. change (list_ascii_of_string name) with (L name). intros H I0. induction (x_attrs n) as [|[k w] l IH]; [destruct I0|].
  cbn [map fst find] in *. inversion H as [|? ? N1 N2]; subst. destruct (str_eqb k (L name)) eqn:Q.
  - apply str_eqb_iff in Q. subst k. destruct I0 as [I0|I0]; [injection I0 as ->; reflexivity|].
    destruct N1. apply in_map_iff. exists (L name, v). split; [reflexivity|exact I0].
  - destruct I0 as [I0|I0]; [injection I0 as -> ->; rewrite str_eqb_refl in Q; discriminate|].
    apply IH; auto.
Qed.
Lemma x_get_some n name v : x_get n name = Some v -> has n name v.
Proof.
  unfold has, x_get, text. change (list_ascii_of_string name) with (L name). destruct (find _ _) as [[k w]|] eqn:Q; [|discriminate].
  apply find_some in Q as [Q1 Q2]. cbn [fst snd] in *. apply str_eqb_iff in Q2. subst k. intros [= ->]. exact Q1.
Qed.
Lemma x_get_lacks n name : lacks n name -> x_get n name = None.
Proof.
  intros H. destruct (x_get n name) as [v|] eqn:Q; [|reflexivity]. apply x_get_some in Q. destruct H.
  apply in_map_iff. exists (text name, v). auto.
Qed.
Lemma x_get_none n name v : x_get n name = None -> ~ has n name v.
Proof.
  unfold has, x_get, text. change (list_ascii_of_string name) with (L name). destruct (find _ _) as [[k w]|] eqn:Q; [discriminate|].
  intros _ I0. apply (find_none _ _ Q) in I0. cbn [fst] in I0. rewrite str_eqb_refl in I0. discriminate.
Qed.

(** ** Tags *)
Lemma tag_is_iff n name : tag_is n name = true <-> x_tag n = Some (L name).
Proof.
  unfold tag_is. destruct (x_tag n) as [t|]; [|split; discriminate]. rewrite str_eqb_iff. split; [intros ->; reflexivity|intros [= ->]; reflexivity].
Qed.
Lemma group_iff n : node_is_group n = true <-> InkSpec.element n "g".
Proof.
  unfold node_is_group, InkSpec.element. rewrite orb_true_iff, !tag_is_iff. change (text ("{" ++ svg_uri ++ "}" ++ "g")) with (L (SVG_NS ++ "g")).
  change (text "g") with (L "g"). tauto.
Qed.
Lemma use_iff n : node_is_use n = true <-> InkSpec.element n "use".
Proof.
  unfold node_is_use, InkSpec.element. rewrite orb_true_iff, !tag_is_iff. change (text ("{" ++ svg_uri ++ "}" ++ "use")) with (L (SVG_NS ++ "use")).
  change (text "use") with (L "use"). tauto.
Qed.
Lemma use_not_group n : InkSpec.element n "use" -> node_is_group n = false.
Proof.
  intros H. destruct (node_is_group n) eqn:Q; [|reflexivity]. apply group_iff in Q.
  destruct H as [H|H], Q as [Q|Q]; rewrite H in Q; discriminate.
Qed.
Lemma strip_local n w : local_name n w -> exists t, x_tag n = Some t /\ strip_ns t = w.
Proof.
  intros [Hw H]. assert (B : existsb (Ascii.eqb "}") w = false).
  { destruct (existsb _ w) eqn:Q; [|reflexivity]. apply existsb_exists in Q as (c & Q1 & Q2). apply Ascii.eqb_eq in Q2. subst c. contradiction. }
  destruct H as [H|[ns H]]; [exists w; split; [exact H|apply no_brace_strip, B]|]. exists (ns ++ "}"%char :: w). split; [exact H|]. clear H Hw.
  induction ns as [|c ns IH]; cbn [app strip_ns].
  - cbn [existsb]. rewrite Ascii.eqb_refl. cbn [orb]. apply no_brace_strip, B.
  - assert (X : existsb (Ascii.eqb "}") (c :: ns ++ "}"%char :: w) = true).
    { apply existsb_exists. exists "}"%char. split; [right; apply in_or_app; right; left; reflexivity|apply Ascii.eqb_refl]. }
    rewrite X. exact IH.
Qed.
Lemma in_tags w tags : existsb (str_eqb w) tags = true <-> In w tags.
Proof.
  rewrite existsb_exists. split; [intros (t & H & Q); apply str_eqb_iff in Q; subst; exact H|intros H; exists w; split; [exact H|apply str_eqb_refl]].
Qed.

(** ** Document order *)
Definition kids_walk (ups : list xml) (l : list xml) : list located := flat_map (walk ups) l.
Lemma walk_eq ups n : walk ups n = (ups, n) :: kids_walk (n :: ups) (x_kids n).
Proof.
  destruct n as [u t a k]. cbn [walk x_kids]. reflexivity.
Qed.
Fixpoint xml_ind' (P : xml -> Prop) (H : forall u t a k, Forall P k -> P (Xml u t a k)) (n : xml) {struct n} : P n :=
  let 'Xml u t a k := n in
  H u t a k ((fix go l : Forall P l := match l with [] => Forall_nil _ | c :: r => Forall_cons _ (xml_ind' P H c) (go r) end) k).
Lemma walk_at doc ups n : at_node doc ups n -> forall c, In c (walk ups n) -> at_node doc (fst c) (snd c).
Proof.
  revert ups. induction n as [u t a k IH] using xml_ind'. intros ups H c. rewrite walk_eq. intros [<-|I0]; [exact H|].
  unfold kids_walk in I0. cbn [x_kids] in I0. apply in_flat_map in I0 as (m & M1 & M2). rewrite Forall_forall in IH.
  apply (IH m M1 (Xml u t a k :: ups)); [|exact M2]. apply at_kid; [exact H|exact M1].
Qed.
Lemma in_walk_kid r0 n0 ups n k : In (ups, n) (walk r0 n0) -> In k (x_kids n) -> In (n :: ups, k) (walk r0 n0).
Proof.
  revert r0. induction n0 as [u t a l IH] using xml_ind'. intros r0. rewrite walk_eq. intros [E|I0] Hk.
  - injection E as -> ->. cbn [x_kids] in *. right. unfold kids_walk. apply in_flat_map. exists k. split; [exact Hk|]. rewrite walk_eq. left. reflexivity.
  - right. unfold kids_walk in *. cbn [x_kids] in *. apply in_flat_map in I0 as (m & M1 & M2). apply in_flat_map. exists m. split; [exact M1|].
    rewrite Forall_forall in IH. now apply (IH m M1).
Qed.
Lemma at_walk doc ups n : at_node doc ups n -> In (ups, n) (walk [] doc).
Proof.
  induction 1 as [|ups n k H IH Hk]; [rewrite walk_eq; left; reflexivity|]. now apply in_walk_kid.
Qed.
Lemma below_iff doc ups n : In (ups, n) (below [] doc) <-> at_node doc ups n /\ ups <> [].
Proof.
  unfold below. split.
  - intros I0. apply in_flat_map in I0 as (k & K1 & K2). pose proof (at_kid doc [] doc k (at_root doc) K1) as A.
    split; [exact (walk_at doc _ k A _ K2)|]. intros ->. clear K1 A.
    assert (Z : forall n0 r0 c, In c (walk r0 n0) -> r0 <> [] -> fst c <> []).
    { intros n0. induction n0 as [u t a l IH] using xml_ind'. intros r0 c. rewrite walk_eq. intros [<-|I0] Hr; [exact Hr|].
      unfold kids_walk in I0. cbn [x_kids] in I0. apply in_flat_map in I0 as (m & M1 & M2). rewrite Forall_forall in IH.
      apply (IH m M1 _ c M2). discriminate. }
    apply (Z _ _ _ K2); [discriminate|reflexivity].
  - intros [H Hu]. apply at_walk in H. rewrite walk_eq in H. destruct H as [E|H]; [injection E as <- _; contradiction|]. exact H.
Qed.
Lemma node_by_id doc id ups t : wf_doc doc -> target doc id ups t -> Ink.get_node_by_id doc id = Some (ups, t).
Proof.
  intros [W1 W2] (H1 & H2 & H3 & H4). unfold Ink.get_node_by_id.
  match goal with |- find ?g _ = _ => set (f := g) end. assert (F : f (ups, t) = true).
  { unfold f. cbn [snd]. rewrite (x_get_has t "id" id (W1 _ _ H1) H3), str_eqb_refl, andb_true_r. unfold is_element. destruct (x_tag t); [reflexivity|contradiction]. }
  destruct (find f (below [] doc)) as [[u2 t2]|] eqn:Q.
  - apply find_some in Q as [Q1 Q2]. apply below_iff in Q1 as [Q1 _]. unfold f in Q2. cbn [snd] in Q2. apply andb_true_iff in Q2 as [_ Q2].
    destruct (x_get t2 "id") as [i|] eqn:G; [|discriminate]. apply str_eqb_iff in Q2. subst i. apply x_get_some in G.
    destruct (W2 _ _ _ _ id Q1 H1 G H3) as [-> ->]. reflexivity.
  - rewrite (find_none f _ Q (ups, t)) in F; [discriminate F|]. now apply below_iff.
Qed.
Lemma no_node_by_id doc id : (forall ups t, ~ target doc id ups t) -> Ink.get_node_by_id doc id = None.
Proof.
  intros H. unfold Ink.get_node_by_id. destruct (find _ _) as [[u t]|] eqn:Q; [|reflexivity].
  apply find_some in Q as [Q1 Q2]. cbn [snd] in Q2. apply below_iff in Q1 as [Q1 Q3]. apply andb_true_iff in Q2 as [Q2 Q4].
  destruct (x_get t "id") as [i|] eqn:G; [|discriminate]. apply str_eqb_iff in Q4. subst i. apply x_get_some in G.
  destruct (H u t). split; [exact Q1|]. split; [exact Q3|]. split; [exact G|]. unfold is_element in Q2. destruct (x_tag t); discriminate.
Qed.

(** ** Visibility *)
Definition css_node (m : xml) : Css.node := Css.Node (x_get m "style") (x_get m "visibility").
Lemma style_dict n l : proper n -> style n l ->
  exists d, inline_style_to_dict (x_get n "style") = Ok d /\
    (forall k v, declared l k v -> dict_get k d = Some v) /\ (forall k, ~ In k (map fst l) -> dict_get k d = None).
Proof.
  intros Hp [[H1 ->]|(s & H1 & H2 & H3)].
  - rewrite (x_get_lacks _ _ H1). exists []. split; [reflexivity|]. split; [|reflexivity].
    intros k v (l1 & l2 & E & _). destruct l1; discriminate.
  - rewrite (x_get_has _ _ _ Hp H1). now apply C59_parse.
Qed.
Lemma last_declared (l : list (pystr * pystr)) k : In k (map fst l) -> exists v, declared l k v.
Proof.
  induction l as [|[a b] l IH] using rev_ind; [intros []|]. rewrite map_app. cbn [map fst]. intros H.
  destruct (list_eq_dec ascii_dec a k) as [-> |NE]; [exists b, l, []; split; [reflexivity|intros []]|].
  apply in_app_iff in H as [H|[H|[]]]; [|contradiction]. destruct (IH H) as (v & l1 & l2 & E & Hl). exists v, l1, (l2 ++ [(a, b)]). split.
  - rewrite E, <- app_assoc. reflexivity.
  - rewrite map_app. cbn [map fst]. intros I0. apply in_app_iff in I0 as [I0|[I0|[]]]; contradiction.
Qed.
Lemma dict_declared n l d : proper n -> style n l -> inline_style_to_dict (x_get n "style") = Ok d ->
  forall k v, dict_get k d = Some v <-> declared l k v.
Proof.
  intros Hp Hs Hd k v. destruct (style_dict n l Hp Hs) as (d' & E & H1 & H2). rewrite Hd in E. injection E as <-.
  split; [|apply H1]. intros G. destruct (in_dec (list_eq_dec ascii_dec) k (map fst l)) as [I0|I0].
  - destruct (last_declared l k I0) as (w & Hw). rewrite (H1 _ _ Hw) in G. injection G as <-. exact Hw.
  - rewrite (H2 _ I0) in G. discriminate.
Qed.
Lemma dict_undeclared n l d : proper n -> style n l -> inline_style_to_dict (x_get n "style") = Ok d ->
  forall k, dict_get k d = None <-> ~ In k (map fst l).
Proof.
  intros Hp Hs Hd k. destruct (style_dict n l Hp Hs) as (d' & E & H1 & H2). rewrite Hd in E. injection E as <-.
  split; [|apply H2]. intros G I0. destruct (last_declared l k I0) as (w & Hw). rewrite (H1 _ _ Hw) in G. discriminate.
Qed.
Definition vis_of (n : xml) (d : dict) : option pystr :=
  match dict_get (L "visibility") d with Some v => Some v | None => x_get n "visibility" end.
Lemma visibility_iff n d v : proper n -> readable n -> inline_style_to_dict (x_get n "style") = Ok d ->
  visibility n v <-> vis_of n d = Some (L v).
Proof.
  intros Hp [l0 Hr] Hd. unfold visibility, vis_of. split.
  - intros (l & Hl & [H|[H1 H2]]).
    + apply (dict_declared n l d Hp Hl Hd) in H. change (text "visibility") with (L "visibility") in H. rewrite H. reflexivity.
    + apply (dict_undeclared n l d Hp Hl Hd) in H1. change (text "visibility") with (L "visibility") in H1. rewrite H1. now apply x_get_has.
  - intros H. exists l0. split; [exact Hr|]. destruct (dict_get (L "visibility") d) as [w|] eqn:G.
    + injection H as ->. left. now apply (dict_declared n l0 d Hp Hr Hd).
    + right. split; [now apply (dict_undeclared n l0 d Hp Hr Hd)|]. now apply x_get_some.
Qed.
Lemma hides_iff n d : proper n -> readable n -> inline_style_to_dict (x_get n "style") = Ok d ->
  InkSpec.hides n <-> hidden (css_node n) d.
Proof.
  intros Hp Hr Hd. unfold InkSpec.hides, hidden. rewrite !(visibility_iff n d _ Hp Hr Hd). unfold vis_of. cbn [n_vis css_node].
  assert (A : (exists l, style n l /\ declared l (text "display") (text "none")) <-> dict_get (L "display") d = Some (L "none")).
  { split; [intros (l & Hl & H); now apply (dict_declared n l d Hp Hl Hd)|]. intros H. destruct Hr as [l Hl]. exists l. split; [exact Hl|].
    now apply (dict_declared n l d Hp Hl Hd). }
  rewrite A. split.
  - intros [H|[H|H]]; [left; exact H| |]; right; [exists (L "hidden")|exists (L "collapse")]; (split; [|tauto]);
      destruct (dict_get (L "visibility") d); auto.
  - intros [H|(v & [H|[H1 H2]] & [-> | ->])]; [left; exact H| | | |]; right; [left|right|left|right].
    + rewrite H. reflexivity.
    + rewrite H. reflexivity.
    + rewrite H1. exact H2.
    + rewrite H1. exact H2.
Qed.
Lemma readable_dict n : proper n -> readable n -> exists d, inline_style_to_dict (n_style (css_node n)) = Ok d.
Proof. intros Hp [l Hl]. destruct (style_dict n l Hp Hl) as (d & E & _). exists d. exact E. Qed.
Lemma chain_dicts ups : Forall (fun n => proper n /\ readable n) ups ->
  exists ds, Forall2 (fun n d => inline_style_to_dict (n_style n) = Ok d) (map css_node ups) ds /\
    (Forall2 (fun n d => ~ hidden n d) (map css_node ups) ds <-> Forall (fun m => ~ InkSpec.hides m) ups).
Proof.
  induction 1 as [|n ups [Hp Hr] _ (ds & D1 & D2)]; [exists []; split; [constructor|split; constructor]|].
  destruct (readable_dict n Hp Hr) as (d & Hd). exists (d :: ds). split; [constructor; assumption|].
  cbn [map]. assert (HH := hides_iff n d Hp Hr Hd). split; intros H.
  - inversion_clear H as [|? ? ? ? H1 H2]. constructor; [tauto|]. now apply D2.
  - inversion_clear H as [|? ? H1 H2]. constructor; [tauto|]. now apply D2.
Qed.
Lemma visible_shown ups n : Forall (fun n => proper n /\ readable n) (n :: ups) ->
  exists b, visible false ups n = Ok b /\ (b = true <-> shown ups n).
Proof.
  intros H. inversion_clear H as [|? ? [Hp Hr] Hu]. destruct (chain_dicts ups Hu) as (ds & D1 & D2). destruct (readable_dict n Hp Hr) as (d & Hd).
  destruct (C88_no_parents (css_node n) d (map css_node ups) ds Hd D1) as (b & E & Hb). exists b. split; [exact E|].
  rewrite Hb. unfold shown. rewrite (hides_iff n d Hp Hr Hd), (visibility_iff n d "inherit" Hp Hr Hd), D2. unfold vis_of. cbn [n_vis css_node]. tauto.
Qed.
Lemma visible_ancestors ups n : Forall (fun n => proper n /\ readable n) (n :: ups) ->
  exists b, visible true ups n = Ok b /\ (b = true <-> shown_with_ancestors ups n).
Proof.
  intros H. destruct (chain_dicts (n :: ups) H) as (ds & D1 & D2).
  destruct (C88_visible (map css_node (n :: ups)) ds ltac:(discriminate) D1) as (b & E & Hb). exists b. split; [exact E|].
  rewrite Hb. exact D2.
Qed.

(** ** Placements *)
Local Open Scope R_scope.
Definition acts_as (m : mat ROps) (f : placement) : Prop := forall p, apply m (as_pt p) = as_pt (f p).
Lemma acts_compose m f k g : acts_as m f -> acts_as k g -> acts_as (compose m k) (InkSpec.within f g).
Proof. intros H1 H2 p. rewrite apply_compose, H2, H1. reflexivity. Qed.
Lemma acts_identity : acts_as IDENTITY (fun p => p).
Proof. intros [x y]. apply pt_ext; cbn; lra. Qed.
Lemma transform_acts n l : proper n -> transform n l -> exists m, parse_transform_attr (N:=ROps) (x_get n "transform") = Ok m /\ acts_as m (acts_all l).
Proof.
  intros Hp [[H ->]|(s & H1 & H2 & H3)].
  - rewrite (x_get_lacks _ _ H). exists IDENTITY. split; [reflexivity|]. apply acts_identity.
  - rewrite (x_get_has _ _ _ Hp H1). apply (transform_points l s H2 H3).
Qed.
Lemma coordinate_offset n name x : proper n -> coordinate n name x -> use_offset (N:=ROps) n name = Ok x.
Proof.
  intros Hp [[H ->]|(d & H1 & H2 & ->)]; unfold use_offset.
  - rewrite (x_get_lacks _ _ H). reflexivity.
  - rewrite (x_get_has _ _ _ Hp H2). apply py_float_text, H1.
Qed.
Lemma acts_shift x y : acts_as (translate (N:=ROps) x y) (InkSpec.shift x y).
Proof. intros [a b]. apply pt_ext; cbn; lra. Qed.
Lemma acts_within_id m f : acts_as m f -> acts_as m (InkSpec.within f (InkSpec.shift 0 0)).
Proof. intros H [a b]. unfold InkSpec.within, InkSpec.shift. cbn [fst snd]. replace (a + 0, b + 0) with (a, b) by (f_equal; ring). apply H. Qed.
Lemma acts_ext m f g : (forall p, f p = g p) -> acts_as m f -> acts_as m g.
Proof. intros H1 H2 p. rewrite H2, H1. reflexivity. Qed.

Lemma acts_placed (acc : bool) m f k g : acts_as m f -> acts_as k g -> acts_as (if acc then compose m k else k) (placed acc f g).
Proof. destruct acc; [apply acts_compose|auto]. Qed.
Lemma shapes_group acc f g l : shapes acc f (Group g l) = flat_map (shapes acc (placed acc f g)) l.
Proof. cbn [shapes]. induction l as [|p l IH]; [reflexivity|]. cbn [flat_map]. rewrite <- IH. reflexivity. Qed.
Lemma shapes_nothing acc f : shapes acc f nothing = [].
Proof. reflexivity. Qed.

Definition reported (s : xml * placement) (o : xml * mat ROps) : Prop := fst s = fst o /\ acts_as (snd o) (snd s).
Section Shapes.
  Variables (doc : xml) (tags : list pystr) (skipped : pystr -> Prop) (skip : list (pystr -> bool)) (acc : bool).
  Hypothesis WF : wf_doc doc.
  Hypothesis RD : forall ups n, at_node doc ups n -> readable n.
  Hypothesis SK : forall name, skipped name <-> existsb (fun s => s name) skip = true.

  Lemma at_all ups n : at_node doc ups n -> Forall (fun n => proper n /\ readable n) (n :: ups).
  Proof.
    induction 1 as [|ups n k H IH Hk].
    - constructor; [|constructor]. split; [apply (proj1 WF [] doc), at_root|apply (RD [] doc), at_root].
    - pose proof (at_kid doc ups n k H Hk) as Q. constructor; [|exact IH]. split; [apply (proj1 WF _ _ Q)|apply (RD _ _ Q)].
  Qed.
  Lemma skipped_iff n : proper n -> InkSpec.element n "g" ->
    (match is_layer n with Some name => existsb (fun s => s name) skip | None => false end = true <-> skipped_layer skipped n).
  Proof.
    intros Hp Hg. unfold is_layer. rewrite (proj2 (group_iff n) Hg). unfold get_layer_name, skipped_layer.
    change InkSpec.label with INK_LABEL. split.
    - destruct (x_get n INK_LABEL) as [[|c r]|] eqn:Q; [discriminate| |discriminate]. intros H. exists (c :: r).
      split; [apply x_get_some, Q|]. split; [discriminate|]. now apply SK.
    - intros (name & H1 & H2 & H3). rewrite (x_get_has _ _ _ Hp H1). destruct name as [|c r]; [contradiction|]. now apply SK.
  Qed.
  Definition gets (fuel : nat) (f : placement) (m : mat ROps) ups n (ss : list (xml * placement)) : Prop :=
    exists out, shape_nodes fuel doc tags skip acc (Some m) false ups n = Ok out /\ Forall2 reported ss out.
  Lemma shapes_pictures :
    (forall ups n p, pictures doc tags skipped ups n p -> at_node doc ups n ->
       exists k, forall fuel, (k <= fuel)%nat -> forall m f, acts_as m f -> gets fuel f m ups n (shapes acc f p)) /\
    (forall ups l ps, all_pictures doc tags skipped ups l ps -> (forall n, In n l -> at_node doc ups n) ->
       exists k, forall fuel, (k <= fuel)%nat -> forall m f, acts_as m f ->
         exists out, collect (shape_nodes fuel doc tags skip acc (Some m) false ups) l = Ok out /\
           Forall2 reported (flat_map (shapes acc f) ps) out).
  Proof.
    apply pictures_mut.
    - intros ups n Hs Ha. exists 1%nat. intros fuel Hf m f _. destruct fuel as [|fuel]; [lia|]. exists []. split; [|constructor]. cbn [shape_nodes].
      destruct (visible_shown ups n (at_all ups n Ha)) as (b & -> & Hb). cbn [rbind]. destruct b; [destruct Hs; now apply Hb|reflexivity].
    - intros ups n l Hs Hg Hk Ht Ha. exists 1%nat. intros fuel Hf m f _. destruct fuel as [|fuel]; [lia|]. exists []. split; [|constructor]. cbn [shape_nodes].
      destruct (visible_shown ups n (at_all ups n Ha)) as (b & -> & Hb). cbn [rbind]. destruct b; [|reflexivity]. cbn [negb].
      pose proof (Forall_inv (at_all ups n Ha)) as [Hp _]. destruct (transform_acts n l Hp Ht) as (k & -> & _). cbn [rbind].
      rewrite (proj2 (group_iff n) Hg), (proj2 (skipped_iff n Hp Hg) Hk). reflexivity.
    - intros ups n l ps Hs Hg Hk Ht _ IH Ha. destruct IH as (k0 & IH). { intros c Hc. now apply at_kid. }
      exists (S k0). intros fuel Hf m f Hm. destruct fuel as [|fuel]; [lia|].
      destruct (visible_shown ups n (at_all ups n Ha)) as (b & V & Hb). assert (b = true) as -> by now apply Hb.
      pose proof (Forall_inv (at_all ups n Ha)) as [Hp _]. destruct (transform_acts n l Hp Ht) as (k & T0 & Hk2).
      destruct (IH fuel ltac:(lia) (if acc then compose m k else k) (placed acc f (acts_all l)) (acts_placed _ _ _ _ _ Hm Hk2)) as (out & E & F).
      exists out. rewrite shapes_group. split; [|exact F]. cbn [shape_nodes]. rewrite V. cbn [rbind negb]. rewrite T0. cbn [rbind].
      rewrite (proj2 (group_iff n) Hg).
      destruct (match is_layer n with Some name => existsb (fun s => s name) skip | None => false end) eqn:Q; [|exact E].
      destruct Hk. now apply skipped_iff.
    - intros ups n l c id tups t x y p Hs Hu Ht Hh Htg Hx Hy _ IH Ha.
      destruct IH as (k0 & IH); [exact (proj1 Htg)|]. exists (S k0). intros fuel Hf m f Hm. destruct fuel as [|fuel]; [lia|].
      destruct (visible_shown ups n (at_all ups n Ha)) as (b & V & Hb). assert (b = true) as -> by now apply Hb.
      pose proof (Forall_inv (at_all ups n Ha)) as [Hp _]. destruct (transform_acts n l Hp Ht) as (k & T0 & Hk2).
      unfold gets. cbn [shape_nodes]. rewrite V. cbn [rbind negb]. rewrite T0. cbn [rbind]. rewrite (use_not_group n Hu), (proj2 (use_iff n) Hu).
      change href with XLINK_HREF in Hh. rewrite (x_get_has _ _ _ Hp Hh), (node_by_id doc id tups t WF Htg).
      rewrite (coordinate_offset n "x" x Hp Hx). cbn [rbind]. rewrite (coordinate_offset n "y" y Hp Hy). cbn [rbind].
      match goal with |- context[shape_nodes _ _ _ _ _ (Some ?mm) _ _ _] => set (m' := mm) end.
      assert (Hm' : acts_as m' (placed acc f (InkSpec.within (acts_all l) (InkSpec.shift x y)))).
      { apply (acts_ext _ (InkSpec.within (placed acc f (acts_all l)) (InkSpec.shift x y))); [destruct acc; reflexivity|]. unfold m'.
        destruct (negb _ || negb _) eqn:Q.
        - apply acts_compose; [now apply acts_placed|apply acts_shift].
        - apply orb_false_iff in Q as [Q1 Q2]. apply negb_false_iff in Q1, Q2. cbn in Q1, Q2. apply Reqb_true in Q1, Q2. subst x y.
          apply acts_within_id. now apply acts_placed. }
      destruct (IH fuel ltac:(lia) m' _ Hm') as (out & E & F). exists out. split; [exact E|]. rewrite shapes_group. cbn [flat_map]. rewrite app_nil_r. exact F.
    - intros ups n l Hs Hu Ht Hn Ha. exists 1%nat. intros fuel Hf m f _. destruct fuel as [|fuel]; [lia|]. exists []. split; [|constructor]. cbn [shape_nodes].
      destruct (visible_shown ups n (at_all ups n Ha)) as (b & -> & Hb). cbn [rbind]. destruct b; [|reflexivity]. cbn [negb].
      pose proof (Forall_inv (at_all ups n Ha)) as [Hp _]. destruct (transform_acts n l Hp Ht) as (k & -> & _). cbn [rbind].
      rewrite (use_not_group n Hu), (proj2 (use_iff n) Hu). destruct (x_get n XLINK_HREF) as [[|c id]|] eqn:Q; [reflexivity| |reflexivity].
      apply x_get_some in Q. rewrite (no_node_by_id doc id (Hn c id Q)). reflexivity.
    - intros ups n l w Hs Hg Hu Ht Hl Hw Ha. exists 1%nat. intros fuel Hf m f Hm. destruct fuel as [|fuel]; [lia|].
      pose proof (Forall_inv (at_all ups n Ha)) as [Hp _]. destruct (transform_acts n l Hp Ht) as (k & T0 & Hk).
      exists [(n, if acc then compose m k else k)]. split; [|constructor; [split; [reflexivity|now apply acts_placed]|constructor]]. cbn [shape_nodes].
      destruct (visible_shown ups n (at_all ups n Ha)) as (b & -> & Hb). cbn [rbind]. assert (b = true) as -> by now apply Hb. cbn [negb].
      rewrite T0. cbn [rbind]. destruct (node_is_group n) eqn:Q1; [destruct Hg; now apply group_iff|].
      destruct (node_is_use n) eqn:Q2; [destruct Hu; now apply use_iff|]. destruct (strip_local n w Hl) as (t & -> & ->).
      rewrite (proj2 (in_tags w tags) Hw). reflexivity.
    - intros ups n l w Hs Hg Hu Ht Hl Hw Ha. exists 1%nat. intros fuel Hf m f Hm. destruct fuel as [|fuel]; [lia|].
      pose proof (Forall_inv (at_all ups n Ha)) as [Hp _]. destruct (transform_acts n l Hp Ht) as (k & T0 & Hk).
      exists []. split; [|constructor]. cbn [shape_nodes].
      destruct (visible_shown ups n (at_all ups n Ha)) as (b & -> & Hb). cbn [rbind]. assert (b = true) as -> by now apply Hb. cbn [negb].
      rewrite T0. cbn [rbind]. destruct (node_is_group n) eqn:Q1; [destruct Hg; now apply group_iff|].
      destruct (node_is_use n) eqn:Q2; [destruct Hu; now apply use_iff|]. destruct (strip_local n w Hl) as (t & -> & ->).
      destruct (existsb (str_eqb w) tags) eqn:Q3; [destruct Hw; now apply in_tags|reflexivity].
    - intros ups _. exists 0%nat. intros fuel _ m f _. exists []. split; [reflexivity|constructor].
    - intros ups n r p ps _ IH1 _ IH2 Ha. destruct IH1 as (k1 & IH1). { apply Ha. now left. } destruct IH2 as (k2 & IH2). { intros c Hc. apply Ha. now right. }
      exists (Nat.max k1 k2). intros fuel Hf m f Hm. destruct (IH1 fuel ltac:(lia) m f Hm) as (o1 & E1 & F1). destruct (IH2 fuel ltac:(lia) m f Hm) as (o2 & E2 & F2).
      exists (o1 ++ o2). cbn [collect flat_map]. rewrite E1. cbn [rbind]. rewrite E2. split; [reflexivity|]. now apply Forall2_app.
  Qed.

  (** without a parent transform: that of the ancestors *)
  Lemma parent_acts ups f : Forall proper ups -> ancestors_place ups f ->
    exists m, get_parent_transform (N:=ROps) (map (fun m => x_get m "transform") ups) = Ok m /\ acts_as m f.
  Proof.
    intros Hp H. unfold get_parent_transform.
    assert (G : forall m0 g, acts_as m0 g -> exists m, parent_transform_loop m0 (map (fun m => x_get m "transform") ups) = Ok m /\ acts_as m (InkSpec.within f g)).
    { clear - Hp H. revert Hp. induction H as [|n ups l f Ht H IH]; intros Hp m0 g Hg.
      - exists m0. split; [reflexivity|exact Hg].
      - inversion_clear Hp as [|? ? Hn Hu]. cbn [map parent_transform_loop]. destruct (transform_acts n l Hn Ht) as (k & E & Hk).
        destruct (x_get n "transform") as [a|] eqn:Q.
        + rewrite E. cbn [rbind]. destruct (IH Hu (compose k m0) (InkSpec.within (acts_all l) g)) as (m & E2 & Hm); [now apply acts_compose|].
          exists m. split; [exact E2|]. exact Hm.
        + destruct Ht as [[_ ->]|(s & Hs & _)]; [|apply x_get_none with (v:=s) in Q; contradiction].
          destruct (IH Hu m0 g Hg) as (m & E2 & Hm). exists m. split; [exact E2|]. exact Hm. }
    destruct (G _ (fun p => p) acts_identity) as (m & E & Hm). exists m. split; [exact E|]. exact Hm.
  Qed.
  Lemma shape_nodes_none fuel check ups n m : get_parent_transform (N:=ROps) (map (fun m => x_get m "transform") ups) = Ok m ->
    shape_nodes fuel doc tags skip acc None check ups n = shape_nodes fuel doc tags skip acc (Some m) check ups n.
  Proof. intros H. destruct fuel as [|fuel]; [reflexivity|]. cbn [shape_nodes]. rewrite H. reflexivity. Qed.
  Lemma shape_nodes_checked fuel m ups n : Forall (fun n => proper n /\ readable n) (n :: ups) -> shown_with_ancestors ups n ->
    shape_nodes (N:=ROps) fuel doc tags skip acc m true ups n = shape_nodes fuel doc tags skip acc m false ups n.
  Proof.
    intros H Hs. destruct fuel as [|fuel]; [reflexivity|]. cbn [shape_nodes].
    destruct (visible_shown ups n H) as (b & -> & Hb). destruct (visible_ancestors ups n H) as (b' & -> & Hb').
    assert (b' = true) as -> by now apply Hb'. assert (b = true) as -> by (apply Hb; inversion_clear Hs; split; auto). reflexivity.
  Qed.
End Shapes.
