(** * PropsInk3: layers (C126, C127).  Specification: [InkSpec] and the definitions below. *)
From Verif Require Import Num NumR Str Geom GeomR Svg SvgSpec SvgProofs SvgDoc SvgDocSpec SvgDocProofs2 Css CssSpec CssProofs PropsGeomSvg2 Ink InkSpec InkProofs PropsInk PropsInk2.
From Coq Require Import String Ascii ZArith NArith List Bool Lia.
Import ListNotations.

(** A group of that label, as Inkscape writes layers. *)
Definition layer_named (name : pystr) (n : xml) : Prop := x_tag n = Some (text ("{" ++ svg_uri ++ "}g")) /\ has n label name.
Definition no_layer (doc : xml) (name : pystr) : Prop := forall ups n, at_node doc ups n -> ~ layer_named name n.
(** the first one in document order *)
Definition first_layer (doc : xml) (name : pystr) (l : xml) : Prop :=
  layer_named name l /\ exists a b, map snd (walk [] doc) = a ++ l :: b /\ Forall (fun n => ~ layer_named name n) a.
(** every object of the document has its own identity *)
Definition identities (doc : xml) : Prop := NoDup (map (fun c => x_uid (snd c)) (walk [] doc)).
Definition proper_doc (doc : xml) : Prop := forall ups n, at_node doc ups n -> proper n.
(** the document without the contents of that node *)
Inductive emptied (u : nat) : xml -> xml -> Prop :=
| em_here t a k : emptied u (Xml u t a k) (Xml u t a [])
| em_other v t a k k' : v <> u -> Forall2 (emptied u) k k' -> emptied u (Xml v t a k) (Xml v t a k').

Definition is_named (name : pystr) (n : xml) : bool :=
  tag_is n (SVG_NS ++ "g") && match x_get n INK_LABEL with Some v => str_eqb v name | None => false end.
Lemma is_named_iff name n : proper n -> is_named name n = true <-> layer_named name n.
Proof.
  intros Hp. unfold is_named, layer_named. rewrite andb_true_iff, tag_is_iff. change (text ("{" ++ svg_uri ++ "}g")) with (L (SVG_NS ++ "g")).
  change label with INK_LABEL. split; intros [H1 H2]; (split; [exact H1|]).
  - destruct (x_get n INK_LABEL) as [v|] eqn:Q; [|discriminate]. apply str_eqb_iff in H2. subst v. now apply x_get_some.
  - rewrite (x_get_has _ _ _ Hp H2). apply str_eqb_refl.
Qed.
Lemma in_walk doc n : In n (map snd (walk [] doc)) -> exists ups, at_node doc ups n.
Proof. intros H. apply in_map_iff in H as ([ups m] & <- & H). exists ups. exact (walk_at doc [] doc (at_root doc) _ H). Qed.
Lemma find_first {A} (f : A -> bool) l x : find f l = Some x -> exists a b, l = a ++ x :: b /\ f x = true /\ Forall (fun y => f y = false) a.
Proof.
  induction l as [|y l IH]; [discriminate|]. cbn [find]. destruct (f y) eqn:Q.
  - intros [= ->]. exists [], l. split; [reflexivity|]. split; [exact Q|constructor].
  - intros H. destruct (IH H) as (a & b & -> & H1 & H2). exists (y :: a), b. split; [reflexivity|]. split; [exact H1|constructor; assumption].
Qed.
Lemma find_layer_some doc name l : proper_doc doc -> find_layer doc name = Some l -> first_layer doc name l.
Proof.
  intros W H. unfold find_layer in H. change (find (is_named name) (map snd (walk [] doc)) = Some l) in H.
  assert (P0 : forall n, In n (map snd (walk [] doc)) -> proper n) by (intros n I0; destruct (in_walk doc n I0) as (ups & A); now apply (W ups)).
  apply find_first in H as (a & b & E & H1 & H2). split; [apply is_named_iff; [|exact H1]; apply P0; rewrite E; apply in_or_app; right; left; reflexivity|].
  exists a, b. split; [exact E|]. rewrite Forall_forall in *. intros n Hn Q. apply is_named_iff in Q; [rewrite (H2 n Hn) in Q; discriminate|].
  apply P0. rewrite E. apply in_or_app. now left.
Qed.
Lemma find_layer_none doc name : proper_doc doc -> find_layer doc name = None <-> no_layer doc name.
Proof.
  intros W. unfold find_layer, no_layer. change (find (is_named name) (map snd (walk [] doc)) = None <-> forall ups n, at_node doc ups n -> ~ layer_named name n). split.
  - intros H ups n A Q. apply is_named_iff in Q; [|now apply (W ups)]. rewrite (find_none _ _ H n) in Q; [discriminate|].
    apply at_walk in A. apply in_map_iff. exists (ups, n). auto.
  - intros H. destruct (find _ _) as [l|] eqn:Q; [|reflexivity]. apply find_some in Q as [Q1 Q2]. destruct (in_walk doc l Q1) as (ups & A).
    destruct (H ups l A). apply is_named_iff; [now apply (W ups)|exact Q2].
Qed.
Lemma first_layer_find doc name l : proper_doc doc -> first_layer doc name l -> find_layer doc name = Some l.
Proof.
  intros W (H & a & b & E & Ha). unfold find_layer. change (find (is_named name) (map snd (walk [] doc)) = Some l).
  assert (P0 : forall n, In n (map snd (walk [] doc)) -> proper n) by (intros n I0; destruct (in_walk doc n I0) as (ups & A); now apply (W ups)).
  rewrite E in *. clear E. induction a as [|c a IH].
  - cbn [app find]. rewrite (proj2 (is_named_iff name l (P0 l ltac:(left; reflexivity))) H). reflexivity.
  - inversion_clear Ha as [|? ? H1 H2]. cbn [app find]. destruct (is_named name c) eqn:Q.
    + apply is_named_iff in Q; [contradiction|]. apply P0. left. reflexivity.
    + apply IH; [exact H2|]. intros n Hn. apply P0. right. exact Hn.
Qed.

(** ** C126: find_layer gives the first group of that label, None if there is none. *)
Theorem C126_find doc name : proper_doc doc ->
  (forall l, find_layer doc name = Some l <-> first_layer doc name l) /\ (find_layer doc name = None <-> no_layer doc name).
Proof.
  intros W. split; [|now apply find_layer_none]. intros l. split; [now apply find_layer_some|now apply first_layer_find].
Qed.

Lemma clear_emptied u n : emptied u n (clear_node u n).
Proof.
  induction n as [v t a k IH] using xml_ind'. cbn [clear_node]. destruct (Nat.eqb_spec u v) as [<-|NE]; [constructor|].
  constructor; [congruence|]. induction IH as [|c k Hc _ IHk]; [constructor|]. cbn [map]. constructor; assumption.
Qed.
Lemma clear_id u : forall n ups, (forall c, In c (walk ups n) -> x_uid (snd c) = u -> x_kids (snd c) = []) -> clear_node u n = n.
Proof.
  induction n as [v t a k IH] using xml_ind'. intros ups H. cbn [clear_node]. destruct (Nat.eqb_spec u v) as [<-|NE].
  - specialize (H (ups, Xml u t a k)). cbn [snd x_uid x_kids] in H. rewrite H; [reflexivity|rewrite walk_eq; left; reflexivity|reflexivity].
  - f_equal. assert (K : forall l, incl l k -> map (clear_node u) l = l).
    { induction l as [|c l IHl]; intros I0; [reflexivity|]. cbn [map]. rewrite Forall_forall in IH.
      assert (Ic : In c k) by (apply I0; left; reflexivity).
      rewrite (IH c Ic (Xml v t a k :: ups)), IHl; [reflexivity|intros x Hx; apply I0; right; exact Hx|].
      intros d Hd. apply H. rewrite walk_eq. right. unfold kids_walk. apply in_flat_map. exists c. split; [exact Ic|exact Hd]. }
    apply K. apply incl_refl.
Qed.

(** A name that no layer has: a new empty layer of that name is appended to the document, nothing else changes. *)
Definition new_layer (l : xml) (fresh : nat) (name : pystr) (tag : option pystr) : Prop :=
  x_uid l = fresh /\ x_kids l = [] /\ has l label name /\
  has l "{http://www.inkscape.org/namespaces/inkscape}groupmode" (text "layer") /\
  (forall t, tag = Some t -> has l "{http://www.utlco.com/namespaces/utlco}tag" t).
Definition appended (doc l doc' : xml) : Prop :=
  x_uid doc' = x_uid doc /\ x_tag doc' = x_tag doc /\ x_attrs doc' = x_attrs doc /\ x_kids doc' = x_kids doc ++ [l].
Lemma append_appended doc l : appended doc l (append_kid doc l).
Proof. destruct doc. repeat split. Qed.
Theorem C126_new_layer {N : NumOps} doc fresh name (opacity flip : option N) clear incr tag : proper_doc doc -> no_layer doc name ->
  exists doc' l, create_layer doc fresh name opacity clear incr flip tag = Ok (doc', l) /\ appended doc l doc' /\ new_layer l fresh name tag.
Proof.
  intros W H. apply (find_layer_none doc name W) in H. unfold create_layer. rewrite H. cbn [rbind].
  do 2 eexists. split; [reflexivity|]. split; [apply append_appended|].
  repeat split; [right; left; reflexivity|left; reflexivity|]. intros t ->. right; right; left; reflexivity.
Qed.
(** A name that a layer has, which is empty or for which no suffix is asked: that layer is returned; it is emptied if
    [clear] is given and nothing else changes. *)
Theorem C126_existing_layer {N : NumOps} doc fresh name (opacity flip : option N) clear incr tag l : proper_doc doc -> first_layer doc name l ->
  incr = false \/ x_kids l = [] ->
  exists doc' l', create_layer doc fresh name opacity clear incr flip tag = Ok (doc', l') /\
    if clear then emptied (x_uid l) doc doc' /\ emptied (x_uid l) l l' /\ x_kids l' = [] else doc' = doc /\ l' = l.
Proof.
  intros W H Hi. apply (first_layer_find doc name l W) in H. unfold create_layer. rewrite H.
  assert (E : (match Some l with
         | Some (Xml _ _ _ (_ :: _)) => if incr then suffix_loop (S (List.length (walk [] doc))) doc name 0 else Ok (name, Some l)
         | _ => Ok (name, Some l) end) = Ok (name, Some l)).
  { destruct l as [u t a [|c k]]; [reflexivity|]. destruct Hi as [-> |Hi]; [reflexivity|discriminate Hi]. }
  rewrite E. cbn [rbind]. destruct clear.
  - do 2 eexists. split; [reflexivity|]. split; [apply clear_emptied|]. split; [apply clear_emptied|]. destruct l as [u t a k]. cbn. rewrite Nat.eqb_refl. reflexivity.
  - do 2 eexists. split; [reflexivity|]. auto.
Qed.

(** The suffixes: decimal numbers of at least two digits, all different. *)
Lemma digit_inj d e : digit_text d = digit_text e -> d = e.
Proof. destruct d, e; cbn; intros H; congruence. Qed.
Theorem C126_suffix_text n : exists ds, two_digits n = map digit_text ds /\ (2 <= List.length ds)%nat /\ positional 0 ds = Z.of_nat n.
Proof.
  unfold two_digits. destruct (N_text_digits (N.of_nat n)) as (ds & E1 & E2 & E3). rewrite nat_N_Z in E3.
  destruct (Nat.ltb_spec n 10) as [H|H].
  - exists (D0 :: ds). split; [unfold L; cbn [append list_ascii_of_string map]; rewrite E1; reflexivity|]. split; [destruct ds; [congruence|cbn; lia]|exact E3].
  - exists ds. split; [exact E1|]. split; [|exact E3]. destruct ds as [|d [|e ds]]; [congruence| |cbn; lia].
    exfalso. cbn in E3. destruct d; cbn in E3; lia.
Qed.
Lemma digits_inj : forall ds es, map digit_text ds = map digit_text es -> ds = es.
Proof.
  induction ds as [|d ds IH]; intros [|e es] E; try discriminate; [reflexivity|]. cbn [map] in E. injection E as E1 E2.
  apply digit_inj in E1. subst e. f_equal. now apply IH.
Qed.
Lemma two_digits_inj n m : two_digits n = two_digits m -> n = m.
Proof.
  destruct (C126_suffix_text n) as (ds & -> & _ & H1), (C126_suffix_text m) as (es & -> & _ & H2). intros E. apply digits_inj in E. subst es. lia.
Qed.
Definition suffixed (name : pystr) (i : nat) : pystr := name ++ "_"%char :: two_digits i.
Lemma suffixed_inj name i j : suffixed name i = suffixed name j -> i = j.
Proof. unfold suffixed. intros H. apply app_inv_head in H. injection H as H. now apply two_digits_inj. Qed.

Definition full (o : option xml) : bool := match o with Some (Xml _ _ _ (_ :: _)) => true | _ => false end.
Lemma full_iff o : full o = true <-> exists l, o = Some l /\ x_kids l <> [].
Proof.
  destruct o as [[u t a [|c k]]|]; cbn; split; try discriminate.
  - intros (l & [= <-] & H). contradiction.
  - intros _. eexists. split; [reflexivity|discriminate].
  - reflexivity.
  - intros (l & Q & _). discriminate.
Qed.
Lemma suffix_loop_spec doc name : forall fuel i, (forall j, (i <= j < i + fuel)%nat -> full (find_layer doc (suffixed name j)) = true) \/
  exists j, (i <= j)%nat /\ (forall k, (i <= k < j)%nat -> full (find_layer doc (suffixed name k)) = true) /\
    full (find_layer doc (suffixed name j)) = false /\ suffix_loop fuel doc name i = Ok (suffixed name j, find_layer doc (suffixed name j)).
Proof.
  induction fuel as [|fuel IH]; intros i; [left; intros j Hj; lia|].
  destruct (full (find_layer doc (suffixed name i))) eqn:Q.
  - assert (E : suffix_loop (S fuel) doc name i = suffix_loop fuel doc name (S i)).
    { cbn [suffix_loop]. fold (suffixed name i). destruct (find_layer doc (suffixed name i)) as [[u t a [|c k]]|]; [discriminate|reflexivity|discriminate]. }
    destruct (IH (S i)) as [H|(j & H1 & H2 & H3 & H4)].
    + left. intros j Hj. destruct (Nat.eq_dec j i) as [-> |]; [exact Q|]. apply H. lia.
    + right. exists j. split; [lia|]. split; [|split; [exact H3|rewrite E; exact H4]]. intros k Hk. destruct (Nat.eq_dec k i) as [-> |]; [exact Q|]. apply H2. lia.
  - right. exists i. split; [lia|]. split; [intros k Hk; lia|]. split; [exact Q|]. cbn [suffix_loop]. fold (suffixed name i).
    destruct (find_layer doc (suffixed name i)) as [[u t a [|c k]]|]; [reflexivity|discriminate|reflexivity].
Qed.
Lemma many_layers doc name k : proper_doc doc -> (forall j, (j < k)%nat -> full (find_layer doc (suffixed name j)) = true) -> (k <= List.length (walk [] doc))%nat.
Proof.
  intros W H.
  assert (G : forall k, (forall j, (j < k)%nat -> full (find_layer doc (suffixed name j)) = true) ->
     exists ls, List.length ls = k /\ NoDup ls /\ forall l, In l ls -> In l (map snd (walk [] doc)) /\ exists j, (j < k)%nat /\ layer_named (suffixed name j) l).
  { clear k H. induction k as [|k IH]; intros H; [exists []; split; [reflexivity|]; split; [constructor|intros l []]|].
    destruct IH as (ls & H1 & H2 & H3); [intros j Hj; apply H; lia|].
    specialize (H k ltac:(lia)). apply full_iff in H as (l & Hl & _). apply (find_layer_some doc _ _ W) in Hl as (N1 & a & b & E & _).
    exists (l :: ls). split; [cbn; lia|]. split.
    - constructor; [|exact H2]. intros I0. destruct (H3 l I0) as (_ & j & Hj & N2).
      assert (Pl : proper l). { destruct (in_walk doc l) as (ups & A); [rewrite E; apply in_or_app; right; left; reflexivity|]. now apply (W ups). }
      destruct N1 as [_ N1], N2 as [_ N2]. pose proof (x_get_has _ _ _ Pl N1) as Q1. rewrite (x_get_has _ _ _ Pl N2) in Q1. injection Q1 as Q1.
      apply suffixed_inj in Q1. lia.
    - intros l' [<-|I0]; [split; [rewrite E; apply in_or_app; right; left; reflexivity|exists k; split; [lia|exact N1]]|].
      destruct (H3 l' I0) as (Q1 & j & Hj & Q2). split; [exact Q1|]. exists j. split; [lia|exact Q2]. }
  destruct (G k H) as (ls & <- & H2 & H3). assert (EL : List.length (walk [] doc) = List.length (map snd (walk [] doc))) by (symmetry; apply map_length). rewrite EL. apply NoDup_incl_length; [exact H2|]. intros l Hl. now apply H3.
Qed.

(** A name that a layer with contents has, when a suffix is asked for: the first suffix 00, 01, ... for which there is
    no such layer is taken; no contents are lost, [clear] or not. *)
Definition taken (doc : xml) (name : pystr) : Prop := exists l, first_layer doc name l /\ x_kids l <> [].
Theorem C126_suffix {N : NumOps} doc fresh name (opacity flip : option N) clear tag : proper_doc doc -> identities doc -> taken doc name ->
  exists i doc' l, create_layer doc fresh name opacity clear true flip tag = Ok (doc', l) /\ x_kids l = [] /\
    (forall j, (j < i)%nat -> taken doc (suffixed name j)) /\ ~ taken doc (suffixed name i) /\
    (no_layer doc (suffixed name i) /\ appended doc l doc' /\ new_layer l fresh (suffixed name i) tag \/
     first_layer doc (suffixed name i) l /\ doc' = doc).
Proof.
  intros W U (l0 & F0 & K0). pose proof (first_layer_find doc name l0 W F0) as E0.
  assert (TF : forall nm, full (find_layer doc nm) = true <-> taken doc nm).
  { intros nm. rewrite full_iff. split; intros (l & H1 & H2); exists l; (split; [|exact H2]); [now apply find_layer_some|now apply first_layer_find]. }
  destruct (suffix_loop_spec doc name (S (List.length (walk [] doc))) 0) as [H|(i & _ & H2 & H3 & H4)].
  { exfalso. pose proof (many_layers doc name (S (List.length (walk [] doc))) W ltac:(intros j Hj; apply H; lia)). lia. }
  assert (C0 : create_layer doc fresh name opacity clear true flip tag = rbind (suffix_loop (S (List.length (walk [] doc))) doc name 0) (fun '(layer_name, layer) =>
    Ok match layer with
     | None =>
         let attrs := [(L INK_GROUPMODE, L "layer"); (L INK_LABEL, layer_name)]
                      ++ match tag with Some t => [(L UTLCO_TAG, t)] | None => [] end
                      ++ match opacity with Some o => [(L "style", opacity_style o)] | None => [] end ++ match flip with
                         | Some h => [(L "transform", L "translate(0, " ++ g_text h ++ L ") scale(1, -1)")]
                         | None => []
                         end in
         let layer := Xml fresh (Some (L "g")) attrs [] in
         (append_kid doc layer, layer)
     | Some l => if clear then (clear_node (x_uid l) doc, clear_node (x_uid l) l) else (doc, l)
     end)).
  { unfold create_layer. rewrite E0. destruct l0 as [u t a [|c k]]; [contradiction|]. reflexivity. }
  rewrite H4 in C0. cbn [rbind] in C0. rewrite C0. clear C0. exists i.
  assert (T1 : forall j, (j < i)%nat -> taken doc (suffixed name j)) by (intros j Hj; apply TF, H2; lia).
  assert (T2 : ~ taken doc (suffixed name i)) by (intros Q; apply TF in Q; congruence).
  destruct (find_layer doc (suffixed name i)) as [l|] eqn:Q.
  - apply (find_layer_some doc _ _ W) in Q. assert (Kl : x_kids l = []). { destruct l as [u t a [|c k]]; [reflexivity|discriminate H3]. }
    assert (Cd : clear_node (x_uid l) doc = doc).
    { apply (clear_id _ doc []). intros [ups c] Hc Eu. cbn [snd] in *. destruct Q as (_ & a & b & Ew & _).
      assert (c = l); [|subst; exact Kl]. unfold identities in U.
      assert (I1 : In c (map snd (walk [] doc))) by (apply in_map_iff; exists (ups, c); auto).
      assert (I2 : In l (map snd (walk [] doc))) by (rewrite Ew; apply in_or_app; right; left; reflexivity).
      assert (ND : NoDup (map x_uid (map snd (walk [] doc)))) by (rewrite map_map; exact U).
      revert ND I1 I2 Eu. clear. induction (map snd (walk [] doc)) as [|x r IH]; [intros _ []|]. cbn [map]. intros ND I1 I2 Eu. inversion_clear ND as [|? ? N1 N2].
      destruct I1 as [-> |I1], I2 as [-> |I2]; [reflexivity| | |now apply IH]; destruct N1; apply in_map_iff; eexists; (split; [|eassumption]); auto. }
    assert (Cl : clear_node (x_uid l) l = l). { destruct l as [u t a k]. cbn in Kl |- *. subst k. rewrite Nat.eqb_refl. reflexivity. }
    exists doc, l. split; [destruct clear; rewrite ?Cd, ?Cl; reflexivity|]. split; [exact Kl|]. split; [exact T1|]. split; [exact T2|]. right. auto.
  - do 2 eexists. split; [reflexivity|]. split; [reflexivity|]. split; [exact T1|]. split; [exact T2|]. left.
    split; [now apply find_layer_none|]. split; [apply append_appended|].
    repeat split; [right; left; reflexivity|left; reflexivity|]. intros t ->. right; right; left; reflexivity.
Qed.
(** ** A layer that was created is not found again (its tag has no namespace): asking twice for the same layer makes two
    layers of that name. *)
Theorem C126_again_refuted {N : NumOps} doc fresh name (opacity flip : option N) clear incr tag doc' l :
  find_layer doc name = None -> create_layer doc fresh name opacity clear incr flip tag = Ok (doc', l) -> find_layer doc' name = None.
Proof.
  intros H. unfold create_layer. rewrite H. cbn [rbind]. intros [= <- <-].
  unfold find_layer in *. change (find (is_named name) (map snd (walk [] doc)) = None) in H.
  match goal with |- find _ (map snd (walk [] (append_kid doc ?l))) = None => set (new := l) end.
  change (find (is_named name) (map snd (walk [] (append_kid doc new))) = None).
  assert (K : forall n, In n (map snd (walk [] (append_kid doc new))) -> n = append_kid doc new \/ n = new \/ In n (map snd (walk [] doc))).
  { intros n I0. apply in_map_iff in I0 as ([ups m] & <- & I0). cbn [snd]. rewrite walk_eq in I0. destruct I0 as [E|I0]; [injection E as _ <-; auto|].
    right. destruct doc as [u t a k]. cbn [append_kid x_kids] in I0. unfold kids_walk in I0. rewrite flat_map_app in I0. apply in_app_iff in I0 as [I0|I0].
    - right. apply in_flat_map in I0 as (c & C1 & C2). apply in_map_iff.
      assert (Wm : forall n r1 r2 c, In c (walk r1 n) -> In (snd c) (map snd (walk r2 n))).
      { clear. induction n as [u t a k IH] using xml_ind'. intros r1 r2 c. rewrite !walk_eq. cbn [map x_kids]. intros [<-|I0]; [left; reflexivity|]. right.
        unfold kids_walk in *. apply in_flat_map in I0 as (d & D1 & D2). rewrite Forall_forall in IH. specialize (IH d D1 _ (Xml u t a k :: r2) c D2).
        apply in_map_iff in IH as (e & E1 & E2). apply in_map_iff. exists e. split; [exact E1|]. apply in_flat_map. exists d. auto. }
      specialize (Wm c _ [Xml u t a k] (ups, m) C2). apply in_map_iff in Wm as (e & E1 & E2). exists e. split; [exact E1|]. rewrite walk_eq. right. unfold kids_walk. cbn [x_kids].
      apply in_flat_map. exists c. auto.
    - left. cbn [flat_map] in I0. rewrite app_nil_r in I0. rewrite walk_eq in I0. cbn [x_kids new kids_walk flat_map] in I0. destruct I0 as [E|[]]. injection E as _ <-. reflexivity. }
  destruct (find (is_named name) (map snd (walk [] (append_kid doc new)))) as [m|] eqn:Q; [|reflexivity]. exfalso. apply find_some in Q as [Q1 Q2].
  destruct (K m Q1) as [-> |[-> |I0]].
  - assert (is_named name doc = true) by (destruct doc; exact Q2). rewrite (find_none _ _ H doc) in H0; [discriminate|]. rewrite walk_eq. left. reflexivity.
  - unfold is_named, new in Q2. cbn in Q2. discriminate.
  - rewrite (find_none _ _ H m I0) in Q2. discriminate.
Qed.

(** ** C127: the layer of a node: a layer that contains it (or is it); None if there is none. *)
Definition a_layer (n : xml) : Prop :=
  x_tag n = Some (text ("{" ++ svg_uri ++ "}g")) /\ has n "{http://www.inkscape.org/namespaces/inkscape}groupmode" (text "layer").
Definition is_mode_layer (n : xml) : bool := tag_is n (SVG_NS ++ "g") && match x_get n INK_GROUPMODE with Some v => str_eqb v (L "layer") | None => false end.
Lemma mode_layer_iff n : proper n -> is_mode_layer n = true <-> a_layer n.
Proof.
  intros Hp. unfold is_mode_layer, a_layer. rewrite andb_true_iff, tag_is_iff. change (text ("{" ++ svg_uri ++ "}g")) with (L (SVG_NS ++ "g")).
  change "{http://www.inkscape.org/namespaces/inkscape}groupmode"%string with INK_GROUPMODE. split; intros [H1 H2]; (split; [exact H1|]).
  - destruct (x_get n INK_GROUPMODE) as [v|] eqn:Q; [|discriminate]. apply str_eqb_iff in H2. subst v. now apply x_get_some.
  - rewrite (x_get_has _ _ _ Hp H2). apply str_eqb_refl.
Qed.
Lemma at_trans doc ups n : at_node doc ups n -> forall us m, at_node n us m -> at_node doc (us ++ ups) m.
Proof. intros A us m H. induction H as [|us m k H IH Hk]; [exact A|]. cbn [app]. now apply at_kid. Qed.
Lemma at_split doc ups m : at_node doc ups m -> forall n, In n (m :: ups) -> exists us us', ups = us ++ us' /\ at_node doc us' n /\ at_node n us m.
Proof.
  induction 1 as [|ups m k H IH Hk]; intros n [<-|I0].
  - exists [], []. split; [reflexivity|]. split; constructor.
  - destruct I0.
  - exists [], (m :: ups). split; [reflexivity|]. split; [now apply at_kid|constructor].
  - destruct (IH n I0) as (us & us' & -> & A1 & A2). exists (m :: us), us'. split; [reflexivity|]. split; [exact A1|]. now apply at_kid.
Qed.
Lemma uid_unique doc u1 n1 u2 n2 : identities doc -> at_node doc u1 n1 -> at_node doc u2 n2 -> x_uid n1 = x_uid n2 -> u1 = u2 /\ n1 = n2.
Proof.
  intros U A1 A2 E. apply at_walk in A1, A2. unfold identities in U. revert U A1 A2. induction (walk [] doc) as [|c r IH]; [intros _ []|]. cbn [map].
  intros ND I1 I2. inversion_clear ND as [|? ? N1 N2]. destruct I1 as [-> |I1], I2 as [E2|I2].
  - injection E2 as -> ->. auto.
  - destruct N1. apply in_map_iff. exists (u2, n2). split; [cbn; congruence|exact I2].
  - subst c. destruct N1. apply in_map_iff. exists (u1, n1). split; [cbn; congruence|exact I1].
  - now apply IH.
Qed.
Lemma holds_iff doc ups l nups n : identities doc -> at_node doc ups l -> at_node doc nups n ->
  existsb (fun c => Nat.eqb (x_uid (snd c)) (x_uid n)) (walk [] l) = true <-> exists us, at_node l us n /\ nups = us ++ ups.
Proof.
  intros U A1 A2. rewrite existsb_exists. split.
  - intros ([us m] & I0 & E). cbn [snd] in E. apply Nat.eqb_eq in E. pose proof (walk_at l [] l (at_root l) _ I0) as Am. cbn [fst snd] in Am.
    destruct (uid_unique doc _ _ _ _ U (at_trans doc ups l A1 us m Am) A2 E) as [<- <-]. exists us. auto.
  - intros (us & Am & _). exists (us, n). split; [now apply at_walk|]. cbn [snd]. apply Nat.eqb_refl.
Qed.
Theorem C127_parent_layer doc nups n : proper_doc doc -> identities doc -> at_node doc nups n ->
  (forall l, get_parent_layer doc n = Some l -> a_layer l /\ In l (n :: nups)) /\
  (get_parent_layer doc n = None <-> Forall (fun l => ~ a_layer l) (n :: nups)).
Proof.
  intros W U A. unfold get_parent_layer.
  change (fun n0 => tag_is n0 (SVG_NS ++ "g") && match x_get n0 INK_GROUPMODE with Some v => str_eqb v (L "layer") | None => false end) with is_mode_layer.
  assert (HL : forall l ups, at_node doc ups l -> existsb (fun c => Nat.eqb (x_uid (snd c)) (x_uid n)) (walk [] l) = true -> In l (n :: nups)).
  { intros l ups Al Q. apply (holds_iff doc ups l nups n U Al A) in Q as (us & Q1 & ->). inversion Q1 as [|us' m k Q2 Q3]; subst; [left; reflexivity|].
    right. clear - Q2. induction Q2 as [|us m k H IH Hk]; [left; reflexivity|]. right. exact IH. }
  split.
  - intros l H. apply find_some in H as [H1 H2]. apply filter_In in H1 as [H1 H3]. destruct (in_walk doc l H1) as (ups & Al).
    split; [apply mode_layer_iff; [now apply (W ups)|exact H3]|]. now apply (HL l ups).
  - split.
    + intros H. apply Forall_forall. intros l I0 Q. destruct (at_split doc nups n A l I0) as (us & us' & E & A1 & A2).
      pose proof (find_none _ _ H l) as Z. cbn beta in Z.
      rewrite (proj2 (holds_iff doc us' l nups n U A1 A)) in Z; [|exists us; auto]. discriminate Z. apply filter_In. split.
      * apply at_walk in A1. apply in_map_iff. exists (us', l). auto.
      * apply mode_layer_iff; [now apply (W us')|exact Q].
    + intros H. destruct (find _ _) as [l|] eqn:Q; [|reflexivity]. exfalso. apply find_some in Q as [H1 H2]. apply filter_In in H1 as [H1 H3].
      destruct (in_walk doc l H1) as (ups & Al). rewrite Forall_forall in H. apply (H l (HL l ups Al H2)). apply mode_layer_iff; [now apply (W ups)|exact H3].
Qed.
(** With a layer inside a layer it is not the one the node is in. *)
Definition layer_attrs : list (string * string) := [(INK_GROUPMODE, "layer")]%string.
Definition inner_path := elem 4 "path" [] [].
Definition inner_layer := elem 3 "{http://www.w3.org/2000/svg}g" layer_attrs [inner_path].
Definition outer_layer := elem 2 "{http://www.w3.org/2000/svg}g" layer_attrs [inner_layer].
Theorem C127_sublayers : exists doc, proper_doc doc /\ identities doc /\ at_node doc [inner_layer; outer_layer; doc] inner_path /\
  a_layer inner_layer /\ get_parent_layer doc inner_path = Some outer_layer.
Proof.
  exists (elem 1 "svg" [] [outer_layer]). split; [|split; [|split; [|split]]].
  - intros ups n A. nodes A; unfold proper; cbn; repeat constructor; cbn; intuition discriminate.
  - unfold identities. cbn. repeat constructor; cbn; lia.
  - repeat (apply at_kid; [|left; reflexivity]). apply at_root.
  - split; [reflexivity|left; reflexivity].
  - reflexivity.
Qed.
(** The visible layers: the labelled groups directly in the document that are shown; the elements of a layer: its shown
    children, none if the layer is hidden. *)
Definition labelled_group (n : xml) : Prop := InkSpec.element n "g" /\ exists name, has n label name /\ name <> [].
Lemma is_layer_iff n : proper n -> (exists v, is_layer n = Some v) <-> labelled_group n.
Proof.
  intros Hp. unfold is_layer, labelled_group, get_layer_name. rewrite <- group_iff. change label with INK_LABEL. destruct (node_is_group n).
  - split.
    + destruct (x_get n INK_LABEL) as [[|c r]|] eqn:Q; intros (v & E); try discriminate. split; [reflexivity|]. exists (c :: r). split; [now apply x_get_some|discriminate].
    + intros (_ & name & H1 & H2). rewrite (x_get_has _ _ _ Hp H1). destruct name; [contradiction|]. eauto.
  - split; [intros (v & E); discriminate|intros (E & _); discriminate].
Qed.
Inductive chosen (P : xml -> Prop) : list xml -> list xml -> Prop :=
| ch_nil : chosen P [] []
| ch_take n l r : P n -> chosen P l r -> chosen P (n :: l) (n :: r)
| ch_drop n l r : ~ P n -> chosen P l r -> chosen P (n :: l) r.
Theorem C127_visible_layers doc : proper_doc doc -> readable_doc doc ->
  exists ls, get_visible_layers [] doc = Ok ls /\ chosen (fun n => labelled_group n /\ shown_with_ancestors [doc] n) (x_kids doc) ls.
Proof.
  intros W RD. unfold get_visible_layers.
  assert (G : forall l, incl l (x_kids doc) -> exists ls, collect (fun n => match is_layer n with
                    | Some _ => rbind (visible true [doc] n) (fun v => Ok (if v then [n] else []))
                    | None => Ok [] end) l = Ok ls /\ chosen (fun n => labelled_group n /\ shown_with_ancestors [doc] n) l ls).
  { induction l as [|n l IH]; intros I0; [exists []; split; [reflexivity|constructor]|].
    destruct IH as (ls & E & C0); [intros x Hx; apply I0; right; exact Hx|]. assert (A : at_node doc [doc] n) by (apply at_kid; [constructor|apply I0; left; reflexivity]).
    assert (F : Forall (fun n => proper n /\ readable n) [n; doc]).
    { constructor; [|constructor; [|constructor]]; split; [now apply (W [doc])|now apply (RD [doc])|apply (W []); constructor|apply (RD []); constructor]. }
    pose proof (is_layer_iff n (W _ _ A)) as IL. cbn [collect]. destruct (is_layer n) as [v|].
    - destruct (visible_ancestors [doc] n F) as (b & -> & Hb). cbn [rbind]. rewrite E. cbn [rbind]. destruct b; cbn [app].
      + exists (n :: ls). split; [reflexivity|]. apply ch_take; [|exact C0]. split; [apply IL; eauto|now apply Hb].
      + exists ls. split; [reflexivity|]. apply ch_drop; [|exact C0]. intros [_ Q]. apply Hb in Q. discriminate.
    - cbn [rbind]. rewrite E. exists ls. split; [reflexivity|]. apply ch_drop; [|exact C0]. intros [Q _]. apply IL in Q as (v & Q). discriminate. }
  apply G, incl_refl.
Qed.
Theorem C127_layer_elements doc ups layer : proper_doc doc -> readable_doc doc -> at_node doc ups layer ->
  exists ls, get_layer_elements ups layer = Ok ls /\
    ((shown_with_ancestors ups layer -> chosen (shown (layer :: ups)) (x_kids layer) ls) /\ (~ shown_with_ancestors ups layer -> ls = [])).
Proof.
  intros W RD A. unfold get_layer_elements.
  assert (FA : forall ups n, at_node doc ups n -> Forall (fun n => proper n /\ readable n) (n :: ups)).
  { clear - W RD. intros ups n A. induction A as [|ups n k A IH Hk]; (constructor; [|assumption || constructor]); split;
      [apply (W []); constructor|apply (RD []); constructor|apply (W (n :: ups)); now apply at_kid|apply (RD (n :: ups)); now apply at_kid]. }
  destruct (visible_ancestors ups layer (FA ups layer A)) as (b & -> & Hb). cbn [rbind]. destruct b.
  - assert (G : forall l, incl l (x_kids layer) -> exists ls,
       collect (fun n => rbind (visible false (layer :: ups) n) (fun v => Ok (if v then [n] else []))) l = Ok ls /\ chosen (shown (layer :: ups)) l ls).
    { induction l as [|n l IH]; intros I0; [exists []; split; [reflexivity|constructor]|].
      destruct IH as (ls & E & C0); [intros x Hx; apply I0; right; exact Hx|].
      assert (An : at_node doc (layer :: ups) n) by (apply at_kid; [exact A|apply I0; left; reflexivity]).
      cbn [collect]. destruct (visible_shown (layer :: ups) n (FA _ _ An)) as (b & -> & Hbn). cbn [rbind]. rewrite E. cbn [rbind]. destruct b; cbn [app].
      - exists (n :: ls). split; [reflexivity|]. apply ch_take; [now apply Hbn|exact C0].
      - exists ls. split; [reflexivity|]. apply ch_drop; [|exact C0]. intros Q. apply Hbn in Q. discriminate. }
    destruct (G (x_kids layer) (incl_refl _)) as (ls & E & C0). exists ls. split; [exact E|]. split; [auto|]. intros Q. destruct Q. now apply Hb.
  - exists []. split; [reflexivity|]. split; [intros Q; apply Hb in Q; discriminate|reflexivity].
Qed.
(** A layer is locked if its attribute sodipodi:insensitive is 'true' in any mixture of cases. *)
Theorem C127_locked l : proper l -> (layer_is_locked l = true <->
  exists v, has l "{http://sodipodi.sourceforge.net/DTD/sodipodi-0.dtd}insensitive" v /\ map lower_ascii v = text "true").
Proof.
  intros Hp. unfold layer_is_locked. change "{http://sodipodi.sourceforge.net/DTD/sodipodi-0.dtd}insensitive"%string with SODIPODI_INSENSITIVE. split.
  - destruct (x_get l SODIPODI_INSENSITIVE) as [v|] eqn:Q; [|discriminate]. intros H. apply str_eqb_iff in H. exists v. split; [now apply x_get_some|exact H].
  - intros (v & H1 & H2). rewrite (x_get_has _ _ _ Hp H1). now apply str_eqb_iff.
Qed.
(** A document with a full layer "a" and an empty layer "a_00" *)
Definition layer_a := elem 2 "{http://www.w3.org/2000/svg}g" [(INK_LABEL, "a")]%string [elem 3 "path" [] []].
Definition layer_a0 := elem 4 "{http://www.w3.org/2000/svg}g" [(INK_LABEL, "a_00")]%string [].
Definition layered := elem 1 "svg" [] [layer_a; layer_a0].
Example C126_example : proper_doc layered /\ identities layered /\ taken layered (L "a") /\
  create_layer (N:=ROps) layered 9 (L "a") None true true None None = Ok (layered, layer_a0).
Proof.
  split; [|split; [|split]].
  - intros ups n A. nodes A; unfold proper; cbn; repeat constructor; cbn; intuition discriminate.
  - unfold identities. cbn. repeat constructor; cbn; lia.
  - exists layer_a. split; [|discriminate]. split; [split; [reflexivity|left; reflexivity]|]. exists [layered], (map snd (walk [layer_a; layered] (elem 3 "path" [] [])) ++ [layer_a0]).
    split; [reflexivity|]. constructor; [|constructor]. intros [Q _]. discriminate Q.
  - reflexivity.
Qed.
Example C127_example : readable_doc layered /\ get_visible_layers [] layered = Ok [layer_a; layer_a0].
Proof. split; [|reflexivity]. intros ups n A. nodes A; apply plain_style; lacking. Qed.
(** Nothing selected: the whole document; the default shapes are the basic shapes of SVG. *)
Theorem C124_no_selection {N : NumOps} fuel doc tags skip :
  selected_shapes (N:=N) fuel doc tags skip [] = get_shape_elements fuel doc tags skip true None [] doc.
Proof. reflexivity. Qed.
Theorem C124_default_shapes t : In t DEFAULT_SHAPES <->
  In t (map text ["path"; "rect"; "line"; "circle"; "ellipse"; "polyline"; "polygon"]%string).
Proof. cbn. tauto. Qed.
