(** * PropsInk: the shapes of a drawing (C124), the clipping rectangle (C125).  Specification: [InkSpec]. *)
From Verif Require Import Num NumR Str Geom GeomR GeomProofs GeomProofs2 GeomProofs4 Svg SvgSpec SvgProofs SvgDoc SvgDocSpec SvgDocProofs SvgDocProofs2 PropsSvg PropsSvgDoc Css CssSpec CssProofs PropsCss GeomSvg PropsGeomSvg2 Ink InkSpec InkProofs.
From Coq Require Import String Ascii ZArith NArith List Bool Lia Reals Lra.
Import ListNotations.
Local Open Scope R_scope.

(** An answer: the element and a matrix that moves points as the placement does. *)
Definition answer (s : xml * placement) (o : xml * mat ROps) : Prop :=
  fst o = fst s /\ forall p, apply (snd o) (P (fst p) (snd p)) = P (fst (snd s p)) (snd (snd s p)).
Definition readable_doc (doc : xml) : Prop := forall ups n, at_node doc ups n -> readable n.
Definition matches (skip : list (pystr -> bool)) (name : pystr) : Prop := exists s, In s skip /\ s name = true.

Lemma matches_iff skip name : matches skip name <-> existsb (fun s => s name) skip = true.
Proof. rewrite existsb_exists. reflexivity. Qed.
Lemma reported_answer l out : Forall2 reported l out -> Forall2 answer l out.
Proof. induction 1 as [|s o l out [H1 H2] _ IH]; constructor; [split; [auto|exact H2]|exact IH]. Qed.

Lemma ancestors_proper doc ups n : wf_doc doc -> at_node doc ups n -> Forall proper (n :: ups).
Proof.
  intros W H. induction H as [|ups n k H IH Hk]; (constructor; [|assumption || constructor]).
  - apply (proj1 W [] doc), at_root.
  - apply (proj1 W (n :: ups) k). now apply at_kid.
Qed.

(** ** C124 *)
(** The shapes below a shown element: those of its children's pictures, in document order, each placed by its own
    transform, then those of its ancestors from the nearest to the outermost (or, if transforms are not accumulated, by
    its own only). *)
Theorem C124_shapes (doc : xml) (tags : list pystr) (skip : list (pystr -> bool)) (acc : bool) ups root f ps :
  wf_doc doc -> readable_doc doc -> at_node doc ups root -> shown_with_ancestors ups root ->
  ancestors_place (root :: ups) f -> all_pictures doc tags (matches skip) (root :: ups) (x_kids root) ps ->
  exists k, forall fuel, (k <= fuel)%nat ->
    exists out, get_shape_elements fuel doc tags skip acc None ups root = Ok out /\
      Forall2 answer (flat_map (shapes acc f) ps) out.
Proof.
  intros W RD A S AP H. destruct (shapes_pictures doc tags (matches skip) skip acc W RD (matches_iff skip)) as [_ G].
  destruct (G _ _ _ H) as (k & Hk). { intros n Hn. now apply at_kid. }
  destruct (parent_acts (root :: ups) f (ancestors_proper doc ups root W A) AP) as (m & E & Hm).
  exists k. intros fuel Hf. destruct (Hk fuel Hf m f Hm) as (out & E2 & F). exists out. split; [|now apply reported_answer].
  unfold get_shape_elements. destruct (visible_ancestors ups root (at_all doc W RD ups root A)) as (b & -> & Hb).
  assert (b = true) as -> by now apply Hb. cbn [rbind negb]. rewrite <- E2. clear - E.
  induction (x_kids root) as [|n l IH]; [reflexivity|]. cbn [collect]. rewrite IH. now rewrite (shape_nodes_none doc tags skip acc fuel false _ n m E).
Qed.
(** Under a given transform instead of those of the ancestors. *)
Theorem C124_given_transform (doc : xml) (tags : list pystr) (skip : list (pystr -> bool)) (acc : bool) (m : mat ROps) ups root ps :
  wf_doc doc -> readable_doc doc -> at_node doc ups root -> shown_with_ancestors ups root ->
  all_pictures doc tags (matches skip) (root :: ups) (x_kids root) ps ->
  exists k, forall fuel, (k <= fuel)%nat ->
    exists out, get_shape_elements fuel doc tags skip acc (Some m) ups root = Ok out /\
      Forall2 answer (flat_map (shapes acc (fun p => let q := apply m (P (fst p) (snd p)) in (px q, py q))) ps) out.
Proof.
  intros W RD A S H. destruct (shapes_pictures doc tags (matches skip) skip acc W RD (matches_iff skip)) as [_ G].
  destruct (G _ _ _ H) as (k & Hk). { intros n Hn. now apply at_kid. }
  exists k. intros fuel Hf. destruct (Hk fuel Hf m (fun p => let q := apply m (P (fst p) (snd p)) in (px q, py q))) as (out & E2 & F); [intros p; reflexivity|].
  exists out. split; [|now apply reported_answer].
  unfold get_shape_elements. destruct (visible_ancestors ups root (at_all doc W RD ups root A)) as (b & -> & Hb).
  assert (b = true) as -> by now apply Hb. exact E2.
Qed.
(** Nothing is found below an element that is hidden or has a hidden ancestor. *)
Theorem C124_hidden (doc : xml) (tags : list pystr) (skip : list (pystr -> bool)) (acc : bool) m ups root fuel :
  wf_doc doc -> readable_doc doc -> at_node doc ups root -> ~ shown_with_ancestors ups root ->
  get_shape_elements (N:=ROps) fuel doc tags skip acc m ups root = Ok [].
Proof.
  intros W RD A S. unfold get_shape_elements. destruct (visible_ancestors ups root (at_all doc W RD ups root A)) as (b & -> & Hb).
  destruct b; [destruct S; now apply Hb|reflexivity].
Qed.

(** A selection: the pictures of the selected elements one after the other; a hidden element shows nothing and neither
    does an id that no element has. *)
Inductive selected (doc : xml) (tags : list pystr) (skip : list (pystr -> bool)) : list pystr -> list (xml * placement) -> Prop :=
| sel_nil : selected doc tags skip [] []
| sel_absent id r l : (forall ups t, ~ target doc id ups t) -> selected doc tags skip r l -> selected doc tags skip (id :: r) l
| sel_hidden id ups n r l : target doc id ups n -> ~ shown_with_ancestors ups n -> selected doc tags skip r l ->
    selected doc tags skip (id :: r) l
| sel_shown id ups n f p r l : target doc id ups n -> shown_with_ancestors ups n -> ancestors_place ups f ->
    pictures doc tags (matches skip) ups n p -> selected doc tags skip r l ->
    selected doc tags skip (id :: r) (shapes true f p ++ l).
Theorem C124_selection (doc : xml) (tags : list pystr) (skip : list (pystr -> bool)) ids l :
  wf_doc doc -> readable_doc doc -> ids <> [] -> selected doc tags skip ids l ->
  exists k, forall fuel, (k <= fuel)%nat ->
    exists out, selected_shapes fuel doc tags skip ids = Ok out /\ Forall2 answer l out.
Proof.
  intros W RD Hi H.
  assert (G : exists k, forall fuel, (k <= fuel)%nat -> exists out,
     get_shape_elements_list fuel doc tags skip true None (map (Ink.get_node_by_id doc) ids) = Ok out /\ Forall2 answer l out).
  { clear Hi. unfold get_shape_elements_list. induction H as [|id r l Hn _ (k & IH)|id ups n r l Ht Hs _ (k & IH)|id ups n f p r l Ht Hs Ha Hp _ (k & IH)].
    - exists 0%nat. intros fuel _. exists []. split; [reflexivity|constructor].
    - exists k. intros fuel Hf. destruct (IH fuel Hf) as (out & E & F). exists out. split; [|exact F]. cbn [map collect].
      rewrite (no_node_by_id doc id Hn). cbn [rbind]. rewrite E. reflexivity.
    - exists (S k). intros fuel Hf. destruct (IH fuel ltac:(lia)) as (out & E & F). exists out. split; [|exact F]. cbn [map collect].
      rewrite (node_by_id doc id ups n W Ht). cbn [rbind]. destruct fuel as [|fuel]; [lia|]. cbn [shape_nodes].
      destruct (visible_ancestors ups n (at_all doc W RD ups n (proj1 Ht))) as (b & -> & Hb).
      destruct b; [destruct Hs; now apply Hb|]. cbn [rbind negb]. cbn [shape_nodes] in E. rewrite E. reflexivity.
    - destruct (shapes_pictures doc tags (matches skip) skip true W RD (matches_iff skip)) as [Gs _].
      destruct (Gs _ _ _ Hp (proj1 Ht)) as (k2 & Hk). pose proof (ancestors_proper doc ups n W (proj1 Ht)) as Pr. inversion_clear Pr as [|? ? _ Pu].
      destruct (parent_acts ups f Pu Ha) as (m & E & Hm).
      exists (Nat.max k k2). intros fuel Hf. destruct (IH fuel ltac:(lia)) as (out & E1 & F1). destruct (Hk fuel ltac:(lia) m f Hm) as (out2 & E2 & F2).
      exists (out2 ++ out). split; [|apply Forall2_app; [now apply reported_answer|exact F1]]. cbn [map collect].
      rewrite (node_by_id doc id ups n W Ht).
      rewrite (shape_nodes_checked doc tags skip true fuel None ups n (at_all doc W RD ups n (proj1 Ht)) Hs).
      rewrite (shape_nodes_none doc tags skip true fuel false ups n m E), E2. cbn [rbind]. rewrite E1. reflexivity. }
  destruct G as (k & G). exists k. intros fuel Hf. destruct (G fuel Hf) as (out & E & F). exists out. split; [|exact F].
  unfold selected_shapes. destruct ids as [|i ids]; [contradiction|]. exact E.
Qed.

(** Every element has a picture if no use element leads back to itself: ranks decrease from an element to its children
    and from a use element to what it refers to. *)
Definition drawable (doc : xml) (ups : list xml) (n : xml) : Prop :=
  (exists w, local_name n w) /\ (exists l, transform n l) /\
  (InkSpec.element n "use" -> (exists x, coordinate n "x" x) /\ (exists y, coordinate n "y" y)).
Theorem C124_every_picture (doc : xml) (tags : list pystr) (skip : list (pystr -> bool)) (rank : list xml -> xml -> nat) :
  wf_doc doc -> readable_doc doc -> (forall ups n, at_node doc ups n -> drawable doc ups n) ->
  (forall ups n k, at_node doc ups n -> In k (x_kids n) -> (rank (n :: ups) k < rank ups n)%nat) ->
  (forall ups n c id tups t, at_node doc ups n -> InkSpec.element n "use" -> has n href (c :: id) -> target doc id tups t ->
     (rank tups t < rank ups n)%nat) ->
  forall ups n, at_node doc ups n -> exists p, pictures doc tags (matches skip) ups n p.
Proof.
  intros W RD D R1 R2.
  assert (G : forall r ups n, (rank ups n < r)%nat -> at_node doc ups n -> exists p, pictures doc tags (matches skip) ups n p).
  { induction r as [|r IH]; intros ups n Hr A; [lia|].
    destruct (visible_shown ups n (at_all doc W RD ups n A)) as (b & _ & Hb). destruct b.
    2: { exists nothing. apply p_hidden. intros S. apply Hb in S. discriminate. }
    assert (S : shown ups n) by now apply Hb. destruct (D ups n A) as ((w & Hw) & (l & Hl) & Hu). pose proof (Forall_inv (ancestors_proper doc ups n W A)) as Hp.
    destruct (node_is_group n) eqn:Qg.
    - apply group_iff in Qg. pose proof (skipped_iff (matches skip) skip (matches_iff skip) n Hp Qg) as SI.
      destruct (match is_layer n with Some name => existsb (fun s => s name) skip | None => false end) eqn:Qs.
      + exists nothing. apply (p_skip _ _ _ ups n l); auto. now apply SI.
      + assert (K : exists ps, all_pictures doc tags (matches skip) (n :: ups) (x_kids n) ps).
        { assert (K : forall ks, (forall k, In k ks -> In k (x_kids n)) -> exists ps, all_pictures doc tags (matches skip) (n :: ups) ks ps).
          { induction ks as [|k ks IHk]; intros Hks; [exists []; constructor|]. destruct IHk as (ps & Hps); [intros c Hc; apply Hks; now right|].
            assert (Hk : In k (x_kids n)) by (apply Hks; now left). specialize (R1 ups n k A Hk).
            destruct (IH (n :: ups) k ltac:(lia) (at_kid doc ups n k A Hk)) as (p & Hpk). exists (p :: ps). now constructor. }
          now apply K. }
        destruct K as (ps & K). exists (Group (acts_all l) ps). apply p_group; auto. intros Z. apply SI in Z. discriminate.
    - assert (Ng : ~ InkSpec.element n "g") by (intros Z; apply group_iff in Z; congruence).
      destruct (node_is_use n) eqn:Qu.
      + apply use_iff in Qu. destruct (Hu Qu) as ((x & Hx) & (y & Hy)).
        destruct (x_get n href) as [[|c id]|] eqn:Qh.
        * exists nothing. apply (p_use_nothing _ _ _ ups n l); auto. intros c id Hh. rewrite (x_get_has _ _ _ Hp Hh) in Qh. discriminate.
        * destruct (Ink.get_node_by_id doc id) as [[tups t]|] eqn:Qt.
          -- assert (Tg : target doc id tups t).
             { unfold Ink.get_node_by_id in Qt. apply find_some in Qt as [Q1 Q2]. cbn [snd] in Q2. apply below_iff in Q1 as [Q1 Q3]. apply andb_true_iff in Q2 as [Q2 Q4].
               destruct (x_get t "id") as [i|] eqn:Gi; [|discriminate]. apply str_eqb_iff in Q4. subst i. apply x_get_some in Gi.
               split; [exact Q1|]. split; [exact Q3|]. split; [exact Gi|]. unfold is_element in Q2. destruct (x_tag t); discriminate. }
             apply x_get_some in Qh. specialize (R2 ups n c id tups t A Qu Qh Tg). destruct (IH tups t ltac:(lia) (proj1 Tg)) as (p & Hpt).
             exists (Group (InkSpec.within (acts_all l) (InkSpec.shift x y)) [p]). apply (p_use _ _ _ ups n l c id tups t x y p); auto.
          -- exists nothing. apply (p_use_nothing _ _ _ ups n l); auto. intros c' id' Hh tups t Tg. rewrite (x_get_has _ _ _ Hp Hh) in Qh. injection Qh as -> ->.
             rewrite (node_by_id doc id tups t W Tg) in Qt. discriminate.
        * exists nothing. apply (p_use_nothing _ _ _ ups n l); auto. intros c id Hh. apply x_get_none with (v := c :: id) in Qh. contradiction.
      + assert (Nu : ~ InkSpec.element n "use") by (intros Z; apply use_iff in Z; congruence).
        destruct (in_dec (list_eq_dec ascii_dec) w tags) as [I0|I0].
        * exists (Draw n (acts_all l)). now apply (p_shape _ _ _ ups n l w).
        * exists nothing. now apply (p_other _ _ _ ups n l w). }
  intros ups n A. apply (G (S (rank ups n))); [lia|exact A].
Qed.

(** Only shapes that are asked for are found, whatever the drawing is like; each is an element of the document. *)
Theorem C124_only_shapes {N : NumOps} fuel doc tags skip acc m ups root out : at_node doc ups root ->
  get_shape_elements (N:=N) fuel doc tags skip acc m ups root = Ok out ->
  forall n k, In (n, k) out -> (exists nups, at_node doc nups n /\ nups <> []) /\ exists t, x_tag n = Some t /\ In (strip_ns t) tags.
Proof.
  intros A H.
  assert (G : forall fuel m check ups n out, at_node doc ups n -> ups <> [] -> shape_nodes (N:=N) fuel doc tags skip acc m check ups n = Ok out ->
     forall n' k, In (n', k) out -> (exists nups, at_node doc nups n' /\ nups <> []) /\ exists t, x_tag n' = Some t /\ In (strip_ns t) tags).
  { clear. induction fuel as [|fuel IH]; [discriminate|]. intros m check ups n out A NE. cbn [shape_nodes].
    destruct (visible check ups n) as [vis|]; [|discriminate]. cbn [rbind]. destruct (negb vis); [intros [= <-] n' k []|].
    match goal with |- context[rbind ?x _] => destruct x as [pm|]; [|discriminate] end. cbn [rbind].
    destruct (parse_transform_attr (x_get n "transform")) as [own|]; [|discriminate]. cbn [rbind].
    set (mm := if acc then compose pm own else own). destruct (node_is_group n).
    - destruct (match is_layer n with Some _ => _ | None => _ end); [intros [= <-] n' k []|].
      intros E n' k I0.
      assert (K : forall l out, (forall c, In c l -> In c (x_kids n)) -> collect (shape_nodes fuel doc tags skip acc (Some mm) false (n :: ups)) l = Ok out ->
          In (n', k) out -> exists c o, In c (x_kids n) /\ shape_nodes fuel doc tags skip acc (Some mm) false (n :: ups) c = Ok o /\ In (n', k) o).
      { clear. induction l as [|c l IHl]; intros out Hl; cbn [collect]; [intros [= <-] []|].
        destruct (shape_nodes fuel doc tags skip acc (Some mm) false (n :: ups) c) as [o|] eqn:Q; [|discriminate]. cbn [rbind].
        destruct (collect _ l) as [o2|]; [|discriminate]. cbn [rbind]. intros [= <-] I0. apply in_app_iff in I0 as [I0|I0].
        - exists c, o. split; [apply Hl; now left|]. auto.
        - apply (IHl o2); auto. intros d Hd. apply Hl. now right. }
      destruct (K _ _ (fun c Hc => Hc) E I0) as (c & o & Hc & Eo & Io). apply (IH (Some mm) false (n :: ups) c o) with (k := k); auto; [now apply at_kid|discriminate].
    - destruct (node_is_use n).
      + destruct (x_get n XLINK_HREF) as [[|c id]|]; [intros [= <-] n' k []| |intros [= <-] n' k []].
        destruct (Ink.get_node_by_id doc id) as [[tups t]|] eqn:Q; [|intros [= <-] n' k []].
        destruct (use_offset n "x") as [x|]; [|discriminate]. cbn [rbind]. destruct (use_offset n "y") as [y|]; [|discriminate]. cbn [rbind].
        unfold Ink.get_node_by_id in Q. apply find_some in Q as [Q _]. apply below_iff in Q as [Q1 Q2]. apply IH; assumption.
      + destruct (x_tag n) as [t|] eqn:Qt; [|discriminate]. destruct (existsb (str_eqb (strip_ns t)) tags) eqn:Qi; [|intros [= <-] n' k []].
        intros [= <-] n' k [[= <- <-]|[]]. split; [exists ups; auto|]. exists t. split; [exact Qt|]. now apply in_tags. }
  revert H. unfold get_shape_elements. destruct (visible true ups root) as [vis|]; [|discriminate]. cbn [rbind]. destruct (negb vis); [intros [= <-] n k []|].
  assert (K : forall l out, (forall c, In c l -> In c (x_kids root)) -> collect (shape_nodes fuel doc tags skip acc m false (root :: ups)) l = Ok out ->
     forall n k, In (n, k) out -> (exists nups, at_node doc nups n /\ nups <> []) /\ exists t, x_tag n = Some t /\ In (strip_ns t) tags).
  { induction l as [|c l IHl]; intros o Hl; cbn [collect]; [intros [= <-] n k []|].
    destruct (shape_nodes fuel doc tags skip acc m false (root :: ups) c) as [o1|] eqn:Q; [|discriminate]. cbn [rbind].
    destruct (collect _ l) as [o2|] eqn:Q2; [|discriminate]. cbn [rbind]. intros [= <-] n k I0. apply in_app_iff in I0 as [I0|I0].
    - apply (G fuel m false (root :: ups) c o1) with (k := k); auto; [apply at_kid; [exact A|apply Hl; now left]|discriminate].
    - apply (IHl o2) with (k := k); auto. intros d Hd. apply Hl. now right. }
  apply K. auto.
Qed.

(** A drawing with layers, a hidden shape, a transform and a use element. *)
Definition elem (u : nat) (t : string) (a : list (string * string)) (k : list xml) : xml :=
  Xml u (Some (L t)) (map (fun kv => (L (fst kv), L (snd kv))) a) k.
Definition sample_path := elem 3 "path" [("id", "p"); ("transform", "translate(1,2)")]%string [].
Definition sample_hidden := elem 4 "{http://www.w3.org/2000/svg}rect" [("style", "display:none")]%string [].
Definition sample_use := elem 5 "use" [(XLINK_HREF, "#p"); ("x", "10")]%string [].
Definition sample_layer := elem 2 "g" [(INK_LABEL, "one"); ("transform", "scale(2)")]%string [sample_path; sample_hidden; sample_use].
Definition sample_note := elem 6 "g" [(INK_LABEL, "notes")]%string [elem 7 "path" [] []].
Definition sample_svg := elem 1 "svg" [] [sample_layer; sample_note].
Definition is_notes (s : pystr) : bool := str_eqb s (L "notes").
Ltac nodes A := apply at_walk in A; cbn in A; repeat (destruct A as [A|A]; [injection A as <- <-|]); [..|destruct A].
Lemma plain_style n : lacks n "style" -> readable n.
Proof. intros H. exists []. now left. Qed.
Lemma plain_shown n : lacks n "style" -> lacks n "visibility" -> ~ InkSpec.hides n.
Proof.
  intros H1 H2.
  assert (St : forall l, style n l -> l = []). { intros l [[_ Q]|(s & Q & _)]; [exact Q|]. destruct H1. apply in_map_iff. eexists. split; [|exact Q]. reflexivity. }
  assert (Nd : forall k v, ~ declared [] k v). { intros k v (l1 & l2 & Q & _). destruct l1; discriminate. }
  assert (Nv : forall v, ~ visibility n v).
  { intros v (l & Hl & [Q|[_ Q]]); [rewrite (St l Hl) in Q; destruct (Nd _ _ Q)|]. destruct H2. apply in_map_iff. eexists. split; [|exact Q]. reflexivity. }
  intros [(l & Hl & Q)|[Q|Q]]; [rewrite (St l Hl) in Q; destruct (Nd _ _ Q)| |]; destruct (Nv _ Q).
Qed.
Lemma plain_inherit n v : lacks n "style" -> lacks n "visibility" -> ~ visibility n v.
Proof.
  intros H1 H2 (l & Hl & H).
  assert (l = []) as -> . { destruct Hl as [[_ Q]|(s & Q & _)]; [exact Q|]. destruct H1. apply in_map_iff. eexists. split; [|exact Q]. reflexivity. }
  destruct H as [(l1 & l2 & Q & _)|[_ Q]]; [destruct l1; discriminate|]. destruct H2. apply in_map_iff. eexists. split; [|exact Q]. reflexivity.
Qed.
Lemma display_none_style : style sample_hidden [(L "display", L "none")].
Proof.
  right. exists (L "display:none"). split; [left; reflexivity|]. split.
  - constructor; [|constructor]. cbn [fst snd].
    assert (forall w r c, w = L r ++ [c] -> ~ In ":"%char w -> ~ In ";"%char w -> (exists c r, w = c :: r /\ ~ style_blank c) -> ~ style_blank c -> word w) as Hw.
    { intros w r c E H1 H2 H3 H4. repeat split; auto. exists c, (L r). auto. }
    split.
    + apply (Hw _ "displa"%string "y"%char); try reflexivity; try (cbn; intuition discriminate); do 2 eexists; (split; [reflexivity|]); cbn; intuition discriminate.
    + apply (Hw _ "non"%string "e"%char); try reflexivity; try (cbn; intuition discriminate); do 2 eexists; (split; [reflexivity|]); cbn; intuition discriminate.
  - apply ss_last. exists [], [], [], []. repeat split; try constructor.
Qed.
Ltac lacking := unfold lacks; cbn; intuition discriminate.
Lemma sample_wf : wf_doc sample_svg.
Proof.
  split.
  - intros ups n A. nodes A; unfold proper; cbn; repeat constructor; cbn; intuition discriminate.
  - intros u1 n1 u2 n2 id A B Ha Hb. nodes A; nodes B; unfold has in *; cbn in Ha, Hb; auto; exfalso; intuition discriminate.
Qed.
Lemma sample_readable : readable_doc sample_svg.
Proof. intros ups n A. nodes A; try (apply plain_style; lacking). eexists. apply display_none_style. Qed.
Lemma translate_text a b : numeral_ok a -> numeral_ok b -> xlist [XTranslate a (Some b)] (L "translate(" ++ numeral_text a ++ [","%char] ++ numeral_text b ++ [")"%char]).
Proof.
  intros Ha Hb. pose proof (xl_cons [] (XTranslate a (Some b)) [] (numeral_text a ++ ","%char :: numeral_text b ++ []) [] []) as Q.
  cbn [xname app] in Q. rewrite app_nil_r in Q.
  replace (L "translate(" ++ numeral_text a ++ [","%char] ++ numeral_text b ++ [")"%char]) with
    (list_ascii_of_string "translate" ++ "("%char :: (numeral_text a ++ ","%char :: numeral_text b) ++ [")"%char]) by (rewrite <- app_assoc; reflexivity).
  apply Q; [constructor|constructor| |constructor; constructor].
  pose proof (al_cons [] a [b] (","%char :: numeral_text b)) as Q2. cbn [app] in Q2. apply Q2; [constructor| |].
  - pose proof (al_cons [","%char] b [] []) as Q3. cbn [app] in Q3. rewrite app_nil_r in Q3. apply Q3; [constructor; [right; reflexivity|constructor]|constructor; constructor|contradiction].
  - intros _. exists ","%char, (numeral_text b). split; [reflexivity|right; reflexivity].
Qed.
Lemma scale_text a : numeral_ok a -> xlist [XScale a None] (L "scale(" ++ numeral_text a ++ [")"%char]).
Proof.
  intros Ha. pose proof (xl_cons [] (XScale a None) [] (numeral_text a ++ []) [] []) as Q. cbn [xname app] in Q. rewrite app_nil_r in Q.
  apply Q; [constructor|constructor| |constructor; constructor]. pose proof (al_cons [] a [] []) as Q2. cbn [app] in Q2. rewrite app_nil_r in Q2. apply Q2; [constructor|constructor; constructor|contradiction].
Qed.
Definition sample_place (p : R * R) : R * R := p.
Definition sample_pictures : list picture :=
  [Group (acts_all [XScale n2 None])
     [Draw sample_path (acts_all [XTranslate n1 (Some n2)]); nothing;
      Group (InkSpec.within (acts_all []) (InkSpec.shift (value n10) 0)) [Draw sample_path (acts_all [XTranslate n1 (Some n2)])]];
   nothing].
Lemma sample_path_transform : transform sample_path [XTranslate n1 (Some n2)].
Proof.
  right. exists (L "translate(1,2)"). split; [right; left; reflexivity|]. split; [repeat constructor; cbn; discriminate|].
  apply (translate_text n1 n2); (split; [cbn; discriminate|exact Logic.I]).
Qed.
Lemma sample_path_picture ups : pictures sample_svg DEFAULT_SHAPES (matches [is_notes]) ups sample_path (Draw sample_path (acts_all [XTranslate n1 (Some n2)])).
Proof.
  apply (p_shape _ _ _ ups sample_path [XTranslate n1 (Some n2)] (L "path")).
  - split; [apply plain_shown; lacking|]. intros Q. exfalso. revert Q. apply plain_inherit; lacking.
  - unfold InkSpec.element. cbn. intuition discriminate.
  - unfold InkSpec.element. cbn. intuition discriminate.
  - apply sample_path_transform.
  - split; [cbn; intuition discriminate|]. left. reflexivity.
  - cbn. tauto.
Qed.
Example C124_example :
  wf_doc sample_svg /\ readable_doc sample_svg /\ at_node sample_svg [] sample_svg /\ shown_with_ancestors [] sample_svg /\
  ancestors_place [sample_svg] (InkSpec.within (fun p => p) (acts_all [])) /\
  all_pictures sample_svg DEFAULT_SHAPES (matches [is_notes]) [sample_svg] (x_kids sample_svg) sample_pictures /\
  exists f1 f2, flat_map (shapes true (InkSpec.within (fun p => p) (acts_all []))) sample_pictures = [(sample_path, f1); (sample_path, f2)] /\
    f1 (1, 1) = (4, 6) /\ f2 (1, 1) = (24, 6).
Proof.
  split; [apply sample_wf|]. split; [apply sample_readable|]. split; [constructor|]. split; [|split; [|split]].
  - constructor; [|constructor]. apply plain_shown; lacking.
  - apply ap_cons; [|constructor]. left. split; [lacking|reflexivity].
  - constructor; [|constructor; [|constructor]].
    + apply p_group.
      * split; [apply plain_shown; lacking|]. intros Q. exfalso. revert Q. apply plain_inherit; lacking.
      * left. reflexivity.
      * intros (name & H1 & H2 & s & [<-|[]] & H4). cbn in H1. destruct H1 as [H1|[H1|[]]]; [|discriminate H1]. injection H1 as <-. discriminate H4.
      * right. exists (L "scale(2)"). split; [right; left; reflexivity|]. split; [repeat constructor; cbn; discriminate|]. apply (scale_text n2). split; [cbn; discriminate|exact Logic.I].
      * constructor; [apply sample_path_picture|]. constructor; [|constructor; [|constructor]].
        -- apply p_hidden. intros [Q _]. apply Q. left. eexists. split; [apply display_none_style|]. exists [], []. split; [reflexivity|intros []].
        -- apply (p_use _ _ _ _ sample_use [] "#"%char (L "p") [sample_layer; sample_svg] sample_path (value n10) 0).
           ++ split; [apply plain_shown; lacking|]. intros Q. exfalso. revert Q. apply plain_inherit; lacking.
           ++ left. reflexivity.
           ++ left. split; [lacking|reflexivity].
           ++ left. reflexivity.
           ++ split; [|split; [discriminate|split; [left; reflexivity|discriminate]]].
              apply at_kid; [apply at_kid; [apply at_root|left; reflexivity]|left; reflexivity].
           ++ right. exists n10. split; [split; [cbn; discriminate|exact Logic.I]|]. split; [right; left; reflexivity|reflexivity].
           ++ left. split; [lacking|reflexivity].
           ++ apply sample_path_picture.
    + apply (p_skip _ _ _ _ _ []).
      * split; [apply plain_shown; lacking|]. intros Q. exfalso. revert Q. apply plain_inherit; lacking.
      * left. reflexivity.
      * exists (L "notes"). split; [left; reflexivity|]. split; [discriminate|]. exists is_notes. split; [left; reflexivity|reflexivity].
      * left. split; [lacking|reflexivity].
  - do 2 eexists. split; [reflexivity|]. unfold placed, InkSpec.within, InkSpec.shift, acts_all. cbn [fold_right acts fst snd].
    assert (V1 : value n1 = 1) by (unfold value; cbn; lra). assert (V2 : value n2 = 2) by (unfold value; cbn; lra). assert (V10 : value n10 = 10) by (unfold value; cbn; lra).
    rewrite V1, V2, V10. split; f_equal; lra.
Qed.
