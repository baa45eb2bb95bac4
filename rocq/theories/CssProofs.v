(** * CssProofs: inline styles and visibility. *)
From Verif Require Import Num Str Svg SvgProofs SvgDoc Css CssSpec.
From Coq Require Import String Ascii ZArith NArith List Bool Lia.
Import ListNotations.

Lemma str_eqb_spec a b : reflect (a = b) (str_eqb a b).
Proof. unfold str_eqb. destruct (list_eq_dec ascii_dec a b); constructor; auto. Qed.
Lemma str_eqb_refl a : str_eqb a a = true.
Proof. destruct (str_eqb_spec a a); congruence. Qed.

(** ** split and join *)
Lemma split_none sep s : ~ In sep s -> split_on sep s = [s].
Proof.
  induction s as [|c s IH]; intros H; [reflexivity|]. cbn [split_on]. destruct (Ascii.eqb_spec c sep) as [->|].
  - exfalso. apply H. now left.
  - rewrite IH; [reflexivity|]. intros Hi. apply H. now right.
Qed.
Lemma split_app sep a b : ~ In sep a -> split_on sep (a ++ sep :: b) = a :: split_on sep b.
Proof.
  induction a as [|c a IH]; intros H; cbn [app split_on].
  - now rewrite Ascii.eqb_refl.
  - destruct (Ascii.eqb_spec c sep) as [->|]; [exfalso; apply H; now left|].
    rewrite IH; [reflexivity|]. intros Hi. apply H. now right.
Qed.
Lemma split_join sep l : Forall (fun w => ~ In sep w) l -> l <> [] -> split_on sep (join sep l) = l.
Proof.
  induction 1 as [|w l Hw Hl IH]; intros Hne; [congruence|]. destruct l as [|w' l].
  - now apply split_none.
  - change (join sep (w :: w' :: l)) with (w ++ sep :: join sep (w' :: l)). rewrite split_app by exact Hw.
    f_equal. apply IH. discriminate.
Qed.
Lemma split_no_sep sep s : Forall (fun w => ~ In sep w) (split_on sep s).
Proof.
  induction s as [|c s IH]; [repeat constructor; intros []|]. cbn [split_on].
  destruct (Ascii.eqb_spec c sep) as [->|Hc]; [constructor; [intros []|exact IH]|].
  destruct (split_on sep s) as [|w ws]; [constructor; [|constructor]; intros [H|[]]; congruence|].
  inversion_clear IH. constructor; [|assumption]. intros [H'|H']; [congruence|contradiction].
Qed.
Lemma split_nonempty sep s : split_on sep s <> [].
Proof.
  destruct s as [|c s]; [discriminate|]. cbn [split_on]. destruct (Ascii.eqb c sep); [discriminate|].
  destruct (split_on sep s); discriminate.
Qed.
Lemma join_split sep s : join sep (split_on sep s) = s.
Proof.
  induction s as [|c s IH]; [reflexivity|]. cbn [split_on]. destruct (Ascii.eqb_spec c sep) as [->|].
  - pose proof (split_nonempty sep s). destruct (split_on sep s) as [|w ws] eqn:E; [congruence|].
    change (join sep ([] :: w :: ws)) with ([] ++ sep :: join sep (w :: ws)). now rewrite IH.
  - pose proof (split_nonempty sep s). destruct (split_on sep s) as [|w ws] eqn:E; [congruence|].
    destruct ws; cbn [join app] in *; now rewrite <- IH.
Qed.

(** ** strip *)
Lemma drop_all (p : ascii -> bool) b r : Forall (fun c => p c = true) b -> drop_while p (b ++ r) = drop_while p r.
Proof. induction 1 as [|c b Hc _ IH]; cbn [app drop_while]; [reflexivity|]. now rewrite Hc. Qed.
Lemma strip_word (p : ascii -> bool) b1 w b2 :
  Forall (fun c => p c = true) b1 -> Forall (fun c => p c = true) b2 ->
  (exists c r, w = c :: r /\ p c = false) -> (exists c r, w = r ++ [c] /\ p c = false) ->
  strip_by p (b1 ++ w ++ b2) = w.
Proof.
  intros H1 H2 (c & r & E & Hc) (d & q & E' & Hd). unfold strip_by. rewrite drop_all by exact H1.
  rewrite E at 1. cbn [app drop_while]. rewrite Hc.
  replace (c :: r ++ b2)%list with (w ++ b2)%list by (rewrite E; reflexivity).
  rewrite rev_app_distr, drop_all by (now apply Forall_rev).
  rewrite E', rev_app_distr. cbn [rev app drop_while]. rewrite Hd. cbn [rev]. now rewrite rev_involutive.
Qed.
Lemma strip_blank (p : ascii -> bool) b : Forall (fun c => p c = true) b -> strip_by p b = [].
Proof. intros H. unfold strip_by. rewrite <- (app_nil_r b), drop_all by exact H. reflexivity. Qed.

Lemma style_ws c : style_blank c <-> is_svg_ws c = true.
Proof.
  unfold is_svg_ws. split; intros H.
  - apply In_cin. exact H.
  - apply cin_In in H. exact H.
Qed.
Lemma blanks_ws b : blanks b -> Forall (fun c => is_svg_ws c = true) b.
Proof. unfold blanks. rewrite !Forall_forall. intros H c Hc. apply style_ws. auto. Qed.
Lemma not_ws c : ~ style_blank c -> is_svg_ws c = false.
Proof. intros H. destruct (is_svg_ws c) eqn:E; [|reflexivity]. apply style_ws in E. contradiction. Qed.
Lemma word_strip b1 w b2 : blanks b1 -> word w -> blanks b2 -> strip_by is_svg_ws (b1 ++ w ++ b2) = w.
Proof.
  intros H1 (_ & _ & (c & r & E & Hc) & (d & q & E' & Hd)) H2. apply strip_word; auto using blanks_ws.
  - exists c, r. auto using not_ws.
  - exists d, q. auto using not_ws.
Qed.
Lemma blank_not x b : blanks b -> ~ style_blank x -> ~ In x b.
Proof. unfold blanks. rewrite Forall_forall. intros H Hx Hi. auto. Qed.
Lemma colon_nb : ~ style_blank ":"%char.
Proof. unfold style_blank. cbn. intuition discriminate. Qed.
Lemma semi_nb : ~ style_blank ";"%char.
Proof. unfold style_blank. cbn. intuition discriminate. Qed.

Lemma property_decl d n v s : word n -> word v -> declaration (n, v) s ->
  style_property d s = Ok (dict_set n v d) /\ ~ In ";"%char s /\ s <> [].
Proof.
  intros Hn Hv (b1 & b2 & b3 & b4 & B1 & B2 & B3 & B4 & E). cbn [fst snd] in E.
  pose proof Hn as (Nc & Ns & _ & _). pose proof Hv as (Vc & Vs & _ & _).
  assert (s = (b1 ++ n ++ b2) ++ ":"%char :: (b3 ++ v ++ b4)) as E' by (rewrite E, <- !app_assoc; reflexivity).
  assert (s <> []) as Hne. { rewrite E'. destruct (b1 ++ n ++ b2); discriminate. }
  split; [|split; [|exact Hne]].
  - unfold style_property. destruct s as [|c s]; [congruence|]. rewrite E'.
    rewrite split_app, split_none.
    + rewrite !word_strip by assumption.
      destruct Hn as (_ & _ & (c1 & r1 & -> & _) & _). destruct Hv as (_ & _ & (c2 & r2 & -> & _) & _). reflexivity.
    + rewrite !in_app_iff. pose proof (blank_not _ b3 B3 colon_nb). pose proof (blank_not _ b4 B4 colon_nb). tauto.
    + rewrite !in_app_iff. pose proof (blank_not _ b1 B1 colon_nb). pose proof (blank_not _ b2 B2 colon_nb). tauto.
  - rewrite E. rewrite !in_app_iff. cbn [In]. rewrite !in_app_iff.
    pose proof (blank_not _ b1 B1 semi_nb). pose proof (blank_not _ b2 B2 semi_nb).
    pose proof (blank_not _ b3 B3 semi_nb). pose proof (blank_not _ b4 B4 semi_nb).
    intros [H'|[H'|[H'|[H'|[H'|[H'|H']]]]]]; try tauto. discriminate.
Qed.

Lemma oword_strip b1 w b2 : blanks b1 -> w = [] \/ word w -> blanks b2 -> strip_by is_svg_ws (b1 ++ w ++ b2) = w.
Proof.
  intros H1 [->|Hw] H2; [|now apply word_strip]. cbn [app]. apply strip_blank. apply Forall_app. auto using blanks_ws.
Qed.
Lemma property_void d s : void_declaration s -> style_property d s = Ok d /\ ~ In ";"%char s /\ s <> [].
Proof.
  intros (n & v & Hnv & b1 & b2 & b3 & b4 & B1 & B2 & B3 & B4 & E). cbn [fst snd] in E.
  assert (Hn : n = [] \/ word n) by tauto. assert (Hv : v = [] \/ word v) by tauto.
  assert (O : forall w, w = [] \/ word w -> ~ In ":"%char w /\ ~ In ";"%char w) by (intros w [->|(A & B & _)]; cbn; tauto).
  destruct (O n Hn) as [Nc Ns]. destruct (O v Hv) as [Vc Vs].
  assert (s = (b1 ++ n ++ b2) ++ ":"%char :: (b3 ++ v ++ b4)) as E' by (rewrite E, <- !app_assoc; reflexivity).
  assert (s <> []) as Hne. { rewrite E'. destruct (b1 ++ n ++ b2); discriminate. }
  split; [|split; [|exact Hne]].
  - unfold style_property. destruct s as [|c s]; [congruence|]. rewrite E'.
    rewrite split_app, split_none.
    + rewrite !oword_strip by assumption.
      destruct Hnv as [[_ ->]|[-> _]]; [destruct n|]; reflexivity.
    + rewrite !in_app_iff. pose proof (blank_not _ b3 B3 colon_nb). pose proof (blank_not _ b4 B4 colon_nb). tauto.
    + rewrite !in_app_iff. pose proof (blank_not _ b1 B1 colon_nb). pose proof (blank_not _ b2 B2 colon_nb). tauto.
  - rewrite E. rewrite !in_app_iff. cbn [In]. rewrite !in_app_iff.
    pose proof (blank_not _ b1 B1 semi_nb). pose proof (blank_not _ b2 B2 semi_nb).
    pose proof (blank_not _ b3 B3 semi_nb). pose proof (blank_not _ b4 B4 semi_nb).
    intros [H'|[H'|[H'|[H'|[H'|[H'|H']]]]]]; try tauto. discriminate.
Qed.

(** ** Dictionaries *)
Lemma get_set k v d k' : dict_get k' (dict_set k v d) = if str_eqb k' k then Some v else dict_get k' d.
Proof.
  induction d as [|[a b] d IH]; cbn [dict_set dict_get]; [reflexivity|].
  destruct (str_eqb_spec k a) as [<-|Hk]; cbn [dict_get].
  - destruct (str_eqb k' k); reflexivity.
  - rewrite IH. destruct (str_eqb_spec k' a) as [->|]; [|reflexivity].
    destruct (str_eqb_spec a k); [congruence|reflexivity].
Qed.
Lemma set_new k v d : ~ In k (map fst d) -> dict_set k v d = d ++ [(k, v)].
Proof.
  induction d as [|[a b] d IH]; intros H; [reflexivity|]. cbn [dict_set app map fst In] in *.
  destruct (str_eqb_spec k a) as [->|]; [exfalso; apply H; now left|]. rewrite IH; [reflexivity|]. intros X. apply H. now right.
Qed.
Lemma set_keys k v d : NoDup (map fst d) -> NoDup (map fst (dict_set k v d)).
Proof.
  assert (forall k v d x, In x (map fst (dict_set k v d)) -> x = k \/ In x (map fst d)) as Hi.
  { clear. intros k v d x. induction d as [|[a b] d IH]; cbn [dict_set map fst In]; [intuition congruence|].
    destruct (str_eqb k a); cbn [map fst In]; tauto. }
  induction d as [|[a b] d IH]; cbn [dict_set map fst]; intros H; [repeat constructor; intros []|].
  inversion_clear H. destruct (str_eqb_spec k a) as [->|]; cbn [map fst]; constructor; auto.
  intros Hx. apply Hi in Hx. destruct Hx; congruence.
Qed.

(** ** Parsing *)
Definition words (l : list (pystr * pystr)) : Prop := Forall (fun nv => word (fst nv) /\ word (snd nv)) l.

Lemma style_loop l s : words l -> spells_style l s -> forall d,
  style_properties d (split_on ";" s) = Ok (fold_left (fun d nv => dict_set (fst nv) (snd nv) d) l d).
Proof.
  intros Hw H. induction H as [|[n v] s Hd|l s _ IH|[n v] l s t Hd _ IH|s Hd|l s t Hd _ IH]; intros d.
  - reflexivity.
  - inversion_clear Hw as [|? ? [Hn Hv] _]. destruct (property_decl d n v s Hn Hv Hd) as (E & Hs & _).
    rewrite split_none by exact Hs. cbn [style_properties]. rewrite E. reflexivity.
  - cbn [split_on]. rewrite Ascii.eqb_refl. cbn [style_properties style_property rbind]. now apply IH.
  - inversion_clear Hw as [|? ? [Hn Hv] Hl]. destruct (property_decl d n v s Hn Hv Hd) as (E & Hs & _).
    rewrite split_app by exact Hs. cbn [style_properties]. rewrite E. cbn [rbind fold_left fst snd]. now apply IH.
  - destruct (property_void d s Hd) as (E & Hs & _). rewrite split_none by exact Hs. cbn [style_properties]. rewrite E. reflexivity.
  - destruct (property_void d s Hd) as (E & Hs & _). rewrite split_app by exact Hs. cbn [style_properties]. rewrite E. cbn [rbind]. now apply IH.
Qed.
Lemma parse_style l s : words l -> spells_style l s ->
  inline_style_to_dict (Some s) = Ok (fold_left (fun d nv => dict_set (fst nv) (snd nv) d) l []).
Proof.
  intros Hw H. destruct s as [|c s]; [|now apply style_loop].
  cbn. inversion H as [| [n v] s' Hd E1 E2| |nv l' s' t Hd Ht E1 E2|s' Hd E1 E2|l' s' t Hd Ht E1 E2]; subst; [reflexivity| | |reflexivity|].
  - inversion_clear Hw as [|? ? [Hn Hv] _]. destruct (property_decl [] n v [] Hn Hv Hd) as (_ & _ & Hne). congruence.
  - destruct s'; discriminate.
  - destruct s'; discriminate.
Qed.
Lemma fold_get l : forall d n v, declared l n v -> dict_get n (fold_left (fun d nv => dict_set (fst nv) (snd nv) d) l d) = Some v.
Proof.
  assert (forall l d n, ~ In n (map fst l) -> dict_get n (fold_left (fun d nv => dict_set (fst nv) (snd nv) d) l d) = dict_get n d) as Ho.
  { clear. induction l as [|[a b] l IH]; intros d n H; [reflexivity|]. cbn [fold_left fst snd map In] in *.
    rewrite IH by tauto. rewrite get_set. destruct (str_eqb_spec n a); [subst; tauto|reflexivity]. }
  intros d n v (l1 & l2 & -> & H2). rewrite fold_left_app. cbn [fold_left fst snd]. rewrite Ho by exact H2.
  rewrite get_set, str_eqb_refl. reflexivity.
Qed.
Lemma fold_get_none l : forall d n, ~ In n (map fst l) -> dict_get n (fold_left (fun d nv => dict_set (fst nv) (snd nv) d) l d) = dict_get n d.
Proof.
  induction l as [|[a b] l IH]; intros d n H; [reflexivity|]. cbn [fold_left fst snd map In] in *.
  rewrite IH by tauto. rewrite get_set. destruct (str_eqb_spec n a); [subst; tauto|reflexivity].
Qed.
Lemma fold_distinct l : forall d, NoDup (map fst (d ++ l)) ->
  fold_left (fun d nv => dict_set (fst nv) (snd nv) d) l d = d ++ l.
Proof.
  induction l as [|[a b] l IH]; intros d H; [now rewrite app_nil_r|]. cbn [fold_left fst snd].
  rewrite map_app in H. cbn [map fst] in H. rewrite set_new.
  - rewrite IH; [now rewrite <- app_assoc|]. rewrite <- app_assoc, map_app. exact H.
  - apply NoDup_remove_2 in H. rewrite in_app_iff in H. tauto.
Qed.
Lemma render_spells d : words d -> spells_style d (dict_to_inline_style d).
Proof.
  unfold dict_to_inline_style. induction d as [|[n v] d IH]; intros H; [constructor|].
  inversion_clear H as [|? ? _ Hd]. specialize (IH Hd).
  assert (declaration (n, v) (n ++ ":"%char :: v)) as Hdec.
  { exists [], [], [], []. cbn [fst snd]. rewrite app_nil_r. cbn [app]. repeat split; constructor. }
  destruct d as [|nv d]; [now constructor|].
  change (spells_style ((n, v) :: nv :: d) ((n ++ ":"%char :: v) ++ ";"%char :: join ";" (map (fun '(n, v) => n ++ ":"%char :: v) (nv :: d)))).
  now constructor.
Qed.

(** ** When does it raise? *)
Definition colons (s : pystr) : nat := count_occ ascii_dec s ":"%char.
Lemma split_count sep s : length (split_on sep s) = S (count_occ ascii_dec s sep).
Proof.
  induction s as [|c s IH]; [reflexivity|]. cbn [split_on count_occ]. destruct (Ascii.eqb_spec c sep) as [->|Hc].
  - destruct (ascii_dec sep sep); [|congruence]. cbn [length]. now rewrite IH.
  - destruct (ascii_dec c sep); [congruence|]. rewrite <- IH. pose proof (split_nonempty sep s).
    destruct (split_on sep s); [congruence|reflexivity].
Qed.
Lemma property_raise d p : style_property d p = Raise ValueError <-> p <> [] /\ colons p <> 1.
Proof.
  unfold style_property, colons. pose proof (split_count ":" p) as Hc.
  destruct p as [|c p]; [split; [discriminate|intros [H _]; congruence]|].
  destruct (split_on ":" (c :: p)) as [|x [|y [|z l]]]; cbn [length] in Hc.
  - lia.
  - split; [intros _; split; [discriminate|lia]|reflexivity].
  - split; [|intros [_ H]; lia]. destruct (strip_by is_svg_ws x), (strip_by is_svg_ws y); discriminate.
  - split; [intros _; split; [discriminate|lia]|reflexivity].
Qed.
Lemma property_ok d p : style_property d p = Raise ValueError \/ exists d', style_property d p = Ok d'.
Proof.
  unfold style_property. destruct p as [|c p]; [eauto|].
  destruct (split_on ":" (c :: p)) as [|x [|y [|z l]]]; eauto.
  destruct (strip_by is_svg_ws x), (strip_by is_svg_ws y); eauto.
Qed.
Lemma properties_raise ps : forall d, (exists d', style_properties d ps = Ok d' /\ forall p, In p ps -> p = [] \/ colons p = 1) \/
  (style_properties d ps = Raise ValueError /\ exists p, In p ps /\ p <> [] /\ colons p <> 1).
Proof.
  induction ps as [|p ps IH]; intros d; [left; exists d; split; [reflexivity|intros ? []]|].
  cbn [style_properties]. destruct (property_ok d p) as [E|(d' & E)]; rewrite E; cbn [rbind].
  - right. split; [reflexivity|]. exists p. apply property_raise in E. split; [now left|exact E].
  - assert (p = [] \/ colons p = 1) as Hp.
    { destruct (list_eq_dec ascii_dec p []); [now left|]. destruct (Nat.eq_dec (colons p) 1); [now right|].
      assert (style_property d p = Raise ValueError) as X by (apply property_raise; auto). congruence. }
    destruct (IH d') as [(d2 & E2 & H2)|(E2 & q & Hq & H2)].
    + left. exists d2. split; [exact E2|]. intros q [<-|Hq]; auto.
    + right. split; [exact E2|]. exists q. split; [now right|exact H2].
Qed.
(** pieces between semicolons *)
Lemma split_piece sep s p : In p (split_on sep s) <->
  exists a b, s = a ++ p ++ b /\ ~ In sep p /\ (a = [] \/ exists a', a = a' ++ [sep]) /\ (b = [] \/ exists b', b = sep :: b').
Proof.
  split.
  - intros H. pose proof (split_no_sep sep s) as Hn. rewrite Forall_forall in Hn. specialize (Hn p H).
    pose proof (join_split sep s) as E. apply in_split in H as (l1 & l2 & El). rewrite El in E. clear El. subst s.
    assert (forall l, l <> [] -> join sep (l ++ p :: l2) = (join sep l ++ [sep]) ++ join sep (p :: l2)) as Hj.
    { induction l as [|w l IHl]; [congruence|]. intros _. destruct l as [|w' l].
      - cbn [app join]. now rewrite <- app_assoc.
      - change ((w :: w' :: l) ++ p :: l2) with (w :: (w' :: l) ++ p :: l2).
        change (join sep (w :: (w' :: l) ++ p :: l2)) with (w ++ sep :: join sep ((w' :: l) ++ p :: l2)).
        rewrite IHl by discriminate. change (join sep (w :: w' :: l)) with (w ++ sep :: join sep (w' :: l)).
        rewrite <- !app_assoc. reflexivity. }
    assert (join sep (p :: l2) = p ++ match l2 with [] => [] | _ => sep :: join sep l2 end) as Hp.
    { destruct l2; [cbn; now rewrite app_nil_r|reflexivity]. }
    destruct l1 as [|w l1].
    + exists [], (match l2 with [] => [] | _ => sep :: join sep l2 end). cbn [app]. split; [exact Hp|]. split; [exact Hn|].
      split; [now left|]. destruct l2; [now left|right; eexists; reflexivity].
    + exists (join sep (w :: l1) ++ [sep]), (match l2 with [] => [] | _ => sep :: join sep l2 end).
      rewrite Hj by discriminate. rewrite Hp. split; [reflexivity|]. split; [exact Hn|]. split; [right; eauto|].
      destruct l2; [now left|right; eexists; reflexivity].
  - intros (a & b & -> & Hn & Ha & Hb).
    assert (In p (split_on sep (p ++ b))) as H.
    { destruct Hb as [->|(b' & ->)]; [rewrite app_nil_r, split_none by exact Hn; now left|].
      rewrite split_app by exact Hn. now left. }
    destruct Ha as [->|(a' & ->)]; [exact H|]. rewrite <- app_assoc. cbn [app].
    assert (forall u v, exists l, split_on sep (u ++ sep :: v) = l ++ split_on sep v) as Hs.
    { intros u v. induction u as [|c u (l & IH)]; cbn [app split_on].
      - rewrite Ascii.eqb_refl. now exists [[]].
      - destruct (Ascii.eqb c sep); [exists ([] :: l); now rewrite IH|].
        destruct (split_on sep (u ++ sep :: v)) as [|w ws] eqn:E; [now elim (split_nonempty _ _ E)|].
        destruct l as [|x l]; [|cbn [app] in IH; injection IH as -> ->; now exists ((c :: x) :: l)].
        exfalso. cbn [app] in IH. pose proof (f_equal (@length _) E) as E1. pose proof (f_equal (@length _) IH) as E2.
        rewrite split_count in E1. cbn [length] in E1, E2. rewrite split_count in E2. rewrite count_occ_app in E1.
        cbn [count_occ] in E1. destruct (ascii_dec sep sep); [lia|congruence]. }
    destruct (Hs a' (p ++ b)) as (l & ->). apply in_or_app. now right.
Qed.

(** ** Visibility *)
Definition hides (n : node) (d : dict) : Prop :=
  dict_get (L "display") d = Some (L "none") \/
  exists v, (dict_get (L "visibility") d = Some v \/ (dict_get (L "visibility") d = None /\ n_vis n = Some v)) /\
    (v = L "hidden" \/ v = L "collapse").
Lemma visible_chain chain ds : Forall2 (fun n d => inline_style_to_dict (n_style n) = Ok d) chain ds ->
  forall recurs, exists b, node_is_visible recurs true chain = Ok b /\
    (b = true <-> (chain = [] -> recurs = true) /\ Forall2 (fun n d => ~ hides n d) chain ds).
Proof.
  induction 1 as [|n d chain ds Hd Hc IH]; intros recurs.
  - exists recurs. split; [reflexivity|]. split; [intros ->; split; auto|intros [H _]; auto].
  - cbn [node_is_visible]. rewrite Hd.
    assert (forall o, match o with Some v => str_eqb v (L "none") | None => false end = true <-> o = Some (L "none")) as Hnone.
    { intros [v|]; [|split; discriminate]. destruct (str_eqb_spec v (L "none")) as [->|Hv]; split; auto; try discriminate. congruence. }
    destruct (match dict_get (L "display") d with Some v => str_eqb v (L "none") | None => false end) eqn:E1.
    + exists false. split; [reflexivity|]. split; [discriminate|]. intros [_ H]. exfalso. inversion_clear H as [|? ? ? ? H' _].
      apply H'. left. now apply Hnone.
    + assert (dict_get (L "display") d <> Some (L "none")) as E1'. { intros X. apply Hnone in X. congruence. }
      rewrite andb_false_r.
      set (vis := match dict_get (L "visibility") d with Some v => Some v | None => n_vis n end).
      assert (hides n d <-> vis = Some (L "hidden") \/ vis = Some (L "collapse")) as Hh.
      { unfold hides, vis. destruct (dict_get (L "visibility") d) as [w|].
        - split; [intros [H|(v & [H|[H _]] & Hv)]; [contradiction| |discriminate]; injection H as ->; destruct Hv as [-> | ->]; auto|].
          intros [H|H]; injection H as ->; right; eexists; split; eauto.
        - split; [intros [H|(v & [H|[_ H]] & Hv)]; [contradiction|discriminate|]; rewrite H; destruct Hv as [-> | ->]; auto|].
          intros H. right. destruct H as [H|H]; eexists; (split; [right; split; [reflexivity|exact H]|auto]). }
      destruct ((match vis with Some w => str_eqb w (L "hidden") | None => false end) || (match vis with Some w => str_eqb w (L "collapse") | None => false end)) eqn:E2.
      * exists false. split; [reflexivity|]. split; [discriminate|]. intros [_ H]. exfalso. inversion_clear H as [|? ? ? ? H' _].
        apply H', Hh. destruct vis as [w|]; [|discriminate].
        destruct (str_eqb_spec w (L "hidden")) as [->|]; [now left|]. destruct (str_eqb_spec w (L "collapse")) as [->|]; [now right|discriminate].
      * destruct (IH true) as (b & E & Hb). exists b. split; [exact E|]. rewrite Hb. split.
        -- intros [_ H]. split; [discriminate|]. constructor; [|exact H]. intros X. apply Hh in X. destruct X as [X|X]; rewrite X in E2; discriminate.
        -- intros [_ H]. inversion_clear H. split; auto.
Qed.
