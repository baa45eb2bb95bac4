(** * PropsShuffle: the path shuffler (C61, C89). *)
From Verif Require Import Num NumR Str Geom GeomR GeomProofs GeomProofs4 Svg SvgSpec SvgProofs PropsSvg SvgDoc SvgDocSpec SvgDocProofs SvgDocProofs2 PropsSvgDoc Shuffle.
From Coq Require Import String Ascii ZArith NArith List Bool Lia Permutation Reals Lra.
Import ListNotations.

Lemma upd_length {A} k (a : A) l : length (upd k a l) = length l.
Proof. revert k. induction l as [|x l IH]; intros [|k]; cbn [upd length]; auto. Qed.
Lemma upd_nth {A} (a : A) l : forall k n, k < length l -> nth_error (upd k a l) n = if Nat.eqb n k then Some a else nth_error l n.
Proof.
  induction l as [|x l IH]; intros k n H; [cbn in H; lia|]. destruct k as [|k], n as [|n]; cbn [upd nth_error Nat.eqb]; auto.
  apply IH. cbn in H. lia.
Qed.
Lemma swap_perm {A} i j (l : list A) : Permutation l (swap i j l).
Proof.
  unfold swap. destruct (nth_error l i) as [a|] eqn:Ei; [|apply Permutation_refl].
  destruct (nth_error l j) as [b|] eqn:Ej; [|apply Permutation_refl].
  assert (i < length l) as Hi by (apply nth_error_Some; congruence). assert (j < length l) as Hj by (apply nth_error_Some; congruence).
  apply Permutation_nth_error. split; [rewrite !upd_length; reflexivity|].
  exists (fun n => if Nat.eqb n i then j else if Nat.eqb n j then i else n). split.
  - intros x y H. cbn in H. destruct (Nat.eqb_spec x i), (Nat.eqb_spec y i), (Nat.eqb_spec x j), (Nat.eqb_spec y j); subst; try congruence; try lia.
  - intros n. rewrite !upd_nth by (rewrite ?upd_length; assumption).
    destruct (Nat.eqb_spec n j) as [Hj'|Hj']; destruct (Nat.eqb_spec n i) as [Hi'|Hi']; congruence.
Qed.
Lemma shuffle_perm {A} draw (l : list A) : Permutation l (shuffle draw l).
Proof.
  unfold shuffle. generalize (length l - 1). intros i. revert l.
  induction i as [|i IH]; intros l; [apply Permutation_refl|]. cbn [shuffle_down].
  eapply Permutation_trans; [apply swap_perm|apply IH].
Qed.

Lemma upd_app {A} (x y : A) a b : upd (length a) y (a ++ x :: b) = a ++ y :: b.
Proof. induction a as [|c a IH]; cbn [length app upd]; [reflexivity|]. now rewrite IH. Qed.
Lemma nth_app {A} (x : A) a b : nth_error (a ++ x :: b) (length a) = Some x.
Proof. induction a; cbn; auto. Qed.
Lemma swap_app {A} (x y : A) a b c : swap (length (a ++ x :: b)) (length a) (a ++ x :: b ++ y :: c) = a ++ y :: b ++ x :: c.
Proof.
  unfold swap. rewrite nth_app.
  replace (a ++ x :: b ++ y :: c) with ((a ++ x :: b) ++ y :: c) by (rewrite <- app_assoc; reflexivity).
  rewrite nth_app, upd_app. rewrite <- app_assoc. cbn [app]. apply upd_app.
Qed.
Lemma swap_same {A} i (l : list A) : swap i i l = l.
Proof.
  unfold swap. destruct (nth_error l i) as [a|] eqn:E; [|reflexivity].
  apply nth_error_split in E as (l1 & l2 & -> & <-). now rewrite !upd_app.
Qed.
Lemma shuffle_down_ext {A} d d' i (l : list A) : (forall k, k <= i -> d k = d' k) -> shuffle_down d i l = shuffle_down d' i l.
Proof. revert l. induction i as [|i IH]; intros l H; [reflexivity|]. cbn [shuffle_down]. rewrite H by lia. apply IH. intros k Hk. apply H. lia. Qed.
Lemma shuffle_down_any {A} i : forall (a a' t : list A), Permutation a a' -> length a = S i ->
  exists draw, shuffle_down draw i (a ++ t) = a' ++ t.
Proof.
  induction i as [|i IH]; intros a a' t Hp Hl.
  - exists (fun _ => 0). cbn [shuffle_down]. f_equal. destruct a as [|x [|]]; try discriminate. apply Permutation_length_1_inv in Hp. congruence.
  - assert (a' <> []) as Hne. { intros ->. apply Permutation_sym, Permutation_nil in Hp. subst. discriminate. }
    destruct (exists_last Hne) as (b' & y & ->).
    assert (In y a) as Hy. { apply Permutation_sym in Hp. eapply Permutation_in; [exact Hp|]. apply in_or_app. right. now left. }
    apply in_split in Hy as (a1 & a2 & ->).
    assert (Permutation (a1 ++ a2) b') as Hp'.
    { rewrite <- (app_nil_r b'). apply (Permutation_app_inv a1 a2 b' [] y). exact Hp. }
    assert (length (a1 ++ a2) = S i) as Hl'. { rewrite !app_length in *. cbn [length] in Hl. lia. }
    assert (exists a3, Permutation (a1 ++ a2) a3 /\ length a3 = S i /\ swap (S i) (length a1) ((a1 ++ y :: a2) ++ t) = a3 ++ y :: t) as (a3 & P3 & L3 & E3).
    { destruct (list_eq_dec Nat.eq_dec (map (fun _ => 0) a2) []) as [E|E].
      - destruct a2; [|discriminate]. exists a1. rewrite app_nil_r in *. split; [apply Permutation_refl|]. split; [exact Hl'|].
        rewrite Hl', swap_same, <- app_assoc. reflexivity.
      - assert (a2 <> []) as H2 by (intros ->; now apply E). destruct (exists_last H2) as (c & z & ->).
        exists (a1 ++ z :: c). split; [apply Permutation_app_head, Permutation_sym, Permutation_cons_append|]. split.
        + rewrite !app_length in *. cbn [length] in *. lia.
        + replace (S i) with (length (a1 ++ y :: c)) by (rewrite !app_length in *; cbn [length] in *; lia).
          replace ((a1 ++ y :: c ++ [z]) ++ t) with (a1 ++ y :: c ++ z :: t) by (rewrite <- !app_assoc; cbn [app]; rewrite <- app_assoc; reflexivity).
          rewrite swap_app, <- app_assoc. reflexivity. }
    destruct (IH a3 b' (y :: t)) as (draw & Ed); [eapply Permutation_trans; [apply Permutation_sym; exact P3|exact Hp']|exact L3|].
    exists (fun k => if Nat.eqb k (S i) then length a1 else draw k). cbn [shuffle_down]. rewrite Nat.eqb_refl.
    rewrite Nat.mod_small by (rewrite app_length in Hl'; lia). rewrite E3.
    rewrite (shuffle_down_ext _ draw); [rewrite Ed, <- app_assoc; reflexivity|].
    intros k Hk. destruct (Nat.eqb_spec k (S i)); [lia|reflexivity].
Qed.
Lemma shuffle_any {A} (l l' : list A) : Permutation l l' -> exists draw, shuffle draw l = l'.
Proof.
  intros H. unfold shuffle. destruct l as [|x l].
  - exists (fun _ => 0). apply Permutation_nil in H. now subst.
  - destruct (shuffle_down_any (length l) (x :: l) l' [] H eq_refl) as (draw & E). exists draw. rewrite !app_nil_r in E.
    cbn [length]. rewrite Nat.sub_succ, Nat.sub_0_r. exact E.
Qed.

(** the given paths, in document order *)
Definition given_paths (layers : list (list elem)) : list elem := filter e_path (concat layers).
Lemma layer_paths_concat layers :
  concat (filter (fun l : list elem => match l with [] => false | _ => true end) (map (filter e_path) layers)) = given_paths layers.
Proof.
  unfold given_paths. induction layers as [|l layers IH]; [reflexivity|]. cbn [map filter concat]. rewrite filter_app, <- IH.
  destruct (filter e_path l); reflexivity.
Qed.
Lemma no_paths layers : filter (fun l : list elem => match l with [] => false | _ => true end) (map (filter e_path) layers) = [] <-> given_paths layers = [].
Proof.
  rewrite <- layer_paths_concat. set (f := filter _ _). assert (Forall (fun l => l <> []) f) as H.
  { unfold f. apply Forall_forall. intros x Hx. apply filter_In in Hx as [_ Hx]. now destruct x. }
  clearbody f. split; [intros ->; reflexivity|]. destruct H as [|l f Hl _]; [reflexivity|]. cbn [concat]. destruct l; [congruence|discriminate].
Qed.

(** ** C61 *)
(** Whatever the random choices: the new layer holds the given paths, each exactly once. *)
Theorem C61_permutation {N : NumOps} method draw layers : given_paths layers <> [] ->
  exists l, run (N:=N) true false method draw layers = Ok (Some (map Moved l)) /\ Permutation (given_paths layers) l.
Proof.
  intros Hne. unfold run. cbn [negb andb].
  destruct (filter _ _) as [|x r] eqn:E; [apply no_paths in E; contradiction|]. rewrite <- E, layer_paths_concat. cbn [rbind].
  destruct method.
  - pose proof (shuffle_perm draw (map (Moved (N:=N)) (given_paths layers))) as Hp.
    apply Permutation_sym, Permutation_map_inv in Hp as (l & -> & Hl). exists l. split; [reflexivity|exact Hl].
  - exists (rev (given_paths layers)). rewrite map_rev. split; [reflexivity|apply Permutation_rev].
  - eexists. split; [reflexivity|apply Permutation_refl].
Qed.
Theorem C61_order {N : NumOps} draw layers : given_paths layers <> [] ->
  run (N:=N) true false MReverse draw layers = Ok (Some (rev (map Moved (given_paths layers)))) /\
  run (N:=N) true false MOther draw layers = Ok (Some (map Moved (given_paths layers))).
Proof.
  intros Hne. unfold run. cbn [negb andb].
  destruct (filter _ _) as [|x r] eqn:E; [apply no_paths in E; contradiction|]. rewrite <- E, layer_paths_concat. split; reflexivity.
Qed.
(** ... and every order of the given paths is a possible outcome. *)
Theorem C61_any_order {N : NumOps} layers l : given_paths layers <> [] -> Permutation (given_paths layers) l ->
  exists draw, run (N:=N) true false MShuffle draw layers = Ok (Some (map Moved l)).
Proof.
  intros Hne Hp. destruct (shuffle_any (map (Moved (N:=N)) (given_paths layers)) (map Moved l)) as (draw & E); [now apply Permutation_map|].
  exists draw. unfold run. cbn [negb andb].
  destruct (filter _ _) as [|x r] eqn:Ef; [apply no_paths in Ef; contradiction|]. rewrite <- Ef, layer_paths_concat. cbn [rbind].
  now rewrite E.
Qed.
Theorem C61_nothing {N : NumOps} s e method draw layers :
  run (N:=N) s e method draw layers = Ok None <-> (s = false /\ e = false) \/ given_paths layers = [].
Proof.
  unfold run. destruct (negb s && negb e) eqn:Eo.
  - apply andb_true_iff in Eo as [E1 E2]. destruct s, e; try discriminate. tauto.
  - assert (~ (s = false /\ e = false)) as Hn by (destruct s, e; try discriminate; intros [? ?]; discriminate).
    destruct (filter (fun l : list elem => match l with [] => false | _ => true end) (map (filter e_path) layers)) as [|x r] eqn:E.
    + apply no_paths in E. tauto.
    + assert (given_paths layers <> []) as Hne by (intros X; apply no_paths in X; congruence).
      split; [|tauto]. destruct e; [destruct (explode_all (concat (x :: r)))|]; discriminate.
Qed.

(** Exploding: the pieces of all the paths, each exactly once; it fails only if a path or a transform
    cannot be parsed. *)
Theorem C61_explode {N : NumOps} s method draw layers (ps : list (list (item N))) : given_paths layers <> [] ->
  Forall2 (fun e l => explode_elem e = Ok l) (given_paths layers) ps ->
  exists l, run s true method draw layers = Ok (Some l) /\ Permutation (concat ps) l.
Proof.
  intros Hne Hp. unfold run. rewrite andb_false_r.
  destruct (filter _ _) as [|x r] eqn:E; [apply no_paths in E; contradiction|]. rewrite <- E, layer_paths_concat. cbn [rbind].
  assert (explode_all (given_paths layers) = Ok (concat ps)) as ->.
  { clear - Hp. induction Hp as [|e l es ps H _ IH]; [reflexivity|]. cbn [explode_all concat]. now rewrite H, IH. }
  cbn [rbind]. eexists. split; [reflexivity|]. destruct method; [apply shuffle_perm|apply Permutation_rev|apply Permutation_refl].
Qed.
(** an element without a style attribute has the empty style *)
Definition style_text (st : option pystr) : pystr := match st with Some s => s | None => [] end.
(** one piece per drawn segment, in the style of the path *)
Theorem C61_explode_elem {N : NumOps} e m pieces : get_element_transform (N:=N) (e_transform e) (e_ancestors e) = Ok m ->
  explode_path (N:=N) (e_d e) = Ok pieces ->
  exists l, explode_elem e = Ok l /\ map (fun i => match i with Piece p _ _ => Some p | Moved _ => None end) l = map Some pieces /\
    Forall (fun i => match i with Piece _ st _ => style_text st = style_text (e_style e) | Moved _ => False end) l.
Proof.
  intros H1 H2. unfold explode_elem. rewrite H1. cbn [rbind]. rewrite H2. cbn [rbind]. eexists. split; [reflexivity|].
  rewrite map_map. split; [reflexivity|]. apply Forall_forall. intros i Hi. apply in_map_iff in Hi as (q & <- & _). destruct (e_style e) as [[|]|]; reflexivity.
Qed.
(** Turning the shuffle off does not: with exploding on, every order of the pieces still is a possible
    outcome when the option [shuffle] is false. *)
Theorem C61_shuffle_off_refuted {N : NumOps} layers (ps : list (list (item N))) l : given_paths layers <> [] ->
  Forall2 (fun e l => explode_elem e = Ok l) (given_paths layers) ps -> Permutation (concat ps) l ->
  exists draw, run false true MShuffle draw layers = Ok (Some l).
Proof.
  intros Hne Hp Hl. destruct (shuffle_any (concat ps) l Hl) as (draw & Ed). exists draw. unfold run. rewrite andb_false_r.
  destruct (filter _ _) as [|x r] eqn:E; [apply no_paths in E; contradiction|]. rewrite <- E, layer_paths_concat. cbn [rbind].
  assert (explode_all (given_paths layers) = Ok (concat ps)) as ->.
  { clear - Hp. induction Hp as [|e l es ps H _ IH]; [reflexivity|]. cbn [explode_all concat]. now rewrite H, IH. }
  cbn [rbind]. now rewrite Ed.
Qed.
Definition sample_layers : list (list elem) := [[]; [Elem true sample_text None None []; Elem false [] None None []]].
Example C61_applies {N : NumOps} : given_paths sample_layers <> [] /\ exists ps : list (list (item N)),
  Forall2 (fun e l => explode_elem e = Ok l) (given_paths sample_layers) ps /\ length (concat ps) = 6.
Proof.
  split; [discriminate|]. destruct C54_applies as (H1 & H2 & H3 & H4).
  pose proof (C83_explode (N:=N) sample sample_text H1 H2 H3 H4) as E. pose proof (C83_applies (N:=N)) as El.
  destruct (C61_explode_elem (N:=N) (Elem true sample_text None None []) IDENTITY _ eq_refl E) as (l & Hl & Hm & _).
  exists [l]. split; [repeat constructor; exact Hl|].
  cbn [concat]. rewrite app_nil_r. apply (f_equal (@length _)) in Hm. rewrite !map_length in Hm. rewrite Hm. exact El.
Qed.

(** ** C89: do the paths stay where they are on the page? *)
Local Open Scope R_scope.
(** Exploded pieces: the transform of the new element is that of the old one with all its ancestors, up
    to 0.0000005 in each entry. *)
Definition close (a b : R) := Rabs (a - b) <= 0.0000005.
Theorem C89_exploded_partial e m l (p : (R * R) * ascii * list (pval ROps)) st tr :
  get_element_transform (N:=ROps) (e_transform e) (e_ancestors e) = Ok m -> explode_elem (N:=ROps) e = Ok l -> In (Piece p st tr) l ->
  exists m', parse_transform_attr (option_map L tr) = Ok m' /\
    close (m00 m') (m00 m) /\ close (m01 m') (m01 m) /\ close (m02 m') (m02 m) /\
    close (m10 m') (m10 m) /\ close (m11 m') (m11 m) /\ close (m12 m') (m12 m).
Proof.
  intros Hm He Hin. unfold explode_elem in He. rewrite Hm in He. cbn [rbind] in He.
  destruct (explode_path (e_d e)) as [pieces|]; [|discriminate]. injection He as <-.
  apply in_map_iff in Hin as (q & [= -> _ <-] & _).
  destruct (is_identity m) eqn:Ei.
  - apply is_identity_spec in Ei. subst m. cbn [option_map parse_transform_attr]. exists IDENTITY. split; [reflexivity|].
    unfold close, IDENTITY. cbn [m00 m01 m02 m10 m11 m12]. rnum.
    repeat split; match goal with |- Rabs (?a - ?b) <= _ => replace (a - b) with 0 by (match goal with |- ?u = ?v => change (@eq R u v) end; ring) end; rewrite Rabs_R0; lra.
  - cbn [option_map]. apply C84_transform_attr_round_trip.
Qed.
(** Paths that are not exploded keep only their own transform, so they jump if a layer or group above
    them has one: under translate(5) the point (1, 2) is shown at (6, 2), after the run at (1, 2). *)
Definition shifted : elem := Elem true (L "M1 2L3 4") None None [Some (L "translate(5)")].
Theorem C89_moved_refuted draw :
  run (N:=ROps) true false MOther draw [[shifted]] = Ok (Some [Moved shifted]) /\
  (exists m, get_element_transform (N:=ROps) (e_transform shifted) (e_ancestors shifted) = Ok m /\ apply m (P 1 2) = P 6 2) /\
  (exists m, get_element_transform (N:=ROps) (e_transform shifted) [] = Ok m /\ apply m (P 1 2) = P 1 2).
Proof.
  split; [reflexivity|]. split.
  - destruct (C85_element_transform [] None [[XTranslate n5 None]] [Some (L "translate(5)")]) as (m & E & Hm).
    + constructor.
    + constructor; [|constructor]. constructor; [repeat constructor; discriminate|].
      apply (xl_cons [] (XTranslate n5 None) [] (L "5") [] []); try constructor; [|constructor].
      apply (al_cons [] n5 [] []); [constructor|constructor; constructor|congruence].
    + exists m. split; [exact E|]. specialize (Hm (1, 2)). cbn [fst snd] in Hm. rewrite Hm.
      cbn [fold_left acts_all fold_right acts fst snd]. f_equal.
      unfold value, numeral_value. cbn. change (1 + 5 = 6). ring.
  - eexists. split; [reflexivity|]. unfold apply. cbn. f_equal; match goal with |- ?u = ?v => change (@eq R u v) end; rnum; ring.
Qed.
