(** * PropsOutput: the name of the output file (C128). *)
From Coq Require Import String Ascii ZArith NArith List Bool Arith Lia.
From Verif Require Import Num Str Svg SvgSpec SvgProofs SvgDoc SvgDocSpec SvgDocProofs2 CssSpec CssProofs CssProofs2 Output.
Import ListNotations.

(** ** Specification *)
(** A name in a directory *)
Definition name_ok (c : pystr) : Prop := c <> [] /\ ~ In "/"%char c /\ c <> L "." /\ c <> L "..".
(** An absolute path: every name with a slash before it *)
Definition slashed (cs : list pystr) : pystr := flat_map (fun c => "/"%char :: c) cs.
(** a directory; "/" if there are no names *)
Definition dir_path (cs : list pystr) : pystr := match cs with [] => ["/"%char] | _ => slashed cs end.
(** names with slashes between them *)
Fixpoint between (cs : list pystr) : pystr := match cs with [] => [] | [c] => c | c :: r => c ++ "/"%char :: between r end.
(** A file name with an extension: something that is not just dots, then the last dot and what follows it *)
Definition with_ext (root ext : pystr) : Prop :=
  (exists c, In c root /\ c <> "."%char) /\ ~ In "/"%char (root ++ ext) /\ exists e, ext = "."%char :: e /\ ~ In "."%char e.
(** The file root_dddd.ext with these digits *)
Definition numbered (root ext : pystr) (n : Z) (f : pystr) : Prop :=
  exists ds, f = root ++ "_"%char :: map digit_text ds ++ ext /\ List.length ds = 4%nat /\ positional 0 ds = n.
(** A file of the series: root_, a digit, anything, ext *)
Definition in_series (root ext f : pystr) : Prop :=
  exists d m, f = root ++ "_"%char :: digit_text d :: m ++ ext.

(** ** Lemmas *)
Lemma split_on_none s : ~ In "/"%char s -> split_on "/" s = [s].
Proof.
  induction s as [|c s IH]; intros H; [reflexivity|]. cbn [split_on]. rewrite IH by (intros Q; apply H; now right).
  destruct (Ascii.eqb_spec c "/"); [exfalso; apply H; now left|reflexivity].
Qed.
Lemma split_on_cons s r : ~ In "/"%char s -> split_on "/" (s ++ "/"%char :: r) = s :: split_on "/" r.
Proof.
  induction s as [|c s IH]; intros H.
  - cbn [app split_on]. destruct (split_on "/" r) as [|w ws] eqn:E; [|reflexivity].
    exfalso. destruct r as [|x r]; [discriminate|]. cbn [split_on] in E. destruct (split_on "/" r); [discriminate|]. now destruct (Ascii.eqb x "/").
  - cbn [app split_on]. rewrite IH by (intros Q; apply H; now right).
    destruct (Ascii.eqb_spec c "/"); [exfalso; apply H; now left|reflexivity].
Qed.
Lemma between_slashed cs : cs <> [] -> "/"%char :: between cs = slashed cs.
Proof.
  induction cs as [|c [|d r] IH]; intros H; [congruence| |].
  - cbn. now rewrite app_nil_r.
  - change (between (c :: d :: r)) with (c ++ "/"%char :: between (d :: r)). rewrite IH by discriminate. reflexivity.
Qed.
Lemma join_between cs : join_with "/" cs = between cs.
Proof. induction cs as [|c [|d r] IH]; [reflexivity..|]. change (join_with "/" (c :: d :: r)) with (c ++ "/"%char :: join_with "/" (d :: r)). now rewrite IH. Qed.
Lemma split_between cs : cs <> [] -> Forall name_ok cs -> split_on "/" (between cs) = cs.
Proof.
  induction cs as [|c [|d r] IH]; intros H F; [congruence| |]; inversion F as [|? ? (_ & Hc & _) F']; subst.
  - cbn. now apply split_on_none.
  - change (between (c :: d :: r)) with (c ++ "/"%char :: between (d :: r)). rewrite split_on_cons by exact Hc. rewrite IH; [reflexivity|discriminate|exact F'].
Qed.
Lemma norm_ok cs : Forall name_ok cs -> forall acc, norm_comps acc cs = rev acc ++ cs.
Proof.
  induction 1 as [|c cs (H1 & H2 & H3 & H4) F IH]; intros acc; cbn [norm_comps]; [now rewrite app_nil_r|].
  destruct (str_eqb_spec c []); [congruence|].
  destruct (str_eqb_spec c (L ".")); [congruence|].
  destruct (str_eqb_spec c (L "..")); [congruence|].
  cbn [orb]. rewrite IH. cbn [rev]. now rewrite <- app_assoc.
Qed.
Lemma normpath_slashed cs : cs <> [] -> Forall name_ok cs -> normpath (slashed cs) = slashed cs.
Proof.
  intros H F. unfold normpath. rewrite <- between_slashed by exact H.
  assert (E : split_on "/" ("/"%char :: between cs) = [] :: cs).
  { change ("/"%char :: between cs) with ([] ++ "/"%char :: between cs). rewrite split_on_cons by (intros []). now rewrite split_between. }
  rewrite E. cbn [norm_comps]. replace (str_eqb [] [] || str_eqb [] (L ".")) with true by reflexivity. rewrite norm_ok by exact F. cbn [rev app].
  rewrite join_between.
  destruct cs as [|c cs]; [congruence|]. inversion F as [|? ? (H1 & H2 & _) _]; subst. destruct c as [|x c]; [congruence|].
  assert (x <> "/"%char) as Hx by (intros ->; apply H2; now left).
  assert (exists t, between ((x :: c) :: cs) = x :: t) as [t ->] by (destruct cs; cbn; eauto).
  assert (forall A (a b : A), match x with "/"%char => a | _ => b end = b) as Hm.
  { intros. destruct x as [[] [] [] [] [] [] [] []]; try reflexivity. congruence. }
  destruct x as [[] [] [] [] [] [] [] []]; try reflexivity; congruence.
Qed.
Lemma slashed_app a b : slashed (a ++ b) = slashed a ++ slashed b.
Proof. apply flat_map_app. Qed.

Lemma eq_slash {A} (x : ascii) (a b : A) : x <> "/"%char -> match x with "/"%char => a | _ => b end = b.
Proof. intros H. destruct x as [[] [] [] [] [] [] [] []]; try reflexivity. congruence. Qed.
Lemma rstrip_none s c : c <> "/"%char -> rstrip_slash (s ++ [c]) = s ++ [c].
Proof.
  intros H. unfold rstrip_slash. rewrite rev_app_distr. cbn [rev app drop_slashes]. rewrite eq_slash by exact H.
  cbn [rev]. now rewrite rev_involutive.
Qed.
(** a list that does not end in a slash *)
Definition no_final_slash (s : pystr) : Prop := exists a c, s = a ++ [c] /\ c <> "/"%char.
Lemma slashed_end cs : cs <> [] -> Forall name_ok cs -> no_final_slash (slashed cs).
Proof.
  intros H F. destruct (exists_last H) as (r & c & ->). apply Forall_app in F as [_ F]. inversion F as [|? ? (H1 & H2 & _) _]; subst.
  destruct (exists_last H1) as (a & x & ->). exists (slashed r ++ "/"%char :: a), x. rewrite slashed_app. split.
  - cbn. rewrite app_nil_r, <- app_assoc. reflexivity.
  - intros ->. apply H2, in_or_app. right. now left.
Qed.
Lemma path_join_dir cs b : Forall name_ok cs -> (forall r, b <> "/"%char :: r) -> path_join (dir_path cs) b = slashed cs ++ "/"%char :: b.
Proof.
  intros F Hb. unfold path_join.
  assert (forall A (x y : A), match b with "/"%char :: _ => x | _ => y end = y) as Hm.
  { intros. destruct b as [|c b]; [reflexivity|]. apply eq_slash. intros ->. now apply (Hb b). }
  rewrite Hm. destruct cs as [|c cs]; [reflexivity|]. cbn [dir_path].
  destruct (slashed_end (c :: cs) ltac:(discriminate) F) as (a & x & -> & Hx).
  rewrite rev_app_distr. cbn [rev app]. rewrite eq_slash by exact Hx. reflexivity.
Qed.
Lemma last_part_slash h t : ~ In "/"%char t -> last_part (h ++ "/"%char :: t) = (h ++ ["/"%char], t).
Proof.
  intros Ht. assert (E : last_part t = ([], t)).
  { induction t as [|c t IH]; [reflexivity|]. cbn [last_part]. rewrite IH by (intros Q; apply Ht; now right).
    destruct (Ascii.eqb_spec c "/"); [exfalso; apply Ht; now left|reflexivity]. }
  induction h as [|c h IH].
  - cbn [app last_part]. rewrite E. reflexivity.
  - cbn [app last_part]. rewrite IH. destruct h; reflexivity.
Qed.
Lemma split_slashed ds b : Forall name_ok ds -> ~ In "/"%char b -> path_split (slashed (ds ++ [b])) = (dir_path ds, b).
Proof.
  intros F Hb. unfold path_split. rewrite slashed_app. cbn [slashed flat_map app]. rewrite app_nil_r, last_part_slash by exact Hb.
  f_equal. destruct ds as [|d ds]; [reflexivity|].
  replace (forallb _ _) with false.
  - cbn [dir_path]. destruct (slashed_end (d :: ds) ltac:(discriminate) F) as (a & x & -> & Hx). unfold rstrip_slash.
    rewrite rev_app_distr. cbn [rev app drop_slashes]. rewrite rev_app_distr. cbn [rev app drop_slashes]. rewrite eq_slash by exact Hx. cbn [rev]. now rewrite rev_involutive.
  - symmetry. apply not_true_iff_false. intros Q. rewrite forallb_forall in Q. inversion F as [|? ? (H1 & H2 & _) _]; subst.
    destruct d as [|x d]; [congruence|]. specialize (Q x). rewrite Ascii.eqb_eq in Q. rewrite Q in H2; [apply H2; now left|]. cbn. auto.
Qed.
Lemma splitext_ok root ext : with_ext root ext -> splitext (root ++ ext) = (root, ext).
Proof.
  intros ((c & Hc1 & Hc2) & _ & e & -> & He). unfold splitext.
  assert (E : last_dot (root ++ "."%char :: e) = Some (root, "."%char :: e)).
  { assert (last_dot e = None) as E1.
    { clear -He. induction e as [|x e IH]; [reflexivity|]. cbn [last_dot]. rewrite IH by (intros Q; apply He; now right).
      destruct (Ascii.eqb_spec x "."); [exfalso; apply He; now left|reflexivity]. }
    clear -E1. induction root as [|x r IH]; cbn [app last_dot]; [now rewrite E1|now rewrite IH]. }
  rewrite E. replace (forallb _ _) with false; [reflexivity|]. symmetry. apply not_true_iff_false. intros Q.
  rewrite forallb_forall in Q. apply Q in Hc1. apply Ascii.eqb_eq in Hc1. congruence.
Qed.
Lemma splitext_no_dot root : ~ In "."%char root -> splitext root = (root, []).
Proof.
  intros H. unfold splitext. replace (last_dot root) with (@None (pystr * pystr)); [reflexivity|]. symmetry.
  induction root as [|x r IH]; [reflexivity|]. cbn [last_dot]. rewrite IH by (intros Q; apply H; now right).
  destruct (Ascii.eqb_spec x "."); [exfalso; apply H; now left|reflexivity].
Qed.

(** ** C128: the path.  The file asked for, and the file meant: with the extension .ngc if it has none. *)
Inductive file_meant : pystr -> pystr -> Prop :=
| has_extension root ext : with_ext root ext -> file_meant (root ++ ext) (root ++ ext)
| no_extension root : root <> [] -> ~ In "/"%char root -> ~ In "."%char root -> file_meant root (root ++ L ".ngc").
(** A text between blanks *)
Definition text (s : pystr) : Prop := (exists c r, s = c :: r /\ ~ blank c) /\ (exists a c, s = a ++ [c] /\ ~ blank c).

Lemma not_ws c : ~ blank c -> is_ws c = false.
Proof.
  intros H. apply not_true_iff_false. intros Q. apply H. unfold blank. unfold is_ws in Q.
  destruct c as [[] [] [] [] [] [] [] []]; cbn in Q; try discriminate Q; cbn; intuition congruence.
Qed.
Lemma strip_text b1 s b2 : Forall blank b1 -> Forall blank b2 -> text s -> strip (b1 ++ s ++ b2) = s.
Proof.
  intros H1 H2 ((c & r & E1 & E2) & a & d & E3 & E4). apply CssProofs.strip_word; auto using blank_forall.
  - exists c, r. split; [exact E1|now apply not_ws].
  - exists d, a. split; [exact E3|now apply not_ws].
Qed.
Lemma meant_name given final : file_meant given final -> name_ok given.
Proof.
  intros [root ext ((c & H1 & H2) & H3 & e & -> & H4)|root H1 H2 H3].
  - split; [destruct root; discriminate|]. split; [exact H3|]. split; intros Q; apply H2;
      (assert (Q' : In c (root ++ "."%char :: e)) by (apply in_or_app; now left)); rewrite Q in Q'; cbn in Q'; intuition congruence.
  - split; [exact H1|]. split; [exact H2|]. split; intros ->; apply H3; cbn; auto.
Qed.
Lemma basename_meant given final files d e : file_meant given final -> e = L ".ngc" -> create_basename given false files d e = Ok final.
Proof.
  intros [root ext H|root H1 H2 H3] ->; unfold create_basename.
  - rewrite splitext_ok by exact H. destruct H as ((c & H1 & H2) & _ & x & -> & _). destruct root; [destruct H1|reflexivity].
  - rewrite splitext_no_dot by exact H3. destruct root; [congruence|reflexivity].
Qed.
Lemma abspath_slashed cwd cs : cs <> [] -> Forall name_ok cs -> abspath cwd (slashed cs) = slashed cs.
Proof. intros H F. unfold abspath. destruct cs as [|c cs]; [congruence|]. change (slashed (c :: cs)) with ("/"%char :: c ++ slashed cs). cbn iota. now apply (normpath_slashed (c :: cs)). Qed.
Lemma finish listdir given final app ds r : file_meant given final -> Forall name_ok ds ->
  create_basename given app (listdir (dir_path ds)) (L "output") (L ".ngc") = Ok r -> ~ (exists x, r = "/"%char :: x) ->
  (let '(filedir, basename) := path_split (slashed (ds ++ [given])) in
   rbind (create_basename basename app (listdir filedir) (L "output") (L ".ngc")) (fun b => Ok (path_join filedir b))) = Ok (slashed (ds ++ [r])).
Proof.
  intros M F B Hr. destruct (meant_name _ _ M) as (_ & Hs & _). rewrite split_slashed by auto. rewrite B. cbn [rbind].
  rewrite path_join_dir; [|exact F|intros x ->; apply Hr; now exists x]. rewrite slashed_app. cbn. now rewrite app_nil_r.
Qed.
Lemma meant_no_slash given final : file_meant given final -> ~ exists x, final = "/"%char :: x.
Proof.
  intros [root ext ((c & H1 & H2) & H3 & _)|root H1 H2 H3] (x & Q).
  - apply H3. rewrite Q. now left.
  - destruct root as [|y r]; [congruence|]. injection Q as -> _. apply H2. now left.
Qed.
Lemma final_text a c : slashed a ++ "/"%char :: c = slashed (a ++ [c]).
Proof. rewrite slashed_app. cbn. now rewrite app_nil_r. Qed.

(** An absolute path is kept, with the default extension if it has none. *)
Theorem C128_absolute cwd home listdir b1 b2 ds given final : Forall blank b1 -> Forall blank b2 -> Forall name_ok ds ->
  file_meant given final -> text given ->
  create_pathname cwd home listdir (b1 ++ slashed (ds ++ [given]) ++ b2) false = Ok (slashed (ds ++ [final])).
Proof.
  intros H1 H2 F M T. unfold create_pathname. rewrite strip_text; auto.
  - assert (E : expanduser home (slashed (ds ++ [given])) = slashed (ds ++ [given])) by (destruct ds; reflexivity). rewrite E.
    rewrite abspath_slashed; [|now destruct ds|apply Forall_app; split; [exact F|constructor; [eapply meant_name; eauto|constructor]]].
    apply (finish listdir given final); auto; [now apply basename_meant|eapply meant_no_slash; eauto].
  - destruct T as [_ (a & c & -> & Hc)]. split.
    + destruct ds; cbn; eexists _, _; (split; [reflexivity|intros Q; cbn in Q; intuition discriminate]).
    + exists (slashed ds ++ "/"%char :: a), c. split; [rewrite <- final_text, <- app_assoc; reflexivity|exact Hc].
Qed.
(** Any other path starts in the current directory ... *)
Theorem C128_relative cs home listdir b1 b2 ds given final : Forall blank b1 -> Forall blank b2 -> Forall name_ok cs -> Forall name_ok ds ->
  file_meant given final -> text (between (ds ++ [given])) -> ~ (exists r, between (ds ++ [given]) = "~"%char :: r) ->
  create_pathname (dir_path cs) home listdir (b1 ++ between (ds ++ [given]) ++ b2) false = Ok (slashed (cs ++ ds ++ [final])).
Proof.
  intros H1 H2 Fc F M T Ht. unfold create_pathname. rewrite strip_text; auto.
  assert (F' : Forall name_ok (ds ++ [given])) by (apply Forall_app; split; [exact F|constructor; [eapply meant_name; eauto|constructor]]).
  assert (N0 : ds ++ [given] <> []) by now destruct ds.
  assert (E1 : exists c r, between (ds ++ [given]) = c :: r /\ c <> "/"%char /\ c <> "~"%char).
  { destruct T as [(c & r & E & _) _]. exists c, r. split; [exact E|]. split; [|intros ->; apply Ht; eauto].
    destruct (ds ++ [given]) as [|w ws]; [congruence|]. inversion F' as [|? ? (W1 & W2 & _) _]; subst. destruct w as [|x w]; [congruence|].
    intros ->. apply W2. left. destruct ws; cbn in E; now injection E. }
  destruct E1 as (c & r & E & N1 & N2).
  assert (X : expanduser home (between (ds ++ [given])) = between (ds ++ [given])).
  { rewrite E. unfold expanduser. destruct c as [[] [] [] [] [] [] [] []]; try reflexivity. congruence. }
  rewrite X. unfold abspath.
  assert (Y : match between (ds ++ [given]) with "/"%char :: _ => between (ds ++ [given]) | _ => path_join (dir_path cs) (between (ds ++ [given])) end
              = slashed (cs ++ ds ++ [given])).
  { transitivity (path_join (dir_path cs) (between (ds ++ [given]))).
    - rewrite E. destruct c as [[] [] [] [] [] [] [] []]; reflexivity.
    - rewrite path_join_dir; auto; [|intros q Q; rewrite E in Q; congruence]. rewrite slashed_app. f_equal. now apply between_slashed. }
  rewrite Y, normpath_slashed; [|now destruct cs|apply Forall_app; auto].
  rewrite app_assoc. rewrite (finish listdir given final false (cs ++ ds) final); auto; [now rewrite <- app_assoc|apply Forall_app; auto|now apply basename_meant|eapply meant_no_slash; eauto].
Qed.
(** ... and one that starts with ~/ in the home directory. *)
Theorem C128_home cwd hs listdir b1 b2 ds given final : Forall blank b1 -> Forall blank b2 -> Forall name_ok hs -> Forall name_ok ds ->
  file_meant given final -> text given ->
  create_pathname cwd (dir_path hs) listdir (b1 ++ ("~"%char :: slashed (ds ++ [given])) ++ b2) false = Ok (slashed (hs ++ ds ++ [final])).
Proof.
  intros H1 H2 Fh F M T. unfold create_pathname.
  assert (F' : Forall name_ok (ds ++ [given])) by (apply Forall_app; split; [exact F|constructor; [eapply meant_name; eauto|constructor]]).
  assert (N0 : ds ++ [given] <> []) by now destruct ds.
  rewrite strip_text; auto.
  - assert (X : expanduser (dir_path hs) ("~"%char :: slashed (ds ++ [given])) = slashed (hs ++ ds ++ [given])).
    { destruct (ds ++ [given]) as [|w ws]; [congruence|]. change (expanduser (dir_path hs) ("~"%char :: slashed (w :: ws))) with (rstrip_slash (dir_path hs) ++ slashed (w :: ws)).
      rewrite slashed_app. f_equal. destruct hs as [|h hs]; [reflexivity|]. cbn [dir_path].
      destruct (slashed_end (h :: hs) ltac:(discriminate) Fh) as (a & x & -> & Hx). now apply rstrip_none. }
    rewrite X, abspath_slashed; [|now destruct hs|apply Forall_app; auto].
    rewrite app_assoc. rewrite (finish listdir given final false (hs ++ ds) final); auto; [now rewrite <- app_assoc|apply Forall_app; auto|now apply basename_meant|eapply meant_no_slash; eauto].
  - destruct T as [_ (a & c & -> & Hc)]. split.
    + eexists _, _. split; [reflexivity|intros Q; cbn in Q; intuition discriminate].
    + exists ("~"%char :: slashed ds ++ "/"%char :: a), c. split; [rewrite <- final_text; cbn; rewrite <- app_assoc; reflexivity|exact Hc].
Qed.

(** ** The numeric suffix *)
Lemma after_iff p s r : after p s = Some r <-> s = p ++ r.
Proof.
  revert s. induction p as [|a p IH]; intros s; cbn [after app].
  - split; [intros [= ->]; reflexivity|intros ->; reflexivity].
  - destruct s as [|b s]; [split; discriminate|]. destruct (Ascii.eqb_spec a b) as [->|N0].
    + rewrite IH. split; [intros ->; reflexivity|now intros [= ->]].
    + split; [discriminate|intros [= ? _]; congruence].
Qed.
Lemma digit_char_iff c : is_digit c = true <-> exists d, c = digit_text d.
Proof.
  split.
  - destruct c as [[] [] [] [] [] [] [] []]; cbn; intros Q; try discriminate Q;
      first [exists D0; reflexivity | exists D1; reflexivity | exists D2; reflexivity | exists D3; reflexivity | exists D4; reflexivity | exists D5; reflexivity | exists D6; reflexivity | exists D7; reflexivity | exists D8; reflexivity | exists D9; reflexivity].
  - intros [[] ->]; reflexivity.
Qed.
Lemma match_iff root ext f : fn_match root ext f = true <-> in_series root ext f.
Proof.
  unfold fn_match, in_series. split.
  - destruct (after (root ++ L "_") f) as [[|c r]|] eqn:E; try discriminate. intros Q. apply andb_true_iff in Q as [Q1 Q2].
    apply after_iff in E as ->. apply digit_char_iff in Q1 as [d ->].
    destruct (after (rev ext) (rev r)) as [m|] eqn:E; [|discriminate]. apply after_iff in E. exists d, (rev m).
    rewrite <- app_assoc. cbn. f_equal. f_equal. f_equal. rewrite <- (rev_involutive r), E, rev_app_distr, rev_involutive. reflexivity.
  - intros (d & m & ->).
    assert (E : after (root ++ L "_") (root ++ "_"%char :: digit_text d :: m ++ ext) = Some (digit_text d :: m ++ ext)) by (apply after_iff; rewrite <- app_assoc; reflexivity).
    rewrite E. assert (is_digit (digit_text d) = true) as -> by (apply digit_char_iff; eauto). cbn [andb].
    rewrite rev_app_distr. assert (after (rev ext) (rev ext ++ rev m) = Some (rev m)) as -> by now apply after_iff. reflexivity.
Qed.
Lemma root_cases root ext : with_ext root ext -> root <> [] /\ ext <> [].
Proof. intros ((c & H & _) & _ & e & -> & _). split; [now destruct root|discriminate]. Qed.
Lemma basename_suffix root ext files d e : with_ext root ext ->
  create_basename (root ++ ext) true files d e =
  match rev (filter (fn_match root ext) files) with
  | last_file :: _ =>
      let '(r, x) := splitext last_file in
      if Nat.ltb 4 (List.length r) then
        let suffix := match py_int (strip (last4 r)) with Ok n => (n + 1)%Z | Raise _ => 0%Z end in
        Ok (but_last4 r ++ pad4 suffix ++ x)
      else Raise UnboundLocalError
  | [] => Ok (root ++ L "_0000" ++ ext)
  end.
Proof.
  intros H. unfold create_basename. rewrite splitext_ok by exact H. destruct (root_cases _ _ H) as [H1 H2].
  destruct root; [congruence|]. destruct ext; [congruence|]. reflexivity.
Qed.
(** No file of the series: the first number is 0000, and there is no such file. *)
Theorem C128_first root ext files d e : with_ext root ext -> (forall f, In f files -> ~ in_series root ext f) ->
  exists f, create_basename (root ++ ext) true files d e = Ok f /\ numbered root ext 0 f /\ ~ In f files.
Proof.
  intros H N0. rewrite basename_suffix by exact H.
  assert (E : filter (fn_match root ext) files = []).
  { destruct (filter (fn_match root ext) files) as [|f l] eqn:Q; [reflexivity|]. exfalso.
    assert (I0 : In f (filter (fn_match root ext) files)) by (rewrite Q; now left). apply filter_In in I0 as [I1 I2].
    apply (N0 f I1). now apply match_iff. }
  rewrite E. eexists. split; [reflexivity|]. split.
  - exists [D0; D0; D0; D0]. auto.
  - intros Q. apply (N0 _ Q). exists D0, (L "000"). reflexivity.
Qed.
Lemma numbered_ext root ext n f : with_ext root ext -> numbered root ext n f ->
  exists ds, f = (root ++ "_"%char :: map digit_text ds) ++ ext /\ List.length ds = 4%nat /\ positional 0 ds = n /\ with_ext (root ++ "_"%char :: map digit_text ds) ext.
Proof.
  intros ((c & H1 & H2) & H3 & H4) (ds & -> & L4 & <-). exists ds. rewrite <- app_assoc. split; [reflexivity|]. split; [exact L4|]. split; [reflexivity|].
  split; [exists c; split; [apply in_or_app; now left|exact H2]|]. split; [|exact H4].
  rewrite <- app_assoc. intros Q. apply H3. apply in_app_or in Q as [Q|[Q|Q]]; [apply in_or_app; now left|discriminate|].
  apply in_app_or in Q as [Q|Q]; [|apply in_or_app; now right]. exfalso. apply in_map_iff in Q as ([] & Q & _); discriminate Q.
Qed.
Lemma positional_le ds : forall a, (0 <= a -> a * 10 ^ Z.of_nat (List.length ds) <= positional a ds < (a + 1) * 10 ^ Z.of_nat (List.length ds))%Z.
Proof.
  induction ds as [|x ds IH]; intros a Ha; [cbn; lia|]. cbn [positional List.length]. rewrite Nat2Z.inj_succ, Z.pow_succ_r by lia.
  assert (0 <= digit_value x <= 9)%Z by (destruct x; cbn; lia). specialize (IH (10 * a + digit_value x)%Z ltac:(lia)).
  assert (0 < 10 ^ Z.of_nat (List.length ds))%Z by (apply Z.pow_pos_nonneg; lia). nia.
Qed.
Lemma pad4_digits n : (0 <= n < 10000)%Z -> exists ds, pad4 n = map digit_text ds /\ List.length ds = 4%nat /\ positional 0 ds = n.
Proof.
  intros Hn. unfold pad4. replace (n <? 0)%Z with false by (symmetry; apply Z.ltb_ge; lia). cbn [app].
  destruct (N_text_digits (Z.abs_N n)) as (ds & E & N0 & V). change (L (N_text (Z.abs_N n))) with (list_ascii_of_string (N_text (Z.abs_N n))). rewrite E, map_length.
  exists (repeat D0 (4 - List.length ds) ++ ds).
  assert (Len : (List.length ds <= 4)%nat).
  { destruct (Nat.le_gt_cases (List.length ds) 4) as [?|Hgt]; [assumption|exfalso].
    (* no leading zero: at most as many digits as needed *)
    assert (Hl : List.length ds = ndigits (Z.abs_N n)).
    { destruct (fixed_digits (ndigits (Z.abs_N n)) (Z.abs_N n) "") as (es & F1 & F2 & _).
      unfold N_text in E. rewrite E in F1. cbn [list_ascii_of_string] in F1. rewrite app_nil_r in F1.
      apply (f_equal (@List.length ascii)) in F1. rewrite !map_length in F1. congruence. }
    assert (Hb : (ndigits (Z.abs_N n) <= 4)%nat); [|lia].
    assert (Hx : (Z.abs_N n < 10000)%N) by lia. revert Hx. generalize (Z.abs_N n). clear. intros x Hx. unfold ndigits.
    assert (G : forall k fuel y, (y < 10 ^ N.of_nat (S k))%N -> (ndigits_aux fuel y <= S k)%nat).
    { induction k as [|k IH]; intros fuel y Hy; (destruct fuel; cbn [ndigits_aux]; [lia|]); destruct (N.ltb_spec y 10); try lia.
      apply le_n_S, IH. apply N.div_lt_upper_bound; [lia|]. rewrite Nat2N.inj_succ, N.pow_succ_r' in Hy. exact Hy. }
    apply G. exact Hx. }
  split; [|split].
  - rewrite map_app. f_equal. clear. induction (4 - List.length ds) as [|k IH]; [reflexivity|]. cbn. now rewrite IH.
  - rewrite app_length, repeat_length. lia.
  - rewrite positional_app. assert (positional 0 (repeat D0 (4 - List.length ds)) = 0)%Z as -> by (clear; induction (4 - List.length ds); [reflexivity|exact IHn]). rewrite V. lia.
Qed.
Lemma last_in {A} (l : list A) x t : rev l = x :: t -> In x l.
Proof. intros E. apply in_rev. rewrite E. now left. Qed.
(** All files of the series have four digits, and the one listed last has the highest number: the next number is used;
    it is higher than that of all files of the series, so there is no such file. *)
Theorem C128_next root ext files d e (number : pystr -> Z) f0 n0 : with_ext root ext ->
  (forall f, In f files -> in_series root ext f -> numbered root ext (number f) f) ->
  (exists a b, files = a ++ f0 :: b /\ Forall (fun f => ~ in_series root ext f) b) -> numbered root ext n0 f0 ->
  (forall f, In f files -> in_series root ext f -> number f <= n0)%Z -> (n0 < 9999)%Z ->
  exists f, create_basename (root ++ ext) true files d e = Ok f /\ numbered root ext (n0 + 1) f /\ ~ In f files.
Proof.
  intros H Hall (a & b & Ef & Hb) H0 Hmax Hn. rewrite basename_suffix by exact H.
  assert (E : rev (filter (fn_match root ext) files) = f0 :: rev (filter (fn_match root ext) a)).
  { assert (Hf0 : fn_match root ext f0 = true).
    { apply match_iff. destruct H0 as ([|x ds] & -> & Hl & _); [discriminate|]. exists x, (map digit_text ds). reflexivity. }
    assert (Eb : filter (fn_match root ext) b = []).
    { clear -Hb. induction Hb as [|f b Hf Hb IH]; [reflexivity|]. cbn [filter]. destruct (fn_match root ext f) eqn:Q; [exfalso; apply Hf; now apply match_iff|exact IH]. }
    rewrite Ef, filter_app. cbn [filter]. rewrite Hf0, Eb, rev_app_distr. reflexivity. }
  rewrite E. destruct (numbered_ext _ _ _ _ H H0) as (ds & -> & L4 & Ev & Hx). rewrite splitext_ok by exact Hx.
  assert (Len : List.length (root ++ "_"%char :: map digit_text ds) = (List.length root + 5)%nat) by (rewrite app_length; cbn; rewrite map_length, L4; lia).
  assert (Er : root <> []) by (exact (proj1 (root_cases _ _ H))).
  assert (Hr : (1 <= List.length root)%nat) by (destruct root; [congruence|cbn; lia]).
  rewrite Len. replace (Nat.ltb 4 (List.length root + 5)) with true by (symmetry; apply Nat.ltb_lt; lia).
  unfold last4, but_last4. rewrite Len.
  replace (root ++ "_"%char :: map digit_text ds) with ((root ++ ["_"%char]) ++ map digit_text ds) by now rewrite <- app_assoc.
  assert (Lr : (List.length root + 5 - 4)%nat = List.length (root ++ ["_"%char])) by (rewrite app_length; cbn; lia).
  rewrite Lr, skipn_app, firstn_app, skipn_all, firstn_all, Nat.sub_diag. cbn [skipn firstn app]. rewrite app_nil_r.
  assert (S0 : strip (map digit_text ds) = map digit_text ds).
  { pose proof (strip_digits [] ds [] (Forall_nil _) (Forall_nil _)) as Q. cbn [app] in Q. rewrite app_nil_r in Q. apply Q. now destruct ds. }
  rewrite S0. pose proof (py_int_text NoSign ds ltac:(now destruct ds)) as Q. cbn [sgn_text app signed] in Q. rewrite Q, Ev. clear Q.
  assert (P0 : (0 <= n0)%Z) by (rewrite <- Ev; apply (positional_le ds 0); lia).
  destruct (pad4_digits (n0 + 1) ltac:(lia)) as (es & E1 & E2 & E3). rewrite E1.
  eexists. split; [reflexivity|]. assert (Z0 : numbered root ext (n0 + 1) ((root ++ ["_"%char]) ++ map digit_text es ++ ext)) by (exists es; rewrite <- app_assoc; auto).
  split; [exact Z0|]. intros I0.
  assert (S1 : in_series root ext ((root ++ ["_"%char]) ++ map digit_text es ++ ext)).
  { destruct es as [|x es]; [discriminate|]. exists x, (map digit_text es). rewrite <- app_assoc. reflexivity. }
  pose proof (Hmax _ I0 S1) as Q. destruct (Hall _ I0 S1) as (gs & G1 & G2 & G3). rewrite <- app_assoc in G1. cbn [app] in G1.
  apply app_inv_head in G1. injection G1 as G1. assert (gs = es).
  { apply app_inv_tail in G1. clear -G1. revert gs G1. induction es as [|x es IH]; intros [|y gs] Q; try discriminate; [reflexivity|]. cbn in Q.
    injection Q as Q1 Q2. f_equal; [destruct x, y; try reflexivity; discriminate Q1|auto]. }
  subst. lia.
Qed.
(** The same for paths: the file named by the two theorems above, in the directory of the path. *)
Theorem C128_suffix_path cwd home listdir b1 b2 ds root ext n f : Forall blank b1 -> Forall blank b2 -> Forall name_ok ds -> with_ext root ext -> text (root ++ ext) ->
  create_basename (root ++ ext) true (listdir (dir_path ds)) (L "output") (L ".ngc") = Ok f -> numbered root ext n f ->
  create_pathname cwd home listdir (b1 ++ slashed (ds ++ [root ++ ext]) ++ b2) true = Ok (slashed (ds ++ [f])).
Proof.
  intros H1 H2 F W T B Nf. pose proof (has_extension root ext W) as M. unfold create_pathname. rewrite strip_text; auto.
  - assert (E : expanduser home (slashed (ds ++ [root ++ ext])) = slashed (ds ++ [root ++ ext])) by (destruct ds; reflexivity). rewrite E.
    rewrite abspath_slashed; [|now destruct ds|apply Forall_app; split; [exact F|constructor; [eapply meant_name; eauto|constructor]]].
    apply (finish listdir (root ++ ext) (root ++ ext)); auto. intros (x & ->). destruct Nf as (gs & Q & _). destruct W as ((c & I0 & _) & I1 & _).
    destruct root as [|y r]; [destruct I0|]. injection Q as <- _. apply I1. now left.
  - destruct T as [_ (a & c & -> & Hc)]. split.
    + destruct ds; cbn; eexists _, _; (split; [reflexivity|intros Q; cbn in Q; intuition discriminate]).
    + exists (slashed ds ++ "/"%char :: a), c. split; [rewrite <- final_text, <- app_assoc; reflexivity|exact Hc].
Qed.
(** ** What is not so.  The listing is not sorted by os.listdir, and an existing file is overwritten if a lower number is
    listed last ... *)
Theorem C128_order_refuted : exists files f, create_basename (L "out.ngc") true files (L "output") (L ".ngc") = Ok f /\ In f files.
Proof. exists [L "out_0001.ngc"; L "out_0000.ngc"], (L "out_0001.ngc"). split; [reflexivity|now left]. Qed.
(** ... also in a sorted listing, after number 9999 ... *)
Theorem C128_ten_thousand_refuted : exists files f, create_basename (L "out.ngc") true files (L "output") (L ".ngc") = Ok f /\ In f files /\
  numbered (L "out") (L ".ngc") 9999 (last files []).
Proof. exists [L "out_10000.ngc"; L "out_9999.ngc"], (L "out_10000.ngc"). split; [reflexivity|]. split; [now left|]. exists [D9; D9; D9; D9]. auto. Qed.
(** ... a number of other than four digits cuts off a part of the name ... *)
Theorem C128_short_number_refuted : exists files, create_basename (L "out.ngc") true files (L "output") (L ".ngc") = Ok (L "o0000.ngc").
Proof. exists [L "out_1.ngc"]. reflexivity. Qed.
(** ... or raises an exception. *)
Theorem C128_short_name_refuted : exists files, create_basename (L "a.ngc") true files (L "output") (L ".ngc") = Raise UnboundLocalError.
Proof. exists [L "a_0.ngc"]. reflexivity. Qed.
(** If the file name is missing, the default name is not used: the file is written beside the directory. *)
Theorem C128_missing_name_refuted home listdir : create_pathname (L "/home/me") home listdir (L "/tmp/") false = Ok (L "/tmp.ngc").
Proof. reflexivity. Qed.
(** If it is all missing, the default directory and name are not used either. *)
Theorem C128_empty_refuted home listdir : create_pathname (L "/home/me") home listdir [] false = Ok (L "/home/me.ngc").
Proof. reflexivity. Qed.
Theorem C128_example : create_pathname (L "/home/me") (L "/home/me") (fun _ => [L "x"; L "out_0003.ngc"; L "out_0007.ngc"; L "out"]) (L " ~/jobs/out ") true = Ok (L "/home/me/jobs/out_0008.ngc").
Proof. reflexivity. Qed.
(** The root directory alone: the default name. *)
Theorem C128_unnamed cwd home listdir : create_pathname cwd home listdir (L "/") false = Ok (L "/output.ngc").
Proof. reflexivity. Qed.
(** A directory alone: the file is not put into it but beside it. *)
Theorem C128_directory_refuted cwd home listdir : create_pathname cwd home listdir (L "/tmp/") false = Ok (L "/tmp.ngc").
Proof. reflexivity. Qed.
