(** * PropsOutput2: output paths with "." and ".." in them (C128). *)
From Coq Require Import String Ascii ZArith NArith List Bool Arith Lia.
From Verif Require Import Num Str Svg SvgSpec SvgProofs SvgDoc SvgDocSpec SvgDocProofs2 CssSpec CssProofs CssProofs2 Output PropsOutput.
Import ListNotations.

(** ** Specification: the directory where a list of parts leads *)
Inductive enters : list pystr -> pystr -> list pystr -> Prop :=
| stay d c : c = [] \/ c = L "." -> enters d c d
| up_root : enters [] (L "..") []
| up d n : enters (d ++ [n]) (L "..") d
| down d c : name_ok c -> enters d c (d ++ [c]).
Inductive walks : list pystr -> list pystr -> list pystr -> Prop :=
| walk_end d : walks d [] d
| walk_on d c e r f : enters d c e -> walks e r f -> walks d (c :: r) f.
Definition no_slash (c : pystr) : Prop := ~ In "/"%char c.

(** every list of parts leads somewhere, and to one directory only *)
Lemma enters_some d c : no_slash c -> exists e, enters d c e.
Proof.
  intros H. destruct (str_eqb_spec c []) as [->|N1]; [exists d; constructor; auto|].
  destruct (str_eqb_spec c (L ".")) as [->|N2]; [exists d; constructor; auto|].
  destruct (str_eqb_spec c (L "..")) as [->|N3]; [|exists (d ++ [c]); constructor; repeat split; assumption].
  destruct (rev d) as [|n r] eqn:E.
  - apply (f_equal (@rev _)) in E. rewrite rev_involutive in E. cbn in E. subst. exists []. apply up_root.
  - apply (f_equal (@rev _)) in E. rewrite rev_involutive in E. cbn in E. subst. exists (rev r). apply up.
Qed.
Lemma enters_unique d c e e' : enters d c e -> enters d c e' -> e = e'.
Proof.
  intros H H'. remember d as d' eqn:D in H'. remember c as c' eqn:C in H'.
  destruct H as [d c Hc| |d n|d c (A1 & A2 & A3 & A4)]; destruct H' as [d' c' Hc'| |d' n'|d' c' (B1 & B2 & B3 & B4)]; subst; auto;
    try (destruct Hc as [Hc|Hc]; discriminate Hc); try (destruct Hc' as [Hc'|Hc']; discriminate Hc'); try congruence;
    try (destruct Hc; congruence); try (destruct Hc'; congruence); try (now destruct d); try (now destruct d').
  apply app_inj_tail in D. symmetry. apply D.
Qed.
Theorem C128_walks_some cs : Forall no_slash cs -> forall d, exists e, walks d cs e.
Proof.
  induction 1 as [|c cs H F IH]; intros d; [exists d; constructor|]. destruct (enters_some d c H) as (e & He). destruct (IH e) as (f & Hf). exists f. econstructor; eauto.
Qed.
Theorem C128_walks_unique d cs e e' : walks d cs e -> walks d cs e' -> e = e'.
Proof.
  intros H. revert e'. induction H as [d|d c e r f Hc _ IH]; intros e' H'; inversion H'; subst; auto. apply IH. rewrite (enters_unique _ _ _ _ Hc H2). assumption.
Qed.

Lemma enters_names d c e : Forall name_ok d -> enters d c e -> Forall name_ok e.
Proof.
  intros F H. destruct H as [d c Hc| |d n|d c Hc]; auto.
  - apply Forall_app in F. apply F.
  - apply Forall_app; split; [exact F|constructor; [exact Hc|constructor]].
Qed.
Lemma walks_names d cs e : Forall name_ok d -> walks d cs e -> Forall name_ok e.
Proof. intros F H. induction H as [|d c e r f Hc _ IH]; auto. apply IH. eapply enters_names; eauto. Qed.
Lemma norm_walks d cs e : Forall name_ok d -> walks d cs e -> norm_comps (rev d) cs = e.
Proof.
  intros F H. induction H as [d|d c e r f Hc _ IH]; [cbn; apply rev_involutive|]. specialize (IH (enters_names _ _ _ F Hc)).
  destruct Hc as [d c Hc| |d n|d c (A1 & A2 & A3 & A4)]; cbn [norm_comps].
  - replace (str_eqb c [] || str_eqb c (L ".")) with true; [exact IH|]. destruct Hc as [-> | ->]; reflexivity.
  - exact IH.
  - rewrite rev_app_distr. cbn [rev app]. apply Forall_app in F. destruct F as [_ F]. apply Forall_inv in F. destruct F as (_ & _ & _ & N).
    change (str_eqb (L "..") [] || str_eqb (L "..") (L ".")) with false. cbn [orb]. change (str_eqb (L "..") (L "..")) with true. cbn iota.
    destruct (str_eqb_spec n (L "..")); [congruence|exact IH].
  - destruct (str_eqb_spec c []); [congruence|]. destruct (str_eqb_spec c (L ".")); [congruence|]. destruct (str_eqb_spec c (L "..")); [congruence|].
    cbn [orb]. rewrite rev_app_distr in IH. exact IH.
Qed.
Lemma walks_down d cs e n : walks d cs e -> name_ok n -> walks d (cs ++ [n]) (e ++ [n]).
Proof.
  intros W Ng. induction W as [d|d c e r f Hc _ IH]; [|econstructor; [exact Hc|exact IH]]. cbn [app]. econstructor; [apply down; exact Ng|apply walk_end].
Qed.
Lemma split_plain cs : cs <> [] -> Forall no_slash cs -> split_on "/" (between cs) = cs.
Proof.
  induction cs as [|c [|d r] IH]; intros H F; [congruence| |]; inversion F as [|? ? Hc F']; subst.
  - cbn. now apply split_on_none.
  - change (between (c :: d :: r)) with (c ++ "/"%char :: between (d :: r)). rewrite split_on_cons by exact Hc. rewrite IH; [reflexivity|discriminate|exact F'].
Qed.
Lemma split_slashed_plain cs : cs <> [] -> Forall no_slash cs -> split_on "/" (slashed cs) = [] :: cs.
Proof.
  intros H F. rewrite <- between_slashed by exact H. change ("/"%char :: between cs) with ([] ++ "/"%char :: between cs). rewrite split_on_cons by (intros []). now rewrite split_plain.
Qed.
Lemma join_dir ds : L "/" ++ join_with "/" ds = dir_path ds.
Proof. rewrite join_between. destruct ds as [|d r]; [reflexivity|]. cbn [dir_path L app]. change (list_ascii_of_string "/") with ["/"%char]. cbn [app]. now apply between_slashed. Qed.
Lemma normpath_walks cs ds : Forall no_slash cs -> cs <> [] -> hd [] cs <> [] -> walks [] cs ds -> normpath (slashed cs) = dir_path ds.
Proof.
  intros F N H W. unfold normpath. rewrite (split_slashed_plain cs N F). cbn [norm_comps]. change (str_eqb [] [] || str_eqb [] (L ".")) with true. cbn iota.
  change (@nil pystr) with (rev (@nil pystr)) at 1. rewrite (norm_walks [] cs ds (Forall_nil _) W).
  destruct cs as [|[|x c] r]; [congruence|now cbn in H|]. inversion F as [|? ? Hc _]; subst.
  assert (Hx : x <> "/"%char) by (intros ->; apply Hc; now left). cbn [slashed flat_map app].
  rewrite <- join_dir. f_equal. destruct x as [[] [] [] [] [] [] [] []]; try reflexivity; congruence.
Qed.
(** An absolute path with empty parts, "." and ".." in it is the file in the directory to which they lead. *)
Theorem C128_dotted cwd home listdir b1 b2 cs ds given final : Forall blank b1 -> Forall blank b2 -> Forall no_slash cs ->
  cs = [] \/ hd [] cs <> [] -> walks [] cs ds -> file_meant given final -> text given ->
  create_pathname cwd home listdir (b1 ++ slashed (cs ++ [given]) ++ b2) false = Ok (slashed (ds ++ [final])).
Proof.
  intros H1 H2 F Hd W M T. pose proof (meant_name _ _ M) as Ng. pose proof (walks_names _ _ _ (Forall_nil _) W) as Fd.
  unfold create_pathname. rewrite strip_text; auto.
  - assert (E : expanduser home (slashed (cs ++ [given])) = slashed (cs ++ [given])) by (destruct cs; reflexivity). rewrite E.
    assert (A : abspath cwd (slashed (cs ++ [given])) = slashed (ds ++ [given])).
    { unfold abspath. transitivity (normpath (slashed (cs ++ [given]))); [destruct cs; reflexivity|].
      rewrite (normpath_walks (cs ++ [given]) (ds ++ [given])).
      - now destruct ds.
      - apply Forall_app; split; [exact F|constructor; [apply Ng|constructor]].
      - now destruct cs.
      - destruct cs as [|c r]; [apply Ng|]. destruct Hd as [Hd|Hd]; [discriminate|exact Hd].
      - apply walks_down; assumption. }
    rewrite A. apply (finish listdir given final); auto; [now apply basename_meant|eapply meant_no_slash; eauto].
  - destruct T as [_ (a & c & -> & Hc)]. split.
    + destruct cs; cbn; eexists _, _; (split; [reflexivity|intros Q; cbn in Q; intuition discriminate]).
    + exists (slashed cs ++ "/"%char :: a), c. split; [rewrite <- final_text, <- app_assoc; reflexivity|exact Hc].
Qed.
(** Two slashes at the beginning are kept (another root), three are one. *)
Theorem C128_two_slashes cwd : abspath cwd (L "//out/../a.ngc") = L "//a.ngc" /\ abspath cwd (L "///out/../a.ngc") = L "/a.ngc".
Proof. vm_compute. auto. Qed.
Theorem C128_dotted_example : walks [] [L ".."; L "out"; L ""; L "."; L "x"; L ".."; L "y"] [L "out"; L "y"] /\
  create_pathname (L "/") (L "/root") (fun _ => []) (L " /../out//./x/../y/part.nc ") false = Ok (L "/out/y/part.nc").
Proof.
  split; [|vm_compute; reflexivity].
  econstructor; [apply up_root|]. econstructor; [apply (down []); repeat split; cbn; intuition discriminate|]. cbn [app].
  econstructor; [apply stay; auto|]. econstructor; [apply stay; auto|]. econstructor; [apply down; repeat split; cbn; intuition discriminate|].
  econstructor; [apply up|]. econstructor; [apply down; repeat split; cbn; intuition discriminate|]. constructor.
Qed.
(** The same for a path that starts in the current directory. *)
Lemma walks_all ds : Forall name_ok ds -> forall d, walks d ds (d ++ ds).
Proof.
  induction 1 as [|c ds Hc F IH]; intros d; [rewrite app_nil_r; constructor|]. econstructor; [apply down; exact Hc|].
  replace (d ++ c :: ds) with ((d ++ [c]) ++ ds) by (rewrite <- app_assoc; reflexivity). apply IH.
Qed.
Lemma walks_app d cs e ds f : walks d cs e -> walks e ds f -> walks d (cs ++ ds) f.
Proof. induction 1 as [|d c e r g Hc _ IH]; intros W; [exact W|]. cbn [app]. econstructor; [exact Hc|now apply IH]. Qed.
Theorem C128_dotted_relative ds0 home listdir b1 b2 cs ds given final : Forall blank b1 -> Forall blank b2 -> Forall name_ok ds0 -> Forall no_slash cs ->
  hd given cs <> [] -> walks ds0 cs ds -> file_meant given final -> text (between (cs ++ [given])) ->
  ~ (exists r, between (cs ++ [given]) = "~"%char :: r) ->
  create_pathname (dir_path ds0) home listdir (b1 ++ between (cs ++ [given]) ++ b2) false = Ok (slashed (ds ++ [final])).
Proof.
  intros H1 H2 F0 F Hd W M T Ht. pose proof (meant_name _ _ M) as Ng. pose proof (walks_names _ _ _ F0 W) as Fd.
  unfold create_pathname. rewrite strip_text; auto.
  assert (E1 : exists c r, between (cs ++ [given]) = c :: r /\ c <> "/"%char /\ c <> "~"%char).
  { destruct T as [(c & r & E & _) _]. exists c, r. split; [exact E|]. split; [|intros ->; apply Ht; eauto].
    assert (Hw : exists w ws, cs ++ [given] = w :: ws /\ w <> [] /\ ~ In "/"%char w).
    { destruct cs as [|w ws]; [exists given, []; split; [reflexivity|split; apply Ng]|]. exists w, (ws ++ [given]). split; [reflexivity|]. split; [exact Hd|]. now apply Forall_inv in F. }
    destruct Hw as (w & ws & Q & W1 & W2). rewrite Q in E. destruct w as [|x w]; [congruence|].
    intros ->. apply W2. left. destruct ws; cbn in E; now injection E. }
  destruct E1 as (c & r & E & N1 & N2).
  assert (X : expanduser home (between (cs ++ [given])) = between (cs ++ [given])).
  { rewrite E. unfold expanduser. destruct c as [[] [] [] [] [] [] [] []]; try reflexivity. congruence. }
  rewrite X. unfold abspath.
  assert (Y : match between (cs ++ [given]) with "/"%char :: _ => between (cs ++ [given]) | _ => path_join (dir_path ds0) (between (cs ++ [given])) end
              = slashed (ds0 ++ cs ++ [given])).
  { transitivity (path_join (dir_path ds0) (between (cs ++ [given]))).
    - rewrite E. destruct c as [[] [] [] [] [] [] [] []]; reflexivity.
    - rewrite path_join_dir; auto; [|intros q Q; rewrite E in Q; congruence]. rewrite slashed_app. f_equal. apply between_slashed. now destruct cs. }
  rewrite Y. rewrite (normpath_walks _ (ds ++ [given])).
  - assert (Z : dir_path (ds ++ [given]) = slashed (ds ++ [given])) by now destruct ds. rewrite Z.
    apply (finish listdir given final); auto; [now apply basename_meant|eapply meant_no_slash; eauto].
  - repeat (apply Forall_app; split); auto; [|constructor; [apply Ng|constructor]]. eapply Forall_impl; [|exact F0]. intros a Ha. apply Ha.
  - now destruct ds0; destruct cs.
  - destruct ds0 as [|d0 r0]; [|apply Forall_inv in F0; apply F0]. destruct cs as [|c0 r0]; [apply Ng|exact Hd].
  - eapply walks_app; [apply (walks_all ds0 F0 [])|]. cbn [app]. apply walks_down; assumption.
Qed.
Theorem C128_dotted_relative_example :
  create_pathname (L "/home/me") (L "/root") (fun _ => []) (L "../out/./part.nc") false = Ok (L "/home/out/part.nc").
Proof. vm_compute. reflexivity. Qed.
