(** * PropsInk4: the opacity and the height in the attributes of new layers (C126); the range of bounding boxes (C47).  Over R. *)
From Verif Require Import Num NumR Str Geom GeomR GeomSpec Svg SvgSpec SvgProofs SvgDoc SvgOut SvgOutSpec SvgOutProofs Ink Polygon PolySpec PropsPoly.
From Coq Require Import String Ascii ZArith NArith List Bool Lia Reals Lra.
Import ListNotations.
Local Open Scope R_scope.

(** The style of a layer with an opacity names the opacity, brought between 0 and 1, with two decimals. *)
Theorem C126_opacity (o : R) : exists m, numeral_ok m /\
  opacity_style (N:=ROps) o = (list_ascii_of_string "opacity: " ++ numeral_text m ++ [";"%char])%list /\
  Rabs (numeral_value (N:=ROps) m - Rmin (Rmax o 0) 1) <= 1 / 200.
Proof.
  destruct (fmt_numeral 2 (pymin (N:=ROps) (pymax (N:=ROps) o (of_Z 0)) (of_Z 1))) as (m & A & B & C). exists m. split; [exact A|]. split.
  - unfold opacity_style. unfold fmt_float in B. unfold L in *.
    assert (K : forall a b, list_ascii_of_string (a ++ b) = (list_ascii_of_string a ++ list_ascii_of_string b)%list).
    { clear. induction a as [|c a IH]; intros b; [reflexivity|]. cbn. now rewrite IH. }
    rewrite !K, B. reflexivity.
  - unfold near, V in C. replace (Rmin (Rmax o 0) 1) with (pymin (N:=ROps) (pymax (N:=ROps) o (of_Z 0)) (of_Z 1)); [cbn [pow] in C; lra|].
    unfold pymin, pymax. rnum. unfold Rmin, Rmax.
    destruct (Rle_dec o 0), (Rltb o 0) eqn:Q;
      try (apply Rltb_true in Q); try (apply Rltb_false in Q).
    all: repeat match goal with |- context[Rltb ?a ?b] => destruct (Rltb a b) eqn:?Q end; 
      repeat match goal with H : Rltb _ _ = true |- _ => apply Rltb_true in H | H : Rltb _ _ = false |- _ => apply Rltb_false in H end;
      repeat match goal with |- context[Rle_dec ?a ?b] => destruct (Rle_dec a b) end; lra.
Qed.
(** Heights of a million and more are written with an exponent and six digits, rounded. *)
Theorem C126_exponents :
  map (fun n => string_of_list_ascii (g_exponent false n)) [1000000; 1234567; 25000000; 99999951; 123456789012345]%N =
  ["1e+06"; "1.23457e+06"; "2.5e+07"; "1e+08"; "1.23457e+14"]%string.
Proof. vm_compute. reflexivity. Qed.

(** C47: the bounding box for all coordinates up to 10^308, one of them at least 10^-307 in each direction. *)
Lemma max_large : 10 ^ 308 <= FLT_MAX (N:=ROps).
Proof. unfold FLT_MAX. rnum. cbn [Rlit]. rewrite pow_IZR. apply IZR_le. vm_compute. discriminate. Qed.
Lemma min_small : FLT_MIN (N:=ROps) <= / 10 ^ 307.
Proof.
  unfold FLT_MIN. rnum. cbn [Rlit]. rewrite pow_IZR.
  assert (P1 : 0 < IZR (10 ^ Z.of_nat 307)) by (apply IZR_lt; vm_compute; reflexivity).
  assert (P2 : 0 < IZR (Z.pow_pos 10 324)) by (apply IZR_lt; vm_compute; reflexivity).
  apply (Rmult_le_reg_r (IZR (Z.pow_pos 10 324))); [exact P2|]. unfold Rdiv. rewrite Rmult_assoc, Rinv_l, Rmult_1_r by lra.
  apply (Rmult_le_reg_l (IZR (10 ^ Z.of_nat 307))); [exact P1|]. rewrite <- Rmult_assoc, Rinv_r, Rmult_1_l by lra.
  rewrite <- mult_IZR. apply IZR_le. vm_compute. discriminate.
Qed.
Theorem C47_bounding_box_range_partial (l : list Pt) : l <> [] ->
  (forall p, In p l -> px p <= 10 ^ 308 /\ py p <= 10 ^ 308) ->
  (exists p, In p l /\ / 10 ^ 307 <= px p) -> (exists p, In p l /\ / 10 ^ 307 <= py p) ->
  (forall p, In p l -> in_box (bounding_box l) p) /\
  (exists p, In p l /\ px p = px (b1 (bounding_box l))) /\ (exists p, In p l /\ py p = py (b1 (bounding_box l))) /\
  (exists p, In p l /\ px p = px (b2 (bounding_box l))) /\ (exists p, In p l /\ py p = py (b2 (bounding_box l))).
Proof.
  intros N A (p & P1 & P2) (q & Q1 & Q2). pose proof max_large as X. pose proof min_small as Y.
  apply C47_bounding_box_partial; auto.
  - intros r Hr. destruct (A r Hr) as [A1 A2]. split; eapply Rle_trans; eauto.
  - exists p. split; [exact P1|]. eapply Rle_trans; eauto.
  - exists q. split; [exact Q1|]. eapply Rle_trans; eauto.
Qed.
