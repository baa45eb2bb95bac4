(** * SvgOutProofs: lemmas for PropsSvgOut. *)
From Verif Require Import Num NumR Geom GeomR GeomSpec GeomSpec2 Bezier BezierSpec Str Svg SvgSpec SvgProofs SvgProofs2 SvgDocProofs2 GcodeR GeomSvg GeomSvgSpec SvgOut SvgOutSpec.
From Coq Require Import ZArith NArith Reals Lra Lia Bool List Ascii String.
Import ListNotations.
Local Open Scope R_scope.

(** ** Numbers *)
Lemma dec_text_numeral_n n neg mag : exists m, numeral_ok m /\ L (dec_text n (DFin neg mag)) = numeral_text m /\
  n_sgn m = (if neg then Minus else NoSign) /\ n_exp m = None /\ List.length (frac_digits m) = n /\
  positional 0 (n_int m ++ frac_digits m) = Z.of_N mag.
Proof.
  unfold dec_text, L. destruct (N_text_digits (mag / 10 ^ N.of_nat n)) as (ds & E1 & E2 & E3).
  destruct (fixed_digits n (mag mod 10 ^ N.of_nat n) "") as (fs & F1 & F2 & F3).
  exists (Numeral (if neg then Minus else NoSign) ds (Some fs) None).
  split; [|split; [|split; [|split; [|split]]]]; try reflexivity.
  - split; [|exact Logic.I]. cbn. destruct ds; [congruence|discriminate].
  - rewrite !las_app, E1, F1. unfold numeral_text. cbn [n_sgn n_int n_frac n_exp]. cbn [list_ascii_of_string].
    destruct neg; cbn [list_ascii_of_string sgn_text app]; rewrite !app_nil_r; reflexivity.
  - exact F2.
  - cbn [n_int frac_digits n_frac]. rewrite positional_app, positional_scale, E3, F2, F3.
    assert (10 ^ N.of_nat n <> 0)%N as NZ by (apply N.pow_nonzero; lia).
    rewrite N.mod_mod by exact NZ.
    rewrite (N.div_mod mag (10 ^ N.of_nat n)) at 3 by exact NZ.
    rewrite N2Z.inj_add, N2Z.inj_mul, N2Z.inj_pow, nat_N_Z. change (Z.of_N 10) with 10%Z. lia.
Qed.
Lemma Rlit_neg m n : Rlit m (- Z.of_nat n) = IZR m / 10 ^ n.
Proof.
  destruct n as [|k]; [cbn; lra|]. rewrite Nat2Z.inj_succ. unfold Z.succ.
  destruct (Z.of_nat k + 1)%Z as [|p|p] eqn:Q; [lia| |lia]. cbn [Z.opp Rlit]. f_equal.
  rewrite pow_IZR. f_equal. change (Z.pow_pos 10 p) with (10 ^ Z.pos p)%Z. rewrite <- Q. f_equal. lia.
Qed.
Definition V (m : numeral) : R := numeral_value (N:=ROps) m.
Lemma fmt_numeral n (x : R) : exists m, numeral_ok m /\ fmt_float (N:=ROps) n x = numeral_text m /\ near n x (V m).
Proof.
  destruct (dec_text_numeral_n n (Rltb x 0) (Z.abs_N (Zrnd (x * 10 ^ n)))) as (m & H1 & H2 & H3 & H4 & H5 & H6).
  exists m. split; [exact H1|]. split; [exact H2|].
  destruct (Rfmt_half n x) as (d & D & B). rewrite Rfmt_val in D. injection D as D.
  unfold near. replace (V m) with d; [exact B|]. subst d.
  unfold V, numeral_value. rewrite H6, H3, H5. unfold exponent. rewrite H4.
  change (0 - Z.of_nat n)%Z with (- Z.of_nat n)%Z. change (@lit ROps) with Rlit. rewrite Rlit_neg, N2Z.inj_abs_N.
  pose proof (pow10_pos n) as P10. pose proof (Zrnd_half (x * 10 ^ n)) as Hh.
  set (k := Zrnd (x * 10 ^ n)) in *. assert (- (1/2) <= IZR k - x * 10 ^ n <= 1/2) as Hh' by (unfold Rabs in Hh; destruct (Rcase_abs _); lra).
  destruct (Rltb x 0) eqn:Ex.
  - apply Rltb_true in Ex. assert (x * 10 ^ n < 0) by nra.
    assert (k <= 0)%Z. { destruct (Z_le_gt_dec k 0) as [Hk|Hk]; [exact Hk|]. exfalso.
      assert (1 <= k)%Z as Hk' by lia. apply IZR_le in Hk'. lra. }
    rewrite Z.abs_neq by lia. rewrite opp_IZR. change (IZR k / 10 ^ n = - (- IZR k / 10 ^ n)). field. lra.
  - apply Rltb_false in Ex. assert (0 <= x * 10 ^ n) by nra.
    assert (0 <= k)%Z. { destruct (Z_le_gt_dec 0 k) as [Hk|Hk]; [exact Hk|]. exfalso.
      assert (k <= -1)%Z as Hk' by lia. apply IZR_le in Hk'. lra. }
    rewrite Z.abs_eq by lia. reflexivity.
Qed.

(** ** Texts *)
Lemma join_app a b : a <> [] -> b <> [] -> join_blank (a ++ b) = (join_blank a ++ " "%char :: join_blank b)%list.
Proof.
  intros Ha Hb. induction a as [|t a IH]; [congruence|]. destruct a as [|u a].
  - cbn [app]. destruct b; [congruence|]. reflexivity.
  - change ((t :: u :: a) ++ b)%list with (t :: (u :: a) ++ b)%list.
    change (join_blank (t :: (u :: a) ++ b)) with (t ++ " "%char :: join_blank ((u :: a) ++ b))%list.
    rewrite IH by discriminate. change (join_blank (t :: u :: a)) with (t ++ " "%char :: join_blank (u :: a))%list.
    now rewrite <- app_assoc.
Qed.
Lemma spells_gap g l1 l2 t1 t2 : is_sep g -> l1 <> [] -> l2 <> [] -> spells l1 t1 -> spells l2 t2 -> spells (l1 ++ l2) (t1 ++ g :: t2).
Proof.
  intros Hg H1 H2 S1 S2. induction S1 as [|i t Ht|i j l gap t Hgap Hm S1 IH]; [congruence| |].
  - destruct l2 as [|j l2]; [congruence|]. rewrite <- app_assoc. change (t ++ g :: t2)%list with (t ++ [g] ++ t2)%list. rewrite (app_assoc t).
    apply (sp_next i j l2 (t ++ [g])); [apply Forall_app; split; [exact Ht|now constructor]| |exact S2].
    intros Q. now destruct t.
  - rewrite <- !app_assoc. apply sp_next; [exact Hgap|exact Hm|]. apply IH. discriminate.
Qed.
Lemma sep_blank : is_sep " "%char. Proof. unfold is_sep. cbn. tauto. Qed.
Lemma sep_comma : is_sep ","%char. Proof. unfold is_sep. cbn. tauto. Qed.
Lemma spells_one i : spells [i] (item_text i).
Proof. pose proof (sp_last i [] (Forall_nil _)) as H. now rewrite app_nil_r in H. Qed.
Lemma spells_num m t : t = numeral_text m -> spells [Num m] t.
Proof. intros ->. apply spells_one. Qed.
Lemma spells_cmd c l t : l <> [] -> spells l t -> spells (Cmd c :: l) (c :: " "%char :: t).
Proof. intros. apply (spells_gap " "%char [Cmd c] l [c] t sep_blank); auto; [discriminate|apply (spells_one (Cmd c))]. Qed.
Lemma spells_more (l1 l2 : list item) t1 t2 : l1 <> [] -> l2 <> [] -> spells l1 t1 -> spells l2 t2 -> spells (l1 ++ l2) (t1 ++ " "%char :: t2).
Proof. apply spells_gap, sep_blank. Qed.

Definition Vxy (p : xy numeral) : xy R := XY (V (xx p)) (V (yy p)).
Lemma point_written n (p : Pt) : exists q, Forall item_ok (xy_items q) /\ spells (xy_items q) (fmt_point n p) /\ near_xy n (at_xy p) (Vxy q).
Proof.
  destruct (fmt_numeral n (px p)) as (a & A1 & A2 & A3). destruct (fmt_numeral n (py p)) as (b & B1 & B2 & B3).
  exists (XY a b). split; [unfold xy_items; cbn [xx yy]; constructor; [exact A1|]; constructor; [exact B1|]; constructor|]. split; [|split; assumption].
  unfold fmt_point. rewrite A2, B2. apply (spells_gap ","%char [Num a] [Num b]); try discriminate; [apply sep_comma| |]; now apply spells_num.
Qed.
Lemma flag_written b : spells [Flag b] (fmt_flag b).
Proof. apply (spells_one (Flag b)). Qed.
Lemma xy_items_ne q : xy_items q <> []. Proof. discriminate. Qed.

(** ** Segments *)
Definition short_arcs (g : Gseg) : Prop := match g with GArc a => Rabs (sweep a) <= PI | GEArc _ => False | _ => True end.
(** A command that draws one piece, whatever came before. *)
Definition one_piece (c : pathcmd) (d : drawn ROps) : Prop :=
  forall st, exists st', sem_cmd c st = ([d], st') /\ start st' = start st.
Definition plain_cmd (c : pathcmd) : Prop :=
  cmd_ok c /\ match c with Segs _ f more => Forall plain_seg (f :: more) | Close _ => True end.
Lemma segment_written n (g : Gseg) : short_arcs g -> exists t c d e, segment_data n g = Ok t /\ t <> [] /\
  Forall item_ok (cmd_items c) /\ cmd_items c <> [] /\ plain_cmd c /\ spells (cmd_items c) (join_blank t) /\
  one_piece c e /\ drawn_as g d /\ near_drawn n d e.
Proof.
  intros Hs. destruct g as [l|a|b|]; [| | |destruct Hs].
  - destruct (point_written n (p2 l)) as (q & Q1 & Q2 & Q3).
    eexists _, (Segs false (Line q) []), (DLine (at_xy (p2 l))), (DLine (Vxy q)). split; [reflexivity|]. split; [discriminate|].
    split; [|split; [discriminate|split; [|split; [|split; [|split]]]]].
    + cbn [cmd_items flat_map seg_items letter]. rewrite app_nil_r. constructor; [unfold item_ok, is_letter; cbn; tauto|exact Q1].
    + split; repeat constructor.
    + cbn [cmd_items flat_map seg_items letter]. rewrite app_nil_r. apply spells_cmd; [discriminate|exact Q2].
    + intros st. eexists. split; [reflexivity|reflexivity].
    + reflexivity.
    + exact Q3.
  - destruct (point_written n (P (radius a) (radius a))) as (r & R1 & R2 & R3). destruct (fmt_numeral n 0) as (z & Z1 & Z2 & Z3).
    destruct (point_written n (ap2 a)) as (q & Q1 & Q2 & Q3).
    eexists _, (Segs false (Arc (xx r) (yy r) z false (negb (Rltb (sweep a) 0)) q) []),
      (DArc (radius a) (radius a) 0 false (negb (Rltb (sweep a) 0)) (at_xy (ap2 a))),
      (DArc (V (xx r)) (V (yy r)) (V z) false (negb (Rltb (sweep a) 0)) (Vxy q)). split; [reflexivity|]. split; [discriminate|].
    split; [|split; [discriminate|split; [|split; [|split; [|split]]]]].
    + cbn [cmd_items flat_map seg_items letter]. rewrite app_nil_r. constructor; [unfold item_ok, is_letter; cbn; tauto|].
      inversion R1 as [|? ? R1a R1b]; subst. inversion R1b; subst. repeat (constructor; [assumption || exact Logic.I|]). exact Q1.
    + split; repeat constructor.
    + cbn [cmd_items flat_map seg_items letter]. rewrite app_nil_r. apply spells_cmd; [discriminate|].
      change ([Num (xx r); Num (yy r); Num z; Flag false; Flag (negb (Rltb (sweep a) 0))] ++ xy_items q)%list
        with (xy_items r ++ [Num z] ++ [Flag false] ++ [Flag (negb (Rltb (sweep a) 0))] ++ xy_items q)%list.
      apply spells_more; try discriminate; [exact R2|]. apply spells_more; try discriminate; [now apply spells_num|].
      apply spells_more; try discriminate; [apply flag_written|]. apply spells_more; try discriminate; [apply flag_written|exact Q2].
    + intros st. eexists. split; [reflexivity|reflexivity].
    + exists false, (negb (Rltb (sweep a) 0)). split; [reflexivity|]. cbn [short_arcs] in Hs. split.
      * split; [discriminate|]. intros Hl. match type of Hs with ?x <= _ => change x with (Rabs (sweep a)) in Hs end. exfalso. lra.
      * rewrite negb_true_iff, Rltb_false. reflexivity.
    + destruct R3 as [R3 R4]. cbn in R3, R4. repeat split; try assumption; apply Q3.
  - destruct (point_written n (k1 b)) as (u & U1 & U2 & U3). destruct (point_written n (k2 b)) as (v & V1 & V2 & V3).
    destruct (point_written n (z2 b)) as (q & Q1 & Q2 & Q3).
    eexists _, (Segs false (Curve u v q) []), (DCurve (at_xy (k1 b)) (at_xy (k2 b)) (at_xy (z2 b))), (DCurve (Vxy u) (Vxy v) (Vxy q)).
    split; [reflexivity|]. split; [discriminate|]. split; [|split; [discriminate|split; [|split; [|split; [|split]]]]].
    + cbn [cmd_items flat_map seg_items letter]. rewrite app_nil_r. constructor; [unfold item_ok, is_letter; cbn; tauto|].
      apply Forall_app. split; [exact U1|]. apply Forall_app. split; assumption.
    + split; repeat constructor.
    + cbn [cmd_items flat_map seg_items letter]. rewrite app_nil_r. apply spells_cmd; [discriminate|].
      apply spells_more; try discriminate; [exact U2|]. apply spells_more; try discriminate; assumption.
    + intros st. eexists. split; [reflexivity|reflexivity].
    + reflexivity.
    + split; [exact U3|]. split; assumption.
Qed.
Lemma segments_written n (path : list Gseg) : Forall short_arcs path -> path <> [] -> exists t cs ds es, segments_data n path = Ok t /\ t <> [] /\
  Forall item_ok (path_items cs) /\ path_items cs <> [] /\ Forall plain_cmd cs /\ spells (path_items cs) (join_blank t) /\
  (forall st, exists st', start st' = start st /\ forall r, sem_path (cs ++ r) st = (es ++ sem_path r st')%list) /\
  Forall2 drawn_as path ds /\ Forall2 (near_drawn n) ds es.
Proof.
  intros F. induction F as [|g path Hg F IH]; [congruence|]. intros _.
  destruct (segment_written n g Hg) as (t & c & d & e & A1 & A2 & A3 & A4 & A5 & A6 & A7 & A8 & A9).
  destruct path as [|h path].
  - exists t, [c], [d], [e]. cbn [segments_data]. rewrite A1. cbn [rbind]. rewrite app_nil_r. split; [reflexivity|]. split; [exact A2|].
    cbn [path_items flat_map]. rewrite app_nil_r. repeat (split; [assumption|]). split; [repeat constructor; apply A5|]. split; [exact A6|].
    split; [|repeat constructor; assumption]. intros st. destruct (A7 st) as (st' & S1 & S2). exists st'. split; [exact S2|].
    intros r. cbn [app sem_path]. now rewrite S1.
  - destruct IH as (t' & cs & ds & es & B1 & B2 & B3 & B4 & B5 & B6 & B7 & B8 & B9); [discriminate|].
    exists (t ++ t')%list, (c :: cs), (d :: ds), (e :: es).
    change (segments_data n (g :: h :: path)) with (rbind (segment_data n g) (fun d => rbind (segments_data n (h :: path)) (fun ds => Ok (d ++ ds)%list))).
    rewrite A1, B1. split; [reflexivity|]. split; [destruct t; [congruence|discriminate]|].
    change (path_items (c :: cs)) with (cmd_items c ++ path_items cs)%list.
    split; [apply Forall_app; split; assumption|]. split; [destruct (cmd_items c); [congruence|discriminate]|].
    split; [now constructor|]. split; [rewrite join_app by assumption; now apply spells_more|].
    split; [|split; now constructor]. intros st. destruct (A7 st) as (st1 & S1 & S2). destruct (B7 st1) as (st2 & S3 & S4).
    exists st2. split; [now rewrite S3|]. intros r. cbn [app sem_path]. rewrite S1, S4. reflexivity.
Qed.
(** Plain commands after a move make a path. *)
Lemma plain_path q more cs : cmd_ok (Segs false (Move q) more) -> Forall plain_seg more -> Forall plain_cmd cs ->
  path_ok (Segs false (Move q) more :: cs) /\ plain (Segs false (Move q) more :: cs).
Proof.
  intros H1 H2 H3. split.
  - split; [|right; do 4 eexists; reflexivity]. constructor; [exact H1|]. eapply Forall_impl; [|exact H3]. now intros c [].
  - constructor; [constructor; [exact Logic.I|exact H2]|]. eapply Forall_impl; [|exact H3]. now intros c [].
Qed.
Lemma move_written n (p : Pt) : exists q, Forall item_ok (cmd_items (Segs false (Move q) [])) /\
  spells (cmd_items (Segs false (Move q) [])) (fmt_move n p) /\ near_xy n (at_xy p) (Vxy q).
Proof.
  destruct (point_written n p) as (q & Q1 & Q2 & Q3). exists q. cbn [cmd_items flat_map seg_items letter]. rewrite app_nil_r.
  split; [constructor; [unfold item_ok, is_letter; cbn; tauto|exact Q1]|]. split; [|exact Q3]. apply spells_cmd; [discriminate|exact Q2].
Qed.
(** The path data of a polypath. *)
Lemma polypath_written n (path : list Gseg) close : Forall short_arcs path -> path <> [] ->
  exists s p ds, polypath_data n path close = Ok (Some s) /\ path_ok p /\ plain p /\ Forall item_ok (path_items p) /\ written (path_items p) s /\
    draws_path path close ds /\ Forall2 (near_drawn n) ds (drawing p).
Proof.
  intros F NE. destruct path as [|g path]; [congruence|].
  destruct (segments_written n _ F NE) as (t & cs & ds & es & A1 & A2 & A3 & A4 & A5 & A6 & A7 & A8 & A9).
  destruct (move_written n (g_p1 g)) as (q & Q1 & Q2 & Q3).
  set (fin := if close then [Close false] else []).
  assert (PF : Forall plain_cmd fin) by (unfold fin; destruct close; repeat constructor).
  destruct (plain_path q [] (cs ++ fin) (Forall_nil _) (Forall_nil _)) as [P1 P2]; [apply Forall_app; split; assumption|].
  exists (join_blank (L "M" :: fmt_point n (g_p1 g) :: t ++ (if close then [L "Z"] else []))), (Segs false (Move q) [] :: cs ++ fin).
  eexists. split; [|split; [exact P1|split; [exact P2|split; [|split; [|split]]]]].
  - unfold polypath_data. rewrite A1. reflexivity.
  - change (path_items (Segs false (Move q) [] :: cs ++ fin)) with (cmd_items (Segs false (Move q) []) ++ path_items (cs ++ fin))%list.
    apply Forall_app. split; [exact Q1|]. unfold path_items. rewrite flat_map_app. apply Forall_app. split; [exact A3|].
    unfold fin. destruct close; [|constructor]. constructor; [unfold item_ok, is_letter; cbn; tauto|constructor].
  - exists [], (join_blank (L "M" :: fmt_point n (g_p1 g) :: t ++ (if close then [L "Z"] else []))). split; [constructor|]. split; [|reflexivity].
    change (path_items (Segs false (Move q) [] :: cs ++ fin)) with (cmd_items (Segs false (Move q) []) ++ path_items (cs ++ fin))%list.
    change (L "M" :: fmt_point n (g_p1 g) :: t ++ (if close then [L "Z"] else []))%list
      with ([L "M"; fmt_point n (g_p1 g)] ++ (t ++ (if close then [L "Z"] else [])))%list.
    rewrite join_app by (first [discriminate|destruct t; [congruence|discriminate]]).
    apply spells_more; [discriminate| |exact Q2|].
    + unfold path_items. rewrite flat_map_app. change (flat_map cmd_items cs) with (path_items cs). destruct (path_items cs); [congruence|discriminate].
    + unfold path_items. rewrite flat_map_app. change (flat_map cmd_items cs) with (path_items cs). unfold fin. destruct close.
      * rewrite join_app by (auto; discriminate). apply spells_more; auto; [discriminate|]. apply (spells_one (Cmd "Z"%char)).
      * now rewrite !app_nil_r.
  - exists g, path, ds. split; [reflexivity|]. split; [exact A8|]. reflexivity.
  - unfold drawing. cbn [sem_path sem_cmd sem_segs sem_seg]. cbn [app]. constructor; [exact Q3|].
    destruct (A7 (PS (Vxy q) (Vxy q) AfterOther)) as (st' & S1 & S2).
    match goal with |- Forall2 _ _ (sem_path _ ?st) => change st with (PS (Vxy q) (Vxy q) (@AfterOther ROps)) end.
    rewrite S2. apply Forall2_app; [exact A9|]. unfold fin. destruct close; cbn [sem_path sem_cmd app]; [|constructor].
    constructor; [|constructor]. rewrite S1. exact Q3.
Qed.
