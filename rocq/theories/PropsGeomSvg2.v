(** * PropsGeomSvg2: basic shapes and their placement (C122, C123).  Over R. *)
From Verif Require Import Num NumR Geom GeomR GeomSpec GeomSpec2 GeomProofs GeomProofs2 GeomProofs3 GeomProofs4 GeomProofs5 GeomProofs7 GeomProofs8 GeomProofs9
  OffsetSpec OffsetProofs Ellipse Bezier BezierSpec BezierProofs BezierProofs2 Str Svg SvgSpec SvgProofs SvgProofs2 SvgDoc GeomSvg.
From Verif Require SvgDocProofs CssProofs PropsSvgDoc PropsSvg PropsGeomSvg.
From Verif Require Import GeomSvgSpec GeomSvgProofs PropsGeom PropsGeom2 PropsBezier PropsBezier2 PropsBezier3 PropsEllipse.
From Coq Require Import ZArith Reals Lra Lia Bool List Psatz Ascii String.
Import ListNotations.
Local Open Scope R_scope.

Lemma str_eqb_iff (a b : pystr) : str_eqb a b = true <-> a = b.
Proof. split; [intros Q; destruct (CssProofs.str_eqb_spec a b); congruence|intros ->; destruct (CssProofs.str_eqb_spec b b); congruence]. Qed.
Lemma no_brace_strip s : existsb (Ascii.eqb "}") s = false -> strip_ns s = s.
Proof. destruct s; cbn [strip_ns]; [reflexivity|]. intros ->. reflexivity. Qed.
Lemma strip_named e name : existsb (Ascii.eqb "}") (L name) = false -> named e name -> strip_ns (tag e) = L name.
Proof.
  intros H [-> | [ns ->]]; [apply no_brace_strip, H|]. 
  induction ns as [|c ns IH]; cbn [app strip_ns].
  - cbn [existsb]. rewrite Ascii.eqb_refl. cbn [orb]. apply no_brace_strip, H.
  - assert (X : existsb (Ascii.eqb "}") (c :: ns ++ "}"%char :: list_ascii_of_string name) = true).
    { apply existsb_exists. exists "}"%char. split; [right; apply in_or_app; right; left; reflexivity|apply Ascii.eqb_refl]. }
    rewrite X. exact IH.
Qed.
Lemma get_attr e name s : proper_element e -> attribute e name s -> GeomSvg.get e name = Some s.
Proof.
  unfold proper_element, attribute, GeomSvg.get. change (list_ascii_of_string name) with (L name). intros H I0. induction (attrs e) as [|[k v] l IH]; [destruct I0|].
  cbn [map fst find] in *. inversion H as [|? ? N1 N2]; subst. destruct (str_eqb k (L name)) eqn:Q.
  - apply str_eqb_iff in Q. subst k. destruct I0 as [I0|I0]; [injection I0 as ->; reflexivity|].
    destruct N1. apply in_map_iff. exists (L name, s). split; [reflexivity|exact I0].
  - destruct I0 as [I0|I0]; [injection I0 as -> ->; assert (Z : str_eqb (L name) (L name) = true) by (apply str_eqb_iff; reflexivity); congruence|].
    apply IH; auto.
Qed.
Lemma get_none e name : (forall s, ~ attribute e name s) -> GeomSvg.get e name = None.
Proof.
  unfold attribute, GeomSvg.get. change (list_ascii_of_string name) with (L name). intros H. 
  destruct (find _ _) as [[k v]|] eqn:Q; [|reflexivity]. apply find_some in Q as [Q1 Q2]. cbn [fst] in Q2. apply str_eqb_iff in Q2. subst k.
  destruct (H v Q1).
Qed.
Lemma drop_all b : Forall blank b -> drop_while is_ws b = [].
Proof. induction 1 as [|c b Hc _ IH]; [reflexivity|]. cbn [drop_while]. rewrite (SvgDocProofs.blank_ws c Hc). exact IH. Qed.
Lemma strip_blanks b1 t b2 : Forall blank b1 -> Forall blank b2 -> t <> [] -> forallb (fun c => negb (is_ws c)) t = true -> strip (b1 ++ t ++ b2) = t.
Proof.
  intros H1 H2 Ht Hp. unfold strip, strip_by. destruct t as [|c t]; [congruence|]. cbn [forallb] in Hp. apply andb_true_iff in Hp as [Hc Hp].
  apply negb_true_iff in Hc. rewrite <- app_comm_cons, SvgDocProofs.drop_blanks by auto.
  rewrite app_comm_cons, rev_app_distr.
  assert (exists d r, rev (c :: t) = d :: r /\ is_ws d = false) as (d & r & Er & Ed).
  { destruct (rev (c :: t)) as [|d r] eqn:Q; [apply (f_equal (@List.length ascii)) in Q; rewrite rev_length in Q; discriminate|].
    exists d, r. split; [reflexivity|]. assert (I0 : In d (c :: t)) by (apply in_rev; rewrite Q; left; reflexivity).
    destruct I0 as [<-|I0]; [exact Hc|]. rewrite forallb_forall in Hp. apply Hp in I0. apply negb_true_iff, I0. }
  rewrite Er, SvgDocProofs.drop_blanks; [|apply Forall_rev, H2|exact Ed]. rewrite <- Er, rev_involutive. reflexivity.
Qed.
Lemma numeral_no_ws n : forallb (fun c => negb (is_ws c)) (numeral_text n) = true.
Proof.
  pose proof (SvgDocProofs.plain_numeral n) as H. rewrite forallb_forall in *. intros c Hc. apply H in Hc. unfold SvgDocProofs.plain_char in Hc.
  apply andb_true_iff in Hc as [Hc _]. apply andb_true_iff in Hc as [Hc _]. exact Hc.
Qed.
Lemma number_attr e name (x : R) : proper_element e -> length_attr e name x -> number (N:=ROps) e name = Ok x.
Proof.
  intros H [[H1 ->]|(n & b1 & b2 & Hn & B1 & B2 & A & ->)]; unfold number.
  - rewrite get_none by exact H1. reflexivity.
  - rewrite (get_attr _ _ _ H A), strip_blanks; auto; [|apply numeral_text_end, Hn|apply numeral_no_ws]. apply py_float_text, Hn.
Qed.

Lemma seg_point (p q : Pt) u : point_on (GLine (Ln p q)) u = P (px p + u * (px q - px p)) (py p + u * (py q - py p)).
Proof. reflexivity. Qed.

(** ** C122: basic shapes *)
Section C122.
  Context {E : Epsilon ROps}.
  Variable e : element.
  Hypothesis H : proper_element e.
  (** rect *)
  Theorem C122_rect (x y w h : R) : named e "rect" ->
    length_attr e "x" x -> length_attr e "y" y -> length_attr e "width" w -> length_attr e "height" h -> 0 <= w -> 0 <= h ->
    exists gs, svg_element_to_geometry e None None = Ok [Path gs] /\ List.length gs = 4%nat /\ joined gs (P x y) (P x y) /\
      forall q, covers gs q <-> on_rectangle x y w h q.
  Proof.
    intros Hn Hx Hy Hw Hh W0 H0. unfold svg_element_to_geometry, subpaths_of. rewrite (strip_named e "rect" eq_refl Hn).
    change (str_eqb (L "rect") (L "path")) with false. change (str_eqb (L "rect") (L "line")) with false. change (str_eqb (L "rect") (L "ellipse")) with false.
    change (str_eqb (L "rect") (L "rect")) with true. cbv iota. unfold convert_rect.
    rewrite (number_attr e "x" x), (number_attr e "y" y), (number_attr e "width" w), (number_attr e "height" h) by auto. cbn [rbind rmap one].
    eexists. split; [reflexivity|]. rnum. split; [reflexivity|]. split.
    - cbn [joined point_on]. rewrite !at_param_0, !at_param_1. repeat split.
    - intros [qx qy]. unfold covers, on_rectangle. cbn [px py]. split.
      + intros (g & u & I0 & U & Q). cbn [In] in I0. 
        destruct I0 as [<- | [<- | [<- | [<- | []]]]]; cbn [point_on] in Q; unfold at_param in Q; cbn [p1 p2 px py] in Q;
          pose proof (f_equal px Q) as QX; pose proof (f_equal py Q) as QY; cbn [px py] in QX, QY; clear Q; change (T ROps) with R in *.
        * left. split; [left; lra|nra].
        * right. split; [right; lra|nra].
        * left. split; [right; lra|nra].
        * right. split; [left; lra|nra].
      + assert (FR : forall a b z, 0 <= b -> a <= z <= a + b -> exists u, 0 <= u <= 1 /\ a + u * b = z).
        { intros a b z Hb Hz. destruct (Req_dec b 0) as [-> | B].
          - exists 0. split; lra.
          - exists ((z - a) / b). split; [|field; lra]. split; [apply Rmult_le_pos; [lra|apply Rlt_le, Rinv_0_lt_compat; lra]|].
            apply Rmult_le_reg_r with b; [lra|]. replace ((z - a) / b * b) with (z - a) by (field; lra). lra. }
        intros [[[QX|QX] QY]|[[QY|QY] QX]].
        * destruct (FR y h qy H0 QY) as (u & U & Q). eexists _, u. split; [left; reflexivity|]. split; [exact U|].
          rewrite seg_point. apply pt_ext; cbn; change (T ROps) with R in *; lra.
        * destruct (FR y h qy H0 QY) as (u & U & Q). eexists _, (1 - u). split; [right; right; left; reflexivity|]. split; [lra|].
          rewrite seg_point. apply pt_ext; cbn; change (T ROps) with R in *; lra.
        * destruct (FR x w qx W0 QX) as (u & U & Q). eexists _, (1 - u). split; [right; right; right; left; reflexivity|]. split; [lra|].
          rewrite seg_point. apply pt_ext; cbn; change (T ROps) with R in *; lra.
        * destruct (FR x w qx W0 QX) as (u & U & Q). eexists _, u. split; [right; left; reflexivity|]. split; [lra|].
          rewrite seg_point. apply pt_ext; cbn; change (T ROps) with R in *; lra.
  Qed.
  (** circle: four quarter turns *)
  Theorem C122_circle (cx cy r : R) : named e "circle" -> length_attr e "cx" cx -> length_attr e "cy" cy -> length_attr e "r" r -> r <> 0 ->
    exists gs, svg_element_to_geometry e None None = Ok [Path gs] /\ List.length gs = 4%nat /\
      joined gs (P (cx + Rabs r) cy) (P (cx + Rabs r) cy) /\
      (forall g, In g gs -> exists a, g = GArc a /\ wf_arc a /\ center a = P cx cy /\ radius a = Rabs r /\ sweep a = PI / 2) /\
      forall q, covers gs q <-> on_circle (P cx cy) (Rabs r) q.
  Proof.
    intros Hn Hx Hy Hr R0. unfold svg_element_to_geometry, subpaths_of. rewrite (strip_named e "circle" eq_refl Hn).
    change (str_eqb (L "circle") (L "path")) with false. change (str_eqb (L "circle") (L "line")) with false. change (str_eqb (L "circle") (L "ellipse")) with false.
    change (str_eqb (L "circle") (L "rect")) with false. change (str_eqb (L "circle") (L "circle")) with true. cbv iota. unfold convert_circle.
    rewrite (number_attr e "cx" cx), (number_attr e "cy" cy), (number_attr e "r" r) by auto. cbn [rbind rmap one].
    eexists. split; [reflexivity|]. rnum. split; [reflexivity|].
    assert (K : 0 < Rabs r) by (apply Rabs_pos_lt, R0). set (k := Rabs r) in *. clearbody k.
    set (c := P cx cy : Pt).
    assert (A1 : turned c (1 * (PI / 2)) (P (cx + k) cy) = P cx (cy + k)) by (rewrite Rmult_1_l; unfold turned, c; rewrite cos_PI2, sin_PI2; apply pt_ext; cbn; lra).
    assert (A2 : turned c (1 * (PI / 2)) (P cx (cy + k)) = P (cx - k) cy) by (rewrite Rmult_1_l; unfold turned, c; rewrite cos_PI2, sin_PI2; apply pt_ext; cbn; lra).
    assert (A3 : turned c (1 * (PI / 2)) (P (cx - k) cy) = P cx (cy - k)) by (rewrite Rmult_1_l; unfold turned, c; rewrite cos_PI2, sin_PI2; apply pt_ext; cbn; lra).
    assert (A4 : turned c (1 * (PI / 2)) (P cx (cy - k)) = P (cx + k) cy) by (rewrite Rmult_1_l; unfold turned, c; rewrite cos_PI2, sin_PI2; apply pt_ext; cbn; lra).
    assert (D : forall p, In p [P (cx + k) cy; P cx (cy + k); P (cx - k) cy; P cx (cy - k)] -> euclid p c = k).
    { intros p I0. apply euclid_unique; [lra|]. unfold c. cbn [In] in I0. destruct I0 as [<- | [<- | [<- | [<- | []]]]]; cbn; change (T ROps) with R in *; lra. }
    split; [|split].
    - cbn [joined point_on center sweep ap1]. rewrite !Rmult_0_l, !turned_0, A1, A2, A3, A4. repeat split.
    - rewrite !Rmult_1_l in *. intros g I0. cbn [In] in I0. destruct I0 as [<- | [<- | [<- | [<- | []]]]]; eexists; (split; [reflexivity|]); cbn [center sweep radius];
        (split; [|repeat split]); unfold wf_arc; cbn [center sweep radius ap1 ap2]; (split; [exact K|]); split; try (symmetry; assumption); apply D; cbn; tauto.
    - pose proof PI_RGT_0 as PP. 
      assert (SH : forall i, (i = 0 \/ i = 1 \/ i = 2 \/ i = 3) -> exists p, In (GArc (mkarc p (turned c (PI / 2) p) k (PI / 2) c))
         [GArc (mkarc (P (cx + k) cy) (P cx (cy + k)) k (PI / 2) c); GArc (mkarc (P cx (cy + k)) (P (cx - k) cy) k (PI / 2) c);
          GArc (mkarc (P (cx - k) cy) (P cx (cy - k)) k (PI / 2) c); GArc (mkarc (P cx (cy - k)) (P (cx + k) cy) k (PI / 2) c)] /\
         p = turned c (i * (PI / 2)) (P (cx + k) cy)).
      { rewrite !Rmult_1_l in *. intros i Hi. destruct Hi as [-> | [-> | [-> | ->]]].
        - exists (P (cx + k) cy). rewrite A1, Rmult_0_l, turned_0. split; [left; reflexivity|reflexivity].
        - exists (P cx (cy + k)). rewrite A2, Rmult_1_l, A1. split; [right; left; reflexivity|reflexivity].
        - exists (P (cx - k) cy). rewrite A3. split; [right; right; left; reflexivity|].
          replace (2 * (PI / 2)) with (PI / 2 + PI / 2) by lra. rewrite <- turned_add, A1, A2. reflexivity.
        - exists (P cx (cy - k)). rewrite A4. split; [right; right; right; left; reflexivity|].
          replace (3 * (PI / 2)) with (PI / 2 + (PI / 2 + PI / 2)) by lra. rewrite <- !turned_add, A1, A2, A3. reflexivity. }
      intros q. unfold covers, on_circle. split.
      + intros (g & u & I0 & U & Q). rewrite euclid_sym. cbn [In] in I0.
        destruct I0 as [<- | [<- | [<- | [<- | []]]]]; cbn [point_on center sweep ap1] in Q; rewrite <- Q, turned_dist; apply D; cbn; tauto.
      + intros Q. rewrite euclid_sym in Q. destruct (polar_exists c (P (cx + k) cy) q) as (f0 & _ & _ & PF). destruct (polar_norm _ _ _ _ _ PF) as (f & F & PG & _).
        assert (QT : q = turned c f (P (cx + k) cy)).
        { destruct PG as [C S]. rewrite Q, (D (P (cx + k) cy)) in C, S by (left; reflexivity). unfold c in C, S. unfold turned, c. cbn [px py] in *. change (T ROps) with R in *.
          apply pt_ext; cbn [px py]; change (T ROps) with R in *; apply Rmult_eq_reg_l with k; try lra. }
        assert (G : exists i, (i = 0 \/ i = 1 \/ i = 2 \/ i = 3) /\ i * (PI / 2) <= f <= (i + 1) * (PI / 2)).
        { destruct (Rle_lt_dec f (PI / 2)); [exists 0; lra|]. destruct (Rle_lt_dec f PI); [exists 1; lra|].
          destruct (Rle_lt_dec f (3 * (PI / 2))); [exists 2; lra|exists 3; lra]. }
        destruct G as (i & Hi & Gi). destruct (SH i Hi) as (p & Ip & Ep). exists (GArc (mkarc p (turned c (PI / 2) p) k (PI / 2) c)), (f / (PI / 2) - i).
        split; [exact Ip|]. split.
        * split; [apply Rmult_le_reg_r with (PI / 2)|apply Rmult_le_reg_r with (PI / 2)]; try lra;
            replace ((f / (PI / 2) - i) * (PI / 2)) with (f - i * (PI / 2)) by (field; lra); lra.
        * cbn [point_on center sweep ap1]. rewrite Ep, turned_add, QT. f_equal. field. lra.
  Qed.
  (** ellipse: a closed chain of four curves that start and end on the ellipse, and whose points are at most 0.2% nearer to the centre *)
  Theorem C122_ellipse (cx cy rx ry : R) : named e "ellipse" -> length_attr e "cx" cx -> length_attr e "cy" cy -> length_attr e "rx" rx ->
    length_attr e "ry" ry -> 0 < rx -> 0 < ry -> rx = ry \/ EPS <= Rabs (rx - ry) -> 0 < EPS ->
    exists bs, svg_element_to_geometry e None None = Ok [Path (map GCurve bs)] /\ List.length bs = 4%nat /\
      (exists s, joined (map GCurve bs) s s) /\
      (forall b, In b bs -> on_axis_ellipse (P cx cy) rx ry (z1 b) /\ on_axis_ellipse (P cx cy) rx ry (z2 b)) /\
      forall q, covers (map GCurve bs) q -> exists w k, on_axis_ellipse (P cx cy) rx ry w /\ 998 / 1000 <= k <= 1 /\ q = at_param (Ln (P cx cy) w) k.
  Proof.
    intros Hn Hx Hy Hrx Hry R1 R2 RD He. unfold svg_element_to_geometry, subpaths_of. rewrite (strip_named e "ellipse" eq_refl Hn).
    change (str_eqb (L "ellipse") (L "path")) with false. change (str_eqb (L "ellipse") (L "line")) with false. change (str_eqb (L "ellipse") (L "ellipse")) with true.
    cbv iota. unfold convert_ellipse.
    rewrite (number_attr e "cx" cx), (number_attr e "cy" cy), (number_attr e "rx" rx), (number_attr e "ry" ry) by auto. cbn [rbind rmap].
    pose proof PI_RGT_0 as PP. rnum. set (el := new_ellipse (P cx cy) rx (Some ry) 0).
    destruct (C70_ellipse_partial el 0 (PI * 2) ltac:(lra)) as (l & Q & CH & AL).
    destruct (C70_accuracy el 0 (PI * 2) ltac:(lra)) as (l' & Q' & AC). assert (l' = l) by (rewrite Q in Q'; injection Q'; auto). subst l'.
    match goal with |- context [bezier_ellipse 5 ?a ?b ?c] => replace (bezier_ellipse 5 a b c) with (Ok l) by (symmetry; exact Q) end. cbn [rbind].
    assert (CL : epoint_at el (0 + PI * 2) = epoint_at el 0).
    { rewrite !epoint_spec. unfold ellipse_pt. rewrite !Rplus_0_l. replace (cos (PI * 2)) with 1 by (rewrite Rmult_comm, cos_2PI; reflexivity).
      replace (sin (PI * 2)) with 0 by (rewrite Rmult_comm, sin_2PI; reflexivity). rewrite cos_0, sin_0. reflexivity. }
    assert (LE : List.length l = 4%nat).
    { unfold bezier_ellipse in Q. clearbody el. cbn [ellipse_loop] in Q. rnum. clear - Q PP.
      replace (Rleb (0 + PI / 2) (0 + PI * 2)) with true in Q by (symmetry; rbool; lra).
      replace (Rleb (0 + PI / 2 + PI / 2) (0 + PI * 2)) with true in Q by (symmetry; rbool; lra).
      replace (Rleb (0 + PI / 2 + PI / 2 + PI / 2) (0 + PI * 2)) with true in Q by (symmetry; rbool; lra).
      replace (Rleb (0 + PI / 2 + PI / 2 + PI / 2 + PI / 2) (0 + PI * 2)) with true in Q by (symmetry; rbool; lra).
      replace (Rleb (0 + PI / 2 + PI / 2 + PI / 2 + PI / 2 + PI / 2) (0 + PI * 2)) with false in Q by (symmetry; rbool; lra).
      replace (Rltb (0 + PI / 2 + PI / 2 + PI / 2 + PI / 2) (0 + PI * 2)) with false in Q by (symmetry; rbool; lra).
      cbn [andb rmap] in Q. assert (Q2 := f_equal (fun r => match r with Ok x => List.length x | _ => 0%nat end) Q). symmetry. exact Q2. }
    assert (NE : l <> []) by (intros ->; discriminate).
    exists l. assert (GeomSvg.one (map GCurve l) = [Path (map GCurve l)]) as -> by (destruct l; [congruence|reflexivity]).
    assert (G : forall t, on_axis_ellipse (P cx cy) rx ry (epoint_at el t)).
    { intros t. assert (exists u, epoint_at el t = ellipse_pt (P cx cy) rx ry 0 u) as (w & ->).
      { apply (C62_new_same_curve He (P cx cy) rx ry 0). - rewrite !Rabs_pos_eq by lra. destruct RD; [left; lra|right; assumption]. - exists t. reflexivity. }
      unfold on_axis_ellipse, ellipse_pt, turned. cbn [px py]. rewrite cos_0, sin_0. change (T ROps) with R in *.
      pose proof (sin2_cos2 w) as SC. unfold Rsqr in SC. transitivity (sin w * sin w + cos w * cos w); [field; lra|exact SC]. }
    split; [reflexivity|]. split; [exact LE|]. split; [|split].
    - exists (epoint_at el 0). rewrite CL in CH. clear - CH. revert CH. generalize (epoint_at el 0). intros s.
      enough (G : forall t, bez_chain l s t -> joined (map GCurve l) s t) by apply G. revert s.
      induction l as [|b l IH]; intros s t HC; cbn [map joined].
      + exact HC.
      + cbn in HC. destruct HC as [A B]. split; [|].
        * cbn [point_on]. rewrite <- A. apply on_bez_0.
        * cbn [point_on]. rewrite on_bez_1. apply IH; exact B.
    - intros b Hb. destruct (AL b Hb) as (u & v & _ & _ & _ & _ & Z1 & Z2). rewrite Z1, Z2. split; apply G.
    - intros q (g & u & I0 & U & <-). apply in_map_iff in I0 as (b & <- & Hb). cbn [point_on].
      destruct (AC b u Hb U) as (w & k & _ & K & ->). exists (epoint_at el w), k. split; [apply G|]. split; [exact K|]. reflexivity.
  Qed.
  (** polyline *)
  Lemma split_comma_none t w : existsb (Ascii.eqb ",") t = false -> split_comma w t = [w ++ t].
  Proof.
    revert w. induction t as [|c t IH]; intros w Q; cbn [split_comma]; [rewrite app_nil_r; reflexivity|].
    cbn [existsb] in Q. apply orb_false_iff in Q as [Q1 Q2]. rewrite Ascii.eqb_sym, Q1, IH by exact Q2. rewrite <- app_assoc. reflexivity.
  Qed.
  Lemma split_comma_one t w r : existsb (Ascii.eqb ",") t = false -> split_comma w (t ++ ","%char :: r) = (w ++ t) :: split_comma [] r.
  Proof.
    revert w. induction t as [|c t IH]; intros w Q; cbn [split_comma app]; [rewrite app_nil_r; reflexivity|].
    cbn [existsb] in Q. apply orb_false_iff in Q as [Q1 Q2]. rewrite Ascii.eqb_sym, Q1, IH by exact Q2. rewrite <- app_assoc. reflexivity.
  Qed.
  Lemma numeral_no_comma n : existsb (Ascii.eqb ",") (numeral_text n) = false.
  Proof.
    pose proof (SvgDocProofs.plain_numeral n) as Q. destruct (existsb _ _) eqn:X; [|reflexivity]. apply existsb_exists in X as (c & I0 & Hc).
    rewrite forallb_forall in Q. apply Q in I0. unfold SvgDocProofs.plain_char in I0. rewrite Ascii.eqb_sym in Hc. rewrite Hc in I0. cbn in I0. rewrite andb_false_r in I0. discriminate.
  Qed.
  Definition xy_ok (p : xy numeral) : Prop := numeral_ok (xx p) /\ numeral_ok (yy p).
  Lemma point_of_text p : xy_ok p -> point_of (N:=ROps) (numeral_text (xx p) ++ ","%char :: numeral_text (yy p)) = Ok (value_xy p).
  Proof.
    intros [A B]. unfold point_of. rewrite split_comma_one, split_comma_none by apply numeral_no_comma. cbn [app].
    rewrite !py_float_text by assumption. reflexivity.
  Qed.
  Lemma split_blanks b r : Forall blank b -> split_ws_aux [] (b ++ r) = split_ws_aux [] r.
  Proof. induction 1 as [|c b Hc _ IH]; [reflexivity|]. cbn [app split_ws_aux]. rewrite (SvgDocProofs.blank_ws c Hc). exact IH. Qed.
  Lemma split_word t w r : forallb (fun c => negb (is_ws c)) t = true -> split_ws_aux w (t ++ r) = split_ws_aux (w ++ t) r.
  Proof.
    revert w. induction t as [|c t IH]; intros w Q; [rewrite app_nil_r; reflexivity|]. cbn [forallb] in Q. apply andb_true_iff in Q as [Q1 Q2].
    cbn [app split_ws_aux]. apply negb_true_iff in Q1. rewrite Q1, IH by exact Q2. rewrite <- app_assoc. reflexivity.
  Qed.
  Definition ptext (p : xy numeral) : pystr := numeral_text (xx p) ++ ","%char :: numeral_text (yy p).
  Lemma ptext_no_ws p : forallb (fun c => negb (is_ws c)) (ptext p) = true.
  Proof. unfold ptext. rewrite forallb_app. cbn [forallb]. rewrite !numeral_no_ws. reflexivity. Qed.
  Lemma split_points l t : points_text l t -> split_ws t = map ptext l.
  Proof.
    unfold split_ws. induction 1 as [b Hb|b p l t Hb Ht IH Hg].
    - rewrite <- (app_nil_r b), split_blanks by exact Hb. reflexivity.
    - rewrite split_blanks by exact Hb. change (numeral_text (xx p) ++ ","%char :: numeral_text (yy p) ++ t) with
        (numeral_text (xx p) ++ (","%char :: numeral_text (yy p)) ++ t). rewrite app_assoc. fold (ptext p). rewrite split_word by apply ptext_no_ws. cbn [app map].
      assert (NE : ptext p <> []) by (unfold ptext; destruct (numeral_text (xx p)); discriminate).
      assert (B0 : forall s, (s = [] \/ exists c r, s = c :: r /\ blank c) -> split_ws_aux (ptext p) s = ptext p :: split_ws_aux [] s).
      { intros s [-> | (c & r & -> & Hc)]; cbn [split_ws_aux].
        - destruct (ptext p); [congruence|reflexivity].
        - rewrite (SvgDocProofs.blank_ws c Hc). destruct (ptext p); [congruence|reflexivity]. }
      rewrite B0, IH; [reflexivity|]. destruct l as [|p' l].
      + inversion Ht; subst. destruct t as [|c r]; [left; reflexivity|]. right. exists c, r. split; [reflexivity|]. match goal with X : Forall _ (c :: r) |- _ => inversion X; assumption end.
      + right. apply Hg. discriminate.
  Qed.
  Lemma polyline_points (l : list (xy numeral)) : forall p : Pt, Forall xy_ok l -> exists ls, polyline_loop (N:=ROps) p (map ptext l) = Ok ls /\
    map GLine ls = through p (map value_xy l).
  Proof.
    induction l as [|q l IH]; intros p Hl; cbn [map polyline_loop through].
    - exists []. split; reflexivity.
    - inversion Hl as [|? ? Hq Hl']; subst. unfold ptext at 1. rewrite point_of_text by exact Hq. cbn [rbind].
      destruct (IH (value_xy q) Hl') as (ls & -> & Q). cbn [rbind]. eexists. split; [reflexivity|]. cbn [map]. rewrite Q. reflexivity.
  Qed.
  Theorem C122_polyline (s : list ascii) (p q : xy numeral) (l : list (xy numeral)) : named e "polyline" -> attribute e "points" s ->
    points_text (p :: q :: l) s -> Forall xy_ok (p :: q :: l) ->
    svg_element_to_geometry e None None = Ok [Path (through (value_xy p) (map value_xy (q :: l)))].
  Proof.
    intros Hn Hs Ht Hok. unfold svg_element_to_geometry, subpaths_of. rewrite (strip_named e "polyline" eq_refl Hn).
    change (str_eqb (L "polyline") (L "path")) with false. change (str_eqb (L "polyline") (L "line")) with false. change (str_eqb (L "polyline") (L "ellipse")) with false.
    change (str_eqb (L "polyline") (L "rect")) with false. change (str_eqb (L "polyline") (L "circle")) with false. change (str_eqb (L "polyline") (L "polyline")) with true.
    cbv iota. unfold convert_polyline. rewrite (get_attr e "points" s H Hs), (split_points _ _ Ht). cbn [map].
    inversion Hok as [|? ? Hp Hl]; subst. unfold ptext at 1. rewrite point_of_text by exact Hp. cbn [rbind].
    destruct (polyline_points (q :: l) (value_xy p) Hl) as (ls & Q1 & Q2). change (ptext q :: map ptext l) with (map ptext (q :: l)). rewrite Q1. cbn [rbind].
    rewrite Q2. reflexivity.
  Qed.
  Lemma polygon_lines (s : list ascii) (p q : xy numeral) (l : list (xy numeral)) : named e "polygon" -> attribute e "points" s ->
    points_text (p :: q :: l) s -> Forall xy_ok (p :: q :: l) -> exists ls, convert_polyline (N:=ROps) e = Ok ls /\
    map GLine ls = through (value_xy p) (map value_xy (q :: l)) /\
    svg_element_to_geometry e None None = rmap (fun l => GeomSvg.one (map GLine l)) (convert_polygon (N:=ROps) e).
  Proof.
    intros Hn Hs Ht Hok. unfold svg_element_to_geometry, subpaths_of. rewrite (strip_named e "polygon" eq_refl Hn).
    change (str_eqb (L "polygon") (L "path")) with false. change (str_eqb (L "polygon") (L "line")) with false. change (str_eqb (L "polygon") (L "ellipse")) with false.
    change (str_eqb (L "polygon") (L "rect")) with false. change (str_eqb (L "polygon") (L "circle")) with false. change (str_eqb (L "polygon") (L "polyline")) with false.
    change (str_eqb (L "polygon") (L "polygon")) with true.
    cbv iota. inversion Hok as [|? ? Hp Hl]; subst. destruct (polyline_points (q :: l) (value_xy p) Hl) as (ls & Q1 & Q2). exists ls. split; [|split; [exact Q2|]].
    - unfold convert_polyline. rewrite (get_attr e "points" s H Hs), (split_points _ _ Ht). cbn [map]. unfold ptext at 1. rewrite point_of_text by exact Hp. cbn [rbind]. exact Q1.
    - destruct (convert_polygon e) as [z|]; cbn [rbind rmap]; [|reflexivity]. destruct (GeomSvg.one (map GLine z)); reflexivity.
  Qed.
  (** polygon: with three or more corners it raises an exception, unless the last side lies on the first one; with two corners it is left open *)
  Theorem C122_polygon_refuted (s : list ascii) (p q r : xy numeral) (l : list (xy numeral)) : 0 < EPS -> named e "polygon" -> attribute e "points" s ->
    points_text (p :: q :: l ++ [r]) s -> Forall xy_ok (p :: q :: l ++ [r]) -> EPS <= euclid (value_xy r) (value_xy q) ->
    svg_element_to_geometry e None None = Raise TypeError.
  Proof.
    intros He Hn Hs Ht Hok Hd. destruct (polygon_lines s p q (l ++ [r]) Hn Hs Ht Hok) as (ls & Q1 & Q2 & ->). unfold convert_polygon. rewrite Q1. cbn [rbind].
    cbn [map through] in Q2. destruct ls as [|f [|g ls]]; [discriminate| |].
    - exfalso. destruct l; discriminate.
    - assert (EF : f = Ln (value_xy p) (value_xy q)) by (injection Q2; auto). 
      assert (EL : forall a ls, map GLine ls = through a (map value_xy (l ++ [r])) -> forall d, p2 (last ls d) = value_xy r).
      { clear. induction l as [|z l IH]; intros a ls Q d; cbn [app map through] in Q.
        - destruct ls as [|x [|y ls]]; try discriminate. assert (x = Ln a (value_xy r)) as -> by (injection Q; auto). reflexivity.
        - destruct ls as [|x [|y ls]]; [discriminate|destruct l; discriminate|]. 
          assert (Q' : map GLine (y :: ls) = through (value_xy z) (map value_xy (l ++ [r]))) by (injection Q; intros; cbn [map]; assumption).
          change (last (x :: y :: ls) d) with (last (y :: ls) d). apply (IH _ _ Q'). }
      assert (Q' : map GLine (g :: ls) = through (value_xy q) (map value_xy (l ++ [r]))) by (assert (X := f_equal (@tl Gseg) Q2); cbn [tl map] in X; cbn [map]; exact X).
      change (last (f :: g :: ls) f) with (last (g :: ls) f). rewrite (EL _ _ Q' f).
      subst f. cbn [p1 p2]. rewrite (proj2 (peq_false He (value_xy r) (value_xy q)) Hd), andb_false_r. reflexivity.
  Qed.
  Theorem C122_polygon_open_refuted (s : list ascii) (p q : xy numeral) : named e "polygon" -> attribute e "points" s ->
    points_text [p; q] s -> Forall xy_ok [p; q] -> svg_element_to_geometry e None None = Ok [Path [GLine (Ln (value_xy p) (value_xy q))]].
  Proof.
    intros Hn Hs Ht Hok. destruct (polygon_lines s p q [] Hn Hs Ht Hok) as (ls & Q1 & Q2 & ->). unfold convert_polygon. rewrite Q1. cbn [rbind].
    cbn [map through] in Q2. destruct ls as [|f [|g ls]]; try discriminate. rewrite <- Q2. reflexivity.
  Qed.
  (** line: not a list of segments but a line, which cannot be placed *)
  Theorem C122_line_refuted (a b c d : R) : named e "line" -> length_attr e "x1" a -> length_attr e "y1" b -> length_attr e "x2" c -> length_attr e "y2" d ->
    svg_element_to_geometry e None None = Ok [Bare (Ln (P a b) (P c d))] /\
    forall m, svg_element_to_geometry e (Some m) None = Raise AttributeError.
  Proof.
    intros Hn Ha Hb Hc Hd. unfold svg_element_to_geometry, subpaths_of. rewrite (strip_named e "line" eq_refl Hn).
    change (str_eqb (L "line") (L "path")) with false. change (str_eqb (L "line") (L "line")) with true. cbv iota. unfold convert_line.
    rewrite (number_attr e "x1" a), (number_attr e "y1" b), (number_attr e "x2" c), (number_attr e "y2" d) by auto. cbn [rbind]. split; reflexivity.
  Qed.
  (** Point lists written without commas are refused, and so are empty ones. *)
  Lemma words_no_comma t w : existsb (Ascii.eqb ",") w = false -> existsb (Ascii.eqb ",") t = false ->
    Forall (fun x => existsb (Ascii.eqb ",") x = false) (split_ws_aux w t).
  Proof.
    revert w. induction t as [|c t IH]; intros w Hw Ht; cbn [split_ws_aux].
    - destruct w; repeat constructor. exact Hw.
    - cbn [existsb] in Ht. apply orb_false_iff in Ht as [H1 H2]. destruct (is_ws c).
      + destruct w; [apply IH; auto|constructor; [exact Hw|apply IH; auto]].
      + apply IH; auto. rewrite existsb_app, Hw. cbn [existsb]. rewrite H1. reflexivity.
  Qed.
  Theorem C122_points_refuted (s : list ascii) : named e "polyline" \/ named e "polygon" -> attribute e "points" s -> ~ In ","%char s ->
    svg_element_to_geometry e None None = Raise (if forallb is_ws s then IndexError else ValueError).
  Proof.
    intros Hn Hs Hc.
    assert (NC : existsb (Ascii.eqb ",") s = false). { destruct (existsb _ _) eqn:X; [|reflexivity]. apply existsb_exists in X as (c & I0 & Q). apply Ascii.eqb_eq in Q. subst c. destruct (Hc I0). }
    assert (CP : convert_polyline (N:=ROps) e = Raise (if forallb is_ws s then IndexError else ValueError)).
    { unfold convert_polyline. rewrite (get_attr e "points" s H Hs). pose proof (words_no_comma s [] eq_refl NC) as W. fold (split_ws s) in W.
      assert (B0 : split_ws s = [] <-> forallb is_ws s = true).
      { clear. unfold split_ws. assert (W : forall s w, w <> [] -> split_ws_aux w s <> []).
        { induction s0 as [|c s0 IH]; intros w Hw; cbn [split_ws_aux]; [destruct w; congruence|]. destruct (is_ws c); [destruct w; congruence|]. apply IH. destruct w; discriminate. }
        induction s as [|c s IH]; cbn [split_ws_aux forallb]; [tauto|]. destruct (is_ws c); cbn [andb]; [exact IH|]. split; [intros Q; destruct (W s ([] ++ [c]) ltac:(discriminate) Q)|discriminate]. }
      destruct (split_ws s) as [|w ws].
      - rewrite (proj1 B0 eq_refl). reflexivity.
      - assert (forallb is_ws s = false) as -> by (destruct (forallb is_ws s); [destruct B0 as [_ B0]; specialize (B0 eq_refl); discriminate|reflexivity]).
        inversion W as [|? ? W1 _]; subst. unfold point_of. rewrite split_comma_none by exact W1. reflexivity. }
    unfold svg_element_to_geometry, subpaths_of. destruct Hn as [Hn|Hn].
    - rewrite (strip_named e "polyline" eq_refl Hn).
      change (str_eqb (L "polyline") (L "path")) with false. change (str_eqb (L "polyline") (L "line")) with false. change (str_eqb (L "polyline") (L "ellipse")) with false.
      change (str_eqb (L "polyline") (L "rect")) with false. change (str_eqb (L "polyline") (L "circle")) with false. change (str_eqb (L "polyline") (L "polyline")) with true.
      cbv iota. rewrite CP. reflexivity.
    - rewrite (strip_named e "polygon" eq_refl Hn).
      change (str_eqb (L "polygon") (L "path")) with false. change (str_eqb (L "polygon") (L "line")) with false. change (str_eqb (L "polygon") (L "ellipse")) with false.
      change (str_eqb (L "polygon") (L "rect")) with false. change (str_eqb (L "polygon") (L "circle")) with false. change (str_eqb (L "polygon") (L "polyline")) with false.
      change (str_eqb (L "polygon") (L "polygon")) with true.
      cbv iota. unfold convert_polygon. rewrite CP. reflexivity.
  Qed.
End C122.
(** Lengths with a unit are refused. *)
Theorem C122_units_refuted {E : Epsilon ROps} :
  svg_element_to_geometry (N:=ROps) (Elem (L "rect") [(L "width", L "10mm"); (L "height", L "5mm")]) None None = Raise ValueError.
Proof. reflexivity. Qed.
(** A rectangle at (1, 0), four wide and three high, with a namespace and blanks. *)
Definition c122_rect : element := Elem (L "{http://www.w3.org/2000/svg}rect") [(L "x", L " 1"); (L "width", L "4 "); (L "height", L "3")].
Lemma digit_attr e name (d : digit) b1 b2 : Forall blank b1 -> Forall blank b2 -> attribute e name (b1 ++ digit_text d :: b2) -> length_attr e name (IZR (digit_value d)).
Proof.
  intros B1 B2 A. right. exists (PropsSvg.nat_num [d]), b1, b2. split; [apply PropsSvg.numeral_ok_dec; destruct d; reflexivity|]. split; [exact B1|]. split; [exact B2|].
  split; [exact A|]. symmetry. apply PropsGeomSvg.nat_value.
Qed.
Ltac blanks := repeat (constructor; [left; reflexivity|]); constructor.
Example C122_rect_example {E : Epsilon ROps} : named c122_rect "rect" /\ proper_element c122_rect /\ length_attr c122_rect "x" 1 /\ length_attr c122_rect "y" 0 /\
  length_attr c122_rect "width" 4 /\ length_attr c122_rect "height" 3 /\
  exists gs, svg_element_to_geometry c122_rect None None = Ok [Path gs] /\ covers gs (P 5 2) /\ ~ covers gs (P 3 2).
Proof.
  assert (A : named c122_rect "rect") by (right; exists (L "{http://www.w3.org/2000/svg"); reflexivity).
  assert (B : proper_element c122_rect).
  { unfold proper_element. cbn [map fst attrs c122_rect]. constructor; [cbn; intuition discriminate|]. constructor; [cbn; intuition discriminate|]. constructor; [cbn; tauto|constructor]. }
  assert (C : length_attr c122_rect "x" 1) by (apply (digit_attr c122_rect "x" D1 [" "%char] []); [blanks|blanks|left; reflexivity]).
  assert (D : length_attr c122_rect "y" 0).
  { left. split; [|reflexivity]. intros s I0. cbn in I0. intuition discriminate. }
  assert (F : length_attr c122_rect "width" 4) by (apply (digit_attr c122_rect "width" D4 [] [" "%char]); [blanks|blanks|right; left; reflexivity]).
  assert (G : length_attr c122_rect "height" 3) by (apply (digit_attr c122_rect "height" D3 [] []); [blanks|blanks|right; right; left; reflexivity]).
  repeat (split; [assumption|]). destruct (C122_rect c122_rect B 1 0 4 3 A C D F G ltac:(lra) ltac:(lra)) as (gs & Q & _ & _ & Q2). exists gs. split; [exact Q|].
  split; [apply Q2; left; cbn; lra|]. intros X. apply Q2 in X. unfold on_rectangle in X. cbn in X. lra.
Qed.
(** The points 0,0 4,0 4,3. *)
Definition n0 : numeral := PropsSvg.nat_num [D0].
Example C122_points_example : points_text [XY n0 n0; XY PropsSvg.n4 n0; XY PropsSvg.n4 PropsSvg.n3] (L "0,0 4,0 4,3") /\
  Forall xy_ok [XY n0 n0; XY PropsSvg.n4 n0; XY PropsSvg.n4 PropsSvg.n3] /\ value_xy (XY PropsSvg.n4 PropsSvg.n3) = P 4 3.
Proof.
  split; [|split].
  - change (L "0,0 4,0 4,3") with ([] ++ numeral_text (xx (XY n0 n0)) ++ ","%char :: numeral_text (yy (XY n0 n0)) ++
      ([" "%char] ++ numeral_text (xx (XY PropsSvg.n4 n0)) ++ ","%char :: numeral_text (yy (XY PropsSvg.n4 n0)) ++
      ([" "%char] ++ numeral_text (xx (XY PropsSvg.n4 PropsSvg.n3)) ++ ","%char :: numeral_text (yy (XY PropsSvg.n4 PropsSvg.n3)) ++ []))).
    constructor; [blanks| |intros _; do 2 eexists; split; [reflexivity|left; reflexivity]].
    constructor; [blanks| |intros _; do 2 eexists; split; [reflexivity|left; reflexivity]].
    constructor; [blanks| |congruence]. constructor. blanks.
  - repeat constructor; apply PropsSvg.numeral_ok_dec; reflexivity.
  - unfold value_xy, PropsSvg.n4, PropsSvg.n3. cbn [xx yy]. rewrite !PropsGeomSvg.nat_value. reflexivity.
Qed.

(** ** C123: placement *)
Lemma mat_ext (m k : mat ROps) : (forall p : Pt, apply m p = apply k p) -> m = k.
Proof.
  intros Q. pose proof (Q (P 0 0)) as A. pose proof (Q (P 1 0)) as B. pose proof (Q (P 0 1)) as C. destruct m, k.
  pose proof (f_equal px A) as A1. pose proof (f_equal py A) as A2. pose proof (f_equal px B) as B1. pose proof (f_equal py B) as B2.
  pose proof (f_equal px C) as C1. pose proof (f_equal py C) as C2. cbn in A1, A2, B1, B2, C1, C2. f_equal; lra.
Qed.
Section C123.
  Context {E : Epsilon ROps}.
  Hypothesis He : 0 < EPS.
  Lemma gp1 (g : Gseg) : (match g with GEArc _ => False | _ => True end) -> g_p1 g = point_on g 0.
  Proof. destruct g; cbn; intros G; [symmetry; apply at_param_0|rewrite Rmult_0_l; symmetry; apply turned_0|symmetry; apply on_bez_0|reflexivity]. Qed.
  Lemma gp2 (g : Gseg) : (match g with GEArc _ => False | GArc a => wf_arc a | _ => True end) -> g_p2 g = point_on g 1.
  Proof. destruct g; cbn; intros G; [symmetry; apply at_param_1|rewrite Rmult_1_l; apply G|symmetry; apply on_bez_1|destruct G]. Qed.
  Lemma place_path_spec (m : mat ROps) (l : list Gseg) : Forall (movable (apply m)) l -> exists l', place_path m l = Ok l' /\ placed (apply m) l l'.
  Proof.
    induction 1 as [|g l Hg Hl (l' & Q & Pl)]; cbn [place_path].
    - exists []. split; [reflexivity|constructor].
    - rewrite (gp1 g), (gp2 g) by (destruct g; cbn in *; tauto). destruct (peq (point_on g 0) (point_on g 1)) eqn:PE.
      + exists l'. split; [exact Q|]. constructor; [apply (peq_true He); exact PE|exact Pl].
      + apply (peq_false He) in PE. 
        assert (TR : exists g', g_transform g m = Ok g' /\ carries (apply m) g g').
        { destruct g as [l0|a|b|ea]; cbn [g_transform movable] in *.
          - eexists. split; [reflexivity|]. intros u. cbn [point_on]. destruct l0 as [[x1 y1] [x2 y2]], m as [m0 m1 m2 m3 m4 m5]. unfold ltransform, at_param, apply. cbn [p1 p2 px py m00 m01 m02 m10 m11 m12].
            apply pt_ext; cbn; change (T ROps) with R in *; toR; ring.
          - destruct Hg as (W & S & mt & d & EM & IS & DD). rewrite (mat_ext mt m EM) in *.
            assert (PE' : EPS <= euclid (ap1 a) (ap2 a)).
            { cbn [point_on] in PE. rewrite Rmult_0_l, Rmult_1_l, turned_0 in PE. destruct W as (_ & _ & ->). exact PE. }
            destruct (C102_isometry_partial He a m d W S PE' IS DD) as (b & Qb & Wb & _ & Pb). exists (GArc b). rewrite Qb. split; [reflexivity|].
            intros u. cbn [point_on]. exact (Pb u).
          - eexists. split; [reflexivity|]. intros u. cbn [point_on]. apply transform_bez.
          - destruct Hg. }
        destruct TR as (g' & -> & CA). rewrite Q. cbn [rbind]. exists (g' :: l'). split; [reflexivity|]. apply placed_keep; assumption.
  Qed.
  Lemma place_paths_spec (m : mat ROps) (l : list (list Gseg)) : Forall (Forall (movable (apply m))) l ->
    exists l', place_paths m (map Path l) = Ok (map Path l') /\ Forall2 (placed (apply m)) l l'.
  Proof.
    induction 1 as [|g l Hg Hl (l' & Q & Pl)]; cbn [place_paths map].
    - exists []. split; [reflexivity|constructor].
    - destruct (place_path_spec m g Hg) as (g' & -> & Pg). rewrite Q. cbn [rbind]. exists (g' :: l'). split; [reflexivity|]. constructor; assumption.
  Qed.
  (** The map of an element with transform [m] below a parent transform. *)
  Definition total (m : mat ROps) (parent : option (mat ROps)) (p : Pt) : Pt := match parent with None => apply m p | Some pm => apply pm (apply m p) end.
  Lemma placed_ext (M M' : Pt -> Pt) l l' : (forall p, M p = M' p) -> placed M l l' -> placed M' l l'.
  Proof. intros Q PL. induction PL as [|g l l0 S PL IH|g g2 l l0 S CA PL IH]; [constructor|apply placed_skip; auto|apply placed_keep; auto]. intros u. rewrite CA. apply Q. Qed.
  Theorem C123_placement_partial (e : element) (m : mat ROps) (parent : option (mat ROps)) (l : list (list Gseg)) :
    svg_element_to_geometry e None None = Ok (map Path l) -> Forall (Forall (movable (total m parent))) l ->
    exists l', svg_element_to_geometry e (Some m) parent = Ok (map Path l') /\ Forall2 (placed (total m parent)) l l'.
  Proof.
    unfold svg_element_to_geometry. destruct (subpaths_of e) as [ps|]; cbn [rbind]; [|discriminate]. intros Q HM.
    assert (ps = map Path l) by (destruct ps; injection Q; auto). subst ps. clear Q.
    set (mt := match parent with None => m | Some pm => compose pm m end).
    assert (EM : forall p, apply mt p = total m parent p) by (intros p; unfold mt, total; destruct parent; [apply apply_compose|reflexivity]).
    assert (HM' : Forall (Forall (movable (apply mt))) l).
    { eapply Forall_impl; [|exact HM]. intros gs Hgs. eapply Forall_impl; [|exact Hgs]. intros g Hg. destruct g; cbn in *; auto.
      destruct Hg as (W & S & mt' & d & EM' & IS). split; [exact W|]. split; [exact S|]. exists mt', d. split; [|exact IS]. intros p. rewrite EM, EM'. reflexivity. }
    destruct (place_paths_spec mt l HM') as (l' & Q & PL). exists l'. destruct l as [|g l]; cbn [map].
    - inversion PL; subst. split; [reflexivity|constructor].
    - split.
      + unfold mt in *. destruct parent; cbn [rbind]; exact Q.
      + clear - PL EM. induction PL; constructor; auto. eapply placed_ext; [exact EM|assumption].
  Qed.
  (** Without a transform of its own an element below a parent transform is refused. *)
  Theorem C123_no_transform_refuted (e : element) (parent : mat ROps) x l :
    svg_element_to_geometry e None None = Ok (x :: l) -> svg_element_to_geometry e None (Some parent) = Raise TypeError.
  Proof.
    unfold svg_element_to_geometry. destruct (subpaths_of e) as [[|p ps]|]; cbn [rbind]; [discriminate| |discriminate]. reflexivity.
  Qed.
  (** A closed curve disappears. *)
  Theorem C123_loop_lost_refuted (e : element) (m : mat ROps) (b : bez ROps) : svg_element_to_geometry e None None = Ok [Path [GCurve b]] -> z1 b = z2 b ->
    svg_element_to_geometry e (Some m) None = Ok [Path []].
  Proof.
    unfold svg_element_to_geometry. destruct (subpaths_of e) as [ps|]; cbn [rbind]; [|discriminate]. intros Q Z.
    assert (ps = [Path [GCurve b]]) by (destruct ps; [discriminate|]; injection Q; intros; subst; reflexivity). subst ps. cbn [rbind place_paths place_path g_p1 g_p2]. rewrite Z.
    rewrite (proj2 (peq_true He (z2 b) (z2 b))); [reflexivity|]. rewrite (proj2 (euclid_zero _ _) eq_refl). exact He.
  Qed.
  (** Several elements: their paths one after the other; if one of them fails, all fails. *)
  Theorem C123_elements (es : list (element * option (mat ROps))) (parent : option (mat ROps)) l :
    svg_to_geometry es parent = Ok l <->
    exists ls, Forall2 (fun em k => svg_element_to_geometry (fst em) (snd em) parent = Ok k) es ls /\ l = List.concat ls.
  Proof.
    revert l. induction es as [|[e m] es IH]; intros l; cbn [svg_to_geometry].
    - split; [intros Q; injection Q as <-; exists []; split; [constructor|reflexivity]|]. intros (ls & F & ->). inversion F. reflexivity.
    - split.
      + destruct (svg_element_to_geometry e m parent) as [k|] eqn:Q1; cbn [rbind]; [|discriminate].
        destruct (svg_to_geometry es parent) as [ks|] eqn:Q2; cbn [rbind]; [|discriminate]. intros Q. assert (l = k ++ ks) as -> by (injection Q; auto).
        destruct (proj1 (IH ks) eq_refl) as (ls & F & ->). exists (k :: ls). split; [constructor; auto|reflexivity].
      + intros (ls & F & ->). inversion F as [|? k ? ks Q1 F']; subst. cbn [fst snd] in Q1. rewrite Q1. cbn [rbind].
        rewrite (proj2 (IH (List.concat ks)) (ex_intro _ ks (conj F' eq_refl))). reflexivity.
  Qed.
End C123.
(** The rectangle moved by (2, 5) below a parent that doubles everything. *)
Example C123_example : exists l l', svg_element_to_geometry (E:=eps6) c122_rect None None = Ok (map Path l) /\
  svg_element_to_geometry (E:=eps6) c122_rect (Some (translate 2 5)) (Some (mscale 2 2 None)) = Ok (map Path l') /\
  exists g' r, l' = [g' :: r] /\ point_on g' 0 = P 6 10.
Proof.
  destruct (@C122_rect_example eps6) as (A & B & C & D & F & G & _).
  destruct (@C122_rect eps6 c122_rect B 1 0 4 3 A C D F G ltac:(lra) ltac:(lra)) as (gs & Q & LE & J & _).
  assert (He : 0 < @EPS ROps eps6) by (unfold EPS, eps6; cbn; lra).
  assert (GE : gs = [GLine (Ln (P 1 0) (P 1 (0 + 3))); GLine (Ln (P 1 (0 + 3)) (P (1 + 4) (0 + 3))); GLine (Ln (P (1 + 4) (0 + 3)) (P (1 + 4) 0)); GLine (Ln (P (1 + 4) 0) (P 1 0))]).
  { unfold svg_element_to_geometry, subpaths_of in Q. rewrite (strip_named _ "rect" eq_refl A) in Q.
    change (str_eqb (L "rect") (L "path")) with false in Q. change (str_eqb (L "rect") (L "line")) with false in Q. change (str_eqb (L "rect") (L "ellipse")) with false in Q.
    change (str_eqb (L "rect") (L "rect")) with true in Q. cbv iota in Q. unfold convert_rect in Q.
    rewrite (number_attr _ "x" 1), (number_attr _ "y" 0), (number_attr _ "width" 4), (number_attr _ "height" 3) in Q by auto. cbn [rbind rmap GeomSvg.one] in Q. rnum.
    assert (Q1 := f_equal (fun r => match r with Ok [Path x] => x | _ => [] end) Q). symmetry. exact Q1. }
  destruct (@C123_placement_partial eps6 He c122_rect (translate 2 5) (Some (mscale 2 2 None)) [gs] Q) as (l' & Q' & PL).
  { rewrite GE. repeat constructor. }
  exists [gs], l'. split; [exact Q|]. split; [exact Q'|]. inversion PL as [|? gs' ? r P1 P2]; subst l'. inversion P2; subst. 
  inversion P1 as [|? ? ? S _|? g' ? r S CA PR]; subst.
  - exfalso. cbn [point_on] in S. rewrite at_param_0, at_param_1 in S. cbn [p1 p2] in S.
    assert (X : euclid (P 1 0) (P 1 (0 + 3)) = 3) by (apply euclid_unique; cbn; lra). rewrite X in S. unfold EPS, eps6 in S. cbn in S. lra.
  - exists g', r. split; [reflexivity|]. rewrite CA. cbn [point_on]. rewrite at_param_0. cbn [p1 total]. unfold translate, mscale, apply. apply pt_ext; cbn; lra.
Qed.
