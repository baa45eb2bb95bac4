(** * PropsFillet: C93-C96, rounding corners (tcnc/geom/fillet.py, tcnc/cam/fillet.py). *)
From Verif Require Import Num NumR Geom GeomR GeomSpec GeomProofs GeomProofs2 GeomProofs3 GeomProofs4 GeomProofs5 GeomProofs7 Gcode Cam CamR Offset OffsetSpec OffsetProofs Fillet FilletSpec FilletProofs FilletProofs2 FilletProofs3 FilletProofs4.
From Coq Require Import ZArith Reals Lra Lia Bool List Psatz.
Import ListNotations.
Local Open Scope R_scope.

Section F.
  Context {E : Epsilon ROps}.
  Hypothesis He : 0 < EPS.

  Lemma unit_of (u v L : R) : L * L = u * u + v * v -> L <> 0 -> u / L * (u / L) + v / L * (v / L) = 1.
  Proof. intros H H0. transitivity ((u * u + v * v) / (L * L)); [field; exact H0|]. rewrite <- H. field. exact H0. Qed.
  Lemma setback_norm (u v w z L M r : R) : 0 < L -> 0 < M ->
    r * Rabs (u * z - v * w) / (L * M + (u * w + v * z)) =
    r * Rabs (u / L * (z / M) - v / L * (w / M)) / (1 + (u / L * (w / M) + v / L * (z / M))).
  Proof.
    intros H1 H2. replace (u / L * (z / M) - v / L * (w / M)) with ((u * z - v * w) * / (L * M)) by (field; lra).
    rewrite Rabs_mult, (Rabs_right (/ (L * M))) by (apply Rle_ge, Rlt_le, Rinv_0_lt_compat; nra).
    replace (1 + (u / L * (w / M) + v / L * (z / M))) with ((L * M + (u * w + v * z)) * / (L * M)) by (field; lra).
    assert (Hn : L * M <> 0) by nra. generalize (L * M + (u * w + v * z)). intros X. generalize dependent (L * M). intros n Hn.
    unfold Rdiv. rewrite (Rinv_mult X), Rinv_inv. transitivity (r * Rabs (u * z - v * w) * / X * (/ n * n)); [rewrite Rinv_l by exact Hn; ring|ring].
  Qed.
  Lemma corner_form (l1 l2 : Line_) : EPS <= seg_len l1 -> EPS <= seg_len l2 -> p2 l1 = p1 l2 ->
    exists x y a b c d, a * a + b * b = 1 /\ c * c + d * d = 1 /\
      l1 = Ln (P (x - seg_len l1 * a)%R (y - seg_len l1 * b)%R) (P x y) /\
      l2 = Ln (P x y) (P (x + seg_len l2 * c)%R (y + seg_len l2 * d)%R) /\
      heading (SLine l1) 1 = P a b /\ heading (SLine l2) 0 = P c d /\
      forall r, setback l1 l2 r = r * Rabs (a * d - b * c) / (1 + (a * c + b * d)).
  Proof.
    destruct l1 as [A B], l2 as [B' D]. cbn [p1 p2]. intros H1 H2 <-.
    set (L1 := seg_len (Ln A B)) in *. set (L2 := seg_len (Ln B D)) in *.
    assert (S1 : L1 * L1 = (px A - px B) * (px A - px B) + (py A - py B) * (py A - py B)) by (unfold L1, seg_len; apply euclid_sqr).
    assert (S2 : L2 * L2 = (px B - px D) * (px B - px D) + (py B - py D) * (py B - py D)) by (unfold L2, seg_len; apply euclid_sqr).
    exists (px B), (py B), ((px B - px A) / L1), ((py B - py A) / L1), ((px D - px B) / L2), ((py D - py B) / L2).
    split; [apply unit_of; [rewrite S1; ring|lra]|].
    split; [apply unit_of; [rewrite S2; ring|lra]|].
    split; [f_equal; apply pt_ext; cbn [px py]; match goal with |- ?a = ?b => change (@eq R a b) end; try reflexivity; symmetry; field; lra|].
    split; [f_equal; apply pt_ext; cbn [px py]; match goal with |- ?a = ?b => change (@eq R a b) end; try reflexivity; symmetry; field; lra|].
    split; [reflexivity|]. split; [reflexivity|]. intros r. unfold setback, dir_cross, dir_dot. fold L1 L2. cbn [p1 p2 px py].
    apply setback_norm; lra.
  Qed.

  (** ** C93: a fillet between two connected lines. *)
  (** Two lines that meet in a corner and are both at least [setback] long are joined by an arc of the
      given radius that leaves the first line [setback] before its end and joins the second [setback]
      after its start, tangent to both and turning by less than half a circle. *)
  Theorem C93_fits (l1 l2 : Line_) (r : R) : EPS <= seg_len l1 -> EPS <= seg_len l2 -> EPS <= r -> p2 l1 = p1 l2 ->
    EPS <= Rabs (dir_cross l1 l2) ->
    let t := setback l1 l2 r in
    t <= seg_len l1 -> t <= seg_len l2 -> EPS <= euclid (before_end l1 t) (after_start l2 t) ->
    exists f, fillet_line_line l1 l2 r = Ok (Some f) /\ wf_arc f /\ radius f = r /\
      ap1 f = before_end l1 t /\ ap2 f = after_start l2 t /\ - PI < sweep f < PI /\ sweep f <> 0 /\
      tangent_to (SLine l1) f (SLine l2).
  Proof.
    intros H1 H2 Hr Hc Hx t T1 T2 Hd.
    destruct (corner_form l1 l2 H1 H2 Hc) as (x & y & a & b & c & d & U1 & U2 & Q1 & Q2 & D1 & D2 & St).
    set (L1 := seg_len l1) in *. set (L2 := seg_len l2) in *. unfold before_end, after_start in *. fold L1 L2 in Hd |- *.
    unfold t in *. rewrite St in *. unfold tangent_to. rewrite D1, D2. rewrite Q1, Q2 in Hx, Hd |- *.
    destruct (corner_fits He x y a b c d L1 L2 r U1 U2 H1 H2 Hr Hx T1 T2 Hd) as (f & F & W & Rf & _ & A1 & A2 & S1 & S2 & G1 & G2).
    exists f. split; [exact F|]. split; [exact W|]. split; [exact Rf|]. split; [exact A1|]. split; [exact A2|]. split; [exact S1|]. split; [exact S2|].
    split; [symmetry; exact G1|exact G2].
  Qed.
  (** If either line is shorter than the setback (by more than the tolerance allows) there is no fillet. *)
  Theorem C93_too_short (l1 l2 : Line_) (r : R) : EPS <= seg_len l1 -> EPS <= seg_len l2 -> EPS <= r -> p2 l1 = p1 l2 ->
    EPS <= Rabs (dir_cross l1 l2) ->
    let t := setback l1 l2 r in
    let slack := EPS * EPS + 2 * r * EPS in
    (seg_len l1 < t /\ slack <= (t - seg_len l1) * (t - seg_len l1)) \/ (seg_len l2 < t /\ slack <= (t - seg_len l2) * (t - seg_len l2)) ->
    fillet_line_line l1 l2 r = Ok None.
  Proof.
    intros H1 H2 Hr Hc Hx t slack HH.
    destruct (corner_form l1 l2 H1 H2 Hc) as (x & y & a & b & c & d & U1 & U2 & Q1 & Q2 & _ & _ & St).
    set (L1 := seg_len l1) in *. set (L2 := seg_len l2) in *. unfold t in *. rewrite St in *. rewrite Q1, Q2 in Hx |- *.
    apply (corner_misfits He x y a b c d L1 L2 r U1 U2 H1 H2 Hr Hx HH).
  Qed.
  (** Lines that do not turn (or turn straight back) get no fillet. *)
  Theorem C93_no_turn (l1 l2 : Line_) (r : R) : EPS <= seg_len l1 -> EPS <= seg_len l2 -> EPS <= r ->
    Rabs (dir_cross l1 l2) < EPS -> fillet_line_line l1 l2 r = Ok None.
  Proof.
    intros H1 H2 Hr Hx. unfold fillet_line_line.
    assert (Ho : EPS <= Rabs (mul (n := ROps) r (of_Z (n := ROps) (which_side l1 (p2 l2) false)))).
    { rnum. unfold which_side. cbn [andb]. destruct (Num.leb _ _).
      - replace (r * IZR 1) with r by ring. rewrite Rabs_right; lra.
      - replace (r * IZR (-1)) with (- r) by ring. rewrite Rabs_Ropp, Rabs_right; lra. }
    set (off := mul _ _) in *. rewrite (offset_spec l1), (offset_spec l2) by assumption.
    set (m1 := Ln _ _). set (m2 := Ln _ _).
    assert (Hm : dir_cross m1 m2 = dir_cross l1 l2) by (unfold m1, m2, dir_cross, moved; cbn [px py p1 p2]; ring).
    destruct (intersection m1 m2 false false false) as [c|] eqn:I; [|reflexivity]. exfalso. unfold intersection in I.
    destruct (intersection_mu m1 m2 false false false) as [mu|] eqn:M; [|discriminate].
    apply intersection_mu_spec in M as [M _]; [|exact He]. rewrite Hm in M. lra.
  Qed.
  (** Whatever the two lines, connected or not, an arc that is returned starts on the first, ends on
      the second and has the given radius within the tolerance. *)
  Theorem C93_sound (l1 l2 : Line_) (r : R) f : fillet_line_line l1 l2 r = Ok (Some f) ->
    on_segment l1 (ap1 f) /\ on_segment l2 (ap2 f) /\ EPS <= euclid (ap1 f) (ap2 f) /\
    Rabs (radius f - r) < EPS /\ Rabs (euclid (ap2 f) (center f) - r) < EPS.
  Proof. intros H. apply (line_line_sound He) in H. tauto. Qed.
  (** A square corner with a fillet of radius 1. *)
  Example C93_example : EPS <= 1 ->
    let l1 : Line_ := Ln (P 0 0) (P 3 0) in let l2 : Line_ := Ln (P 3 0) (P 3 4) in
    exists f, fillet_line_line l1 l2 1 = Ok (Some f) /\ ap1 f = P 2 0 /\ ap2 f = P 3 1 /\ radius f = 1.
  Proof.
    intros H1 l1 l2.
    assert (S1 : seg_len l1 = 3) by (unfold seg_len; apply euclid_unique; cbn; lra).
    assert (S2 : seg_len l2 = 4) by (unfold seg_len; apply euclid_unique; cbn; lra).
    assert (X : dir_cross l1 l2 = 12) by (unfold dir_cross; cbn; ring).
    assert (T : setback l1 l2 1 = 1).
    { unfold setback, dir_dot. rewrite X, S1, S2, Rabs_right by lra. cbn. field. }
    assert (B : before_end l1 1 = P 2 0) by (unfold before_end; rewrite S1; unfold at_param; cbn [px py p1 p2 l1]; apply pt_ext; cbn [px py]; toR; field).
    assert (A : after_start l2 1 = P 3 1) by (unfold after_start; rewrite S2; unfold at_param; cbn [px py p1 p2 l2]; apply pt_ext; cbn [px py]; toR; field).
    destruct (C93_fits l1 l2 1) as (f & F & _ & Rf & F1 & F2 & _); rewrite ?S1, ?S2, ?X, ?T, ?A, ?B; try lra; try reflexivity.
    - rewrite Rabs_right; lra.
    - apply Rle_trans with 1; [exact H1|]. apply Rsqr_incr_0_var; [|apply euclid_pos]. unfold Rsqr. rewrite euclid_sqr. cbn. lra.
    - rewrite T, A, B in *. eauto 6.
  Qed.

  (** ** C94: rounding a whole path. *)
  Lemma cut_ends (r : R) (s t a f b : Seg) : insert_fillet r s t = Ok (Some (a, f, b)) ->
    s_p1 a = s_p1 s /\ s_p2 a = s_p1 f /\ s_p2 f = s_p1 b /\ s_p2 b = s_p2 t.
  Proof.
    unfold insert_fillet. destruct (create_fillet_arc s t r) as [[fa|]|]; cbn; try discriminate. intros H. injection H as <- <- <-.
    destruct s, t; cbn; auto.
  Qed.
  Lemma adjust_geo (s f t s' f' t' : CSeg) : adjust_hints s f t = Ok (s', f', t') -> geo s' = geo s /\ geo f' = geo f /\ geo t' = geo t.
  Proof.
    unfold adjust_hints. destruct (smu _ _) as [m|]; cbn [rbind]; [|discriminate].
    destruct (negb (is_zero _)); (destruct (smu _ _) as [m'|]; cbn [rbind]; [|discriminate]); destruct (negb (is_zero _));
      intros H; injection H as <- <- <-; cbn; auto.
  Qed.
  Lemma adjusted_cuts (r : R) adj mark (s t a f b : CSeg) : create_adjusted_fillet r adj mark s t = Ok (Some (a, f, b)) ->
    insert_fillet r (geo s) (geo t) = Ok (Some (geo a, geo f, geo b)).
  Proof.
    unfold create_adjusted_fillet, insert_fillet. destruct (segments_are_g1 _ _ _); [discriminate|].
    destruct (create_fillet_arc (geo s) (geo t) r) as [[fa|]|]; cbn [rbind rmap]; try discriminate.
    set (f0 := mkseg _ _ _ _ _ _ _). destruct adj.
    - destruct (adjust_hints s f0 t) as [[[s' f'] t']|] eqn:A; cbn [rbind]; [|discriminate]. apply adjust_geo in A as (A1 & A2 & A3).
      intros H. injection H as <- <- <-. cbn. rewrite A1, A2, A3. reflexivity.
    - cbn [rbind]. intros H. injection H as <- <- <-. reflexivity.
  Qed.
  Lemma cam_ends (r : R) adj mark (s t a f b : CSeg) : create_adjusted_fillet r adj mark s t = Ok (Some (a, f, b)) ->
    s_p1 (geo a) = s_p1 (geo s) /\ s_p2 (geo a) = s_p1 (geo f) /\ s_p2 (geo f) = s_p1 (geo b) /\ s_p2 (geo b) = s_p2 (geo t).
  Proof. intros H. apply adjusted_cuts in H. exact (cut_ends _ _ _ _ _ _ H). Qed.
  Lemma cut_parts (r : R) (s t a f b : Seg) : is_line s -> is_line t -> insert_fillet r s t = Ok (Some (a, f, b)) ->
    part s a /\ part t b /\ exists fa, f = SArc fa /\ Rabs (radius fa - r) < EPS.
  Proof.
    destruct s as [l|], t as [m|]; cbn; try tauto. intros _ _. unfold insert_fillet. cbn [create_fillet_arc].
    destruct (fillet_line_line l m r) as [[fa|]|] eqn:Q; cbn; try discriminate. intros H. injection H as <- <- <-.
    apply C93_sound in Q as ((u & Hu & Q1) & (v & Hv & Q2) & _ & Q3 & _). split; [|split].
    - exists 0, u. split; [lra|]. split; [lra|]. split; [lra|]. now rewrite at_param_0, <- Q1.
    - exists v, 1. split; [lra|]. split; [lra|]. split; [lra|]. now rewrite at_param_1, <- Q2.
    - eauto.
  Qed.
  Lemma line_part s a : is_line s -> part s a -> is_line a.
  Proof. destruct s, a; cbn; tauto. Qed.

  (** A path that was connected (within any tolerance) still is; it starts and ends where it did, or it
      was closed and is now closed by a fillet.  If no corner could be rounded it is unchanged. *)
  Theorem C94_connected (path : Path) (r : R) close adj mark out eps : 0 < eps ->
    fillet_path path r close adj mark = Ok out -> unbroken eps (map geo path) ->
    unbroken eps (map geo out) /\
    (out = path \/
     exists s0 rest h z, path = s0 :: rest /\ out = h :: z /\ (length path < length out)%nat /\
     (seg_begin (geo h) = seg_begin (geo s0) /\ seg_finish (geo (last z h)) = seg_finish (geo (last rest s0)) \/
      close = true /\ euclid (seg_begin (geo s0)) (seg_finish (geo (last rest s0))) < EPS /\
      seg_finish (geo (last z h)) = seg_begin (geo h))).
  Proof.
    intros Hp H U. apply (path_spec geo _ (cam_ends r adj mark) eps Hp) in H as [->|(s0 & rest & -> & L & U' & h & z & -> & D)]; [auto|].
    split; [auto|]. right. exists s0, rest, h, z. do 3 (split; [auto|]). destruct D as [D|(D1 & D2 & D3)]; [left; exact D|].
    right. split; [exact D1|]. split; [|exact D3]. apply (peq_true He) in D2. exact D2.
  Qed.
  (** The same for the geometric function. *)
  Theorem C94_geom_connected (path : list Seg) (r : R) close out eps : 0 < eps ->
    geom_fillet_path path r close = Ok out -> unbroken eps path ->
    unbroken eps out /\
    (out = path \/
     exists s0 rest h z, path = s0 :: rest /\ out = h :: z /\ (length path < length out)%nat /\
     (seg_begin h = seg_begin s0 /\ seg_finish (last z h) = seg_finish (last rest s0) \/
      close = true /\ euclid (seg_begin s0) (seg_finish (last rest s0)) < EPS /\ seg_finish (last z h) = seg_begin h)).
  Proof.
    intros Hp H U. apply (path_spec (fun s => s) _ (cut_ends r) eps Hp) in H as [->|(s0 & rest & -> & L & U' & h & z & -> & D)]; [auto|].
    rewrite !map_id in U'. split; [auto|]. right. exists s0, rest, h, z. do 3 (split; [auto|]). destruct D as [D|(D1 & D2 & D3)]; [left; exact D|].
    right. split; [exact D1|]. split; [|exact D3]. apply (peq_true He) in D2. exact D2.
  Qed.
  (** A polyline becomes the parts of its sides, in order, and arcs of the given radius between them;
      no two fillets overlap on a side. *)
  Theorem C94_polyline (path : Path) (r : R) close adj mark out : path <> [] -> (forall s, In s path -> is_line (geo s)) ->
    fillet_path path r close adj mark = Ok out ->
    let ok (f : Arc_) := Rabs (radius f - r) < EPS in
    rounded ok (map geo path) (map geo out) \/ close = true /\ round_closed ok (map geo path) (map geo out).
  Proof.
    intros Hn HK H ok. apply (path_rounded geo _ (cam_ends r adj mark) is_line ok) in H; auto.
    - exact line_part.
    - intros s t a f b Ks Kt M. apply adjusted_cuts in M. eapply cut_parts; eauto.
  Qed.
  Theorem C94_geom_polyline (path : list Seg) (r : R) close out : path <> [] -> (forall s, In s path -> is_line s) ->
    geom_fillet_path path r close = Ok out ->
    let ok (f : Arc_) := Rabs (radius f - r) < EPS in
    rounded ok path out \/ close = true /\ round_closed ok path out.
  Proof.
    intros Hn HK H ok. apply (path_rounded (fun s => s) _ (cut_ends r) is_line ok) in H; auto.
    - rewrite !map_id in H. exact H.
    - exact line_part.
    - intros s t a f b Ks Kt M. eapply cut_parts; eauto.
  Qed.
  (** [fillet_polygon]: the same for a list of vertices. *)
  Fixpoint sides (a : Pt) (l : list Pt) : list Seg := match l with [] => [] | b :: t => SLine (Ln a b) :: sides b t end.
  Lemma polygon_as_path (r : R) l : forall q s acc, s_p2 s = q -> polygon_loop r s acc l = fillet_loop (insert_fillet r) s acc (sides q l).
  Proof.
    induction l as [|p l IH]; intros q s acc Q; cbn [polygon_loop fillet_loop sides]; [reflexivity|]. rewrite Q.
    destruct (insert_fillet r s (SLine (Ln q p))) as [[[[a f] b]|]|] eqn:M; cbn [rbind]; [| |reflexivity].
    - apply IH. apply cut_ends in M as (_ & _ & _ & M). exact M.
    - apply IH. reflexivity.
  Qed.
  Lemma sides_lines a l s : In s (sides a l) -> is_line s.
  Proof. revert a. induction l as [|b l IH]; intros a; [intros []|]. intros [<-|H]; [exact Logic.I|eapply IH; eauto]. Qed.
  Theorem C94_polygon (a b : Pt) (t : list Pt) (r : R) close out : fillet_polygon (a :: b :: t) r close = Ok out ->
    let ok (f : Arc_) := Rabs (radius f - r) < EPS in
    rounded ok (sides a (b :: t)) out \/ close = true /\ round_closed ok (sides a (b :: t)) out.
  Proof.
    intros H ok. unfold fillet_polygon in H. destruct t as [|c t]; [injection H as <-; left; apply rounded_refl|].
    rewrite (polygon_as_path r (c :: t) b) in H by reflexivity.
    destruct (fillet_loop _ _ _ _) as [np|] eqn:L; cbn [rbind] in H; [|discriminate].
    assert (KP : forall s t a f b, is_line s -> is_line t -> insert_fillet r s t = Ok (Some (a, f, b)) ->
      part s a /\ part t b /\ exists fa, f = SArc fa /\ ok fa) by (intros *; apply cut_parts).
    apply (loop_rounded (fun s => s) _ (cut_ends r) is_line ok line_part KP (sides b (c :: t)) (SLine (Ln a b))) in L;
      [|exact Logic.I|intros; eapply sides_lines; eauto|apply part_refl|reflexivity].
    destruct L as (h & body & -> & Rd & B1). cbn [app] in H. rewrite !map_id in Rd.
    destruct (_ && _ && _)%bool eqn:C in H; [|injection H as <-; left; exact Rd].
    apply andb_true_iff in C as [C Cp]. apply andb_true_iff in C as [Cc Cl]. unfold fillet_close_end in H.
    destruct (insert_fillet r (last (h :: body) _) h) as [[[[a' f] b']|]|] eqn:M; cbn [rbind] in H; [| |discriminate]; injection H as <-; [|left; exact Rd].
    right. split; [exact Cc|]. rewrite <- (map_id (close_with _ _ _ _)).
    eapply (close_rounded (fun s => s) _ (cut_ends r) is_line ok line_part KP); [rewrite map_id; exact Rd| |exact M].
    intros s Hs. exact (sides_lines a (b :: c :: t) s Hs).
  Qed.
  Theorem C94_polygon_trivial (r : R) close a : fillet_polygon [] r close = Ok [] /\ fillet_polygon [a] r close = Ok [].
  Proof. split; reflexivity. Qed.
  (** If every corner has room, every corner is rounded, with arcs of exactly the given radius tangent
      to the sides. *)
  Lemma part_heading (l k : Line_) : part (SLine l) (SLine k) -> 0 < seg_len k -> 0 < seg_len l ->
    heading (SLine k) 0 = heading (SLine l) 0.
  Proof.
    intros (u & v & U0 & UV & V1 & ->) Hk Hl. cbn [heading].
    assert (S : seg_len (Ln (at_param l u) (at_param l v)) = (v - u) * seg_len l).
    { destruct l as [A B]. unfold seg_len. cbn [p1 p2]. apply euclid_unique; [pose proof (euclid_pos A B); nra|].
      transitivity ((v - u) * (v - u) * (euclid A B * euclid A B)); [toR; ring|rewrite euclid_sqr; unfold at_param; cbn [px py p1 p2]; toR; ring]. }
    assert (Dv : v - u <> 0). { intros Z. rewrite S, Z in Hk. lra. }
    rewrite S. destruct l as [A B]. set (L := seg_len (Ln A B)) in *. unfold at_param. cbn [px py p1 p2].
    apply pt_ext; cbn [px py]; match goal with |- ?a = ?b => change (@eq R a b) end; field; split; lra.
  Qed.
  Lemma loop_smooth (r : R) : EPS <= r -> forall rest o l acc, part (SLine o) (SLine l) -> p2 l = p2 o -> EPS <= seg_len l ->
    all_roundable EPS r l rest ->
    exists k out, fillet_loop (insert_fillet r) (SLine l) acc (map (fun x => SLine x) rest) = Ok (acc ++ SLine k :: out) /\
      smooth r (o :: rest) (SLine k :: out) /\ p1 k = p1 l.
  Proof.
    intros Hr. induction rest as [|m rest IH]; intros o l acc Po Eo Hl; cbn [fillet_loop map all_roundable].
    - intros _. exists l, []. split; [reflexivity|]. split; [|reflexivity]. constructor; [exact Po|exact Eo].
    - intros [(H1 & H2 & H3 & H4 & H5 & H6 & H7) Ha]. set (t := setback l m r) in *.
      destruct (C93_fits l m r H1 H2 Hr H3 H4 H5 H6 H7) as (f & F & W & Rf & F1 & F2 & _ & _ & T1 & T2). fold t in F1, F2.
      unfold insert_fillet at 1. cbn [create_fillet_arc]. rewrite F. cbn [rmap option_map connect_fillet rbind cut_first cut_second]. rewrite F2.
      assert (Tp : 0 <= t).
      { unfold t, setback, Rdiv. apply Rmult_le_pos; [apply Rmult_le_pos; [lra|apply Rabs_pos]|]. apply Rlt_le, Rinv_0_lt_compat.
        destruct (corner_form l m H1 H2 H3) as (x & y & a & b & c & d & U1 & U2 & Q1 & Q2 & _ & _ & _).
        set (L1 := seg_len l) in *. set (L2 := seg_len m) in *. rewrite Q1, Q2 in H4 |- *. unfold dir_cross, dir_dot in *. cbn [px py p1 p2] in *. toR.
        match type of H4 with EPS <= Rabs ?z => replace z with (L1 * L2 * (a * d - b * c)) in H4 by ring end.
        match goal with |- 0 < ?z => replace z with (L1 * L2 * (1 + (a * c + b * d))) by ring end.
        assert (Hs : (a * d - b * c) * (a * d - b * c) + (a * c + b * d) * (a * c + b * d) = 1).
        { transitivity ((a * a + b * b) * (c * c + d * d)); [ring|rewrite U1, U2; ring]. }
        assert (Hn : a * d - b * c <> 0) by (intros Z; rewrite Z, Rmult_0_r, Rabs_R0 in H4; lra).
        assert (0 < L1 * L2) by nra. apply Rmult_lt_0_compat; [assumption|]. assert (0 < (a * d - b * c) * (a * d - b * c)) by nra. nra. }
      assert (Pm : part (SLine m) (SLine (Ln (after_start m t) (p2 m)))).
      { exists (t / seg_len m), 1. rewrite at_param_1. repeat split; try lra.
        - apply Rmult_le_pos; [exact Tp|]. apply Rlt_le, Rinv_0_lt_compat. lra.
        - apply (Rmult_le_reg_r (seg_len m)); [lra|]. replace (t / seg_len m * seg_len m) with t by (field; lra). lra. }
      assert (Pl : part (SLine l) (SLine (Ln (p1 l) (ap1 f)))).
      { exists 0, (1 - t / seg_len l). rewrite at_param_0, F1. assert (0 <= t / seg_len l) by (apply Rmult_le_pos; [exact Tp|apply Rlt_le, Rinv_0_lt_compat; lra]).
        assert (t / seg_len l <= 1) by (apply (Rmult_le_reg_r (seg_len l)); [lra|]; replace (t / seg_len l * seg_len l) with t by (field; lra); lra).
        repeat split; lra. }
      assert (Hol : 0 < seg_len o).
      { destruct Po as (u & v & U0 & UV & V1 & Ql). destruct (Rle_lt_dec (seg_len o) 0) as [Z|Z]; [|exact Z]. exfalso.
        assert (Z0 : seg_len o = 0) by (unfold seg_len in *; pose proof (euclid_pos (p1 o) (p2 o)); lra). unfold seg_len in Z0. apply euclid_zero in Z0.
        assert (seg_len l = 0); [|lra]. rewrite Ql. unfold seg_len. cbn [p1 p2]. apply euclid_zero. unfold at_param. rewrite Z0. f_equal; toR; ring. }
      destruct rest as [|m' rest].
      + cbn [map fillet_loop]. eexists. eexists. split; [rewrite <- app_assoc; reflexivity|]. split; [|reflexivity].
        cbn [app]. apply (sm_corner r o _ f m _ [] []); auto.
        * exact (part_trans _ _ _ Po Pl).
        * split; [|exact T2]. rewrite <- T1. symmetry. exact (part_heading o l Po ltac:(lra) Hol).
        * constructor; [exact Pm|reflexivity].
      + specialize (IH m (Ln (after_start m t) (p2 m)) (acc ++ [SLine (Ln (p1 l) (ap1 f)); SArc f]) Pm eq_refl).
        destruct IH as (k & out & IH1 & IH2 & IH3); [cbn [all_roundable] in Ha; destruct Ha as [(Q & _) _]; exact Q|exact Ha|].
        rewrite IH1. exists (Ln (p1 l) (ap1 f)), (SArc f :: SLine k :: out). split; [rewrite <- app_assoc; reflexivity|]. split; [|reflexivity].
        apply sm_corner; auto.
        * exact (part_trans _ _ _ Po Pl).
        * cbn [p1 p2] in IH3. rewrite IH3. exact F2.
        * split; [|exact T2]. rewrite <- T1. symmetry. exact (part_heading o l Po ltac:(lra) Hol).
  Qed.
  Lemma smooth_length r p out : smooth r p out -> length out = (2 * length p - 1)%nat.
  Proof. induction 1; cbn [length] in *; lia. Qed.
  Theorem C94_rounds_every_corner (l : Line_) (rest : list Line_) (r : R) : EPS <= r -> EPS <= seg_len l ->
    all_roundable EPS r l rest ->
    exists out, geom_fillet_path (map (fun x => SLine x) (l :: rest)) r false = Ok out /\ smooth r (l :: rest) out.
  Proof.
    intros Hr Hl Ha. destruct (loop_smooth r Hr rest l l [] (part_refl _) eq_refl Hl Ha) as (k & out & L & Sm & _). cbn [app] in L.
    destruct rest as [|m rest].
    - exists [SLine l]. split; [reflexivity|]. constructor; [apply part_refl|reflexivity].
    - exists (SLine k :: out). split; [|exact Sm]. unfold geom_fillet_path, fillet_path_gen. cbn [map].
      destruct (ltb r EPS) eqn:Z; [exfalso; toR; apply Rltb_true in Z; lra|]. cbn [tl andb].
      cbn [map] in L. rewrite L. cbn [rbind]. apply smooth_length in Sm.
      match goal with |- context [Nat.ltb ?u ?v] => destruct (Nat.ltb u v) eqn:Z2 end; [reflexivity|]. exfalso. apply Nat.ltb_ge in Z2.
      rewrite Sm in Z2. cbn [length] in Z2. rewrite map_length in Z2. lia.
  Qed.
  Lemma smooth_last r l rest out : smooth r (l :: rest) out -> rest <> [] ->
    exists k mid z, out = SLine k :: mid ++ [SLine z] /\ part (SLine (last rest l)) (SLine z) /\ p2 z = p2 (last rest l).
  Proof.
    assert (X : forall p out, smooth r p out -> forall d, exists mid z, out = mid ++ [SLine z] /\ part (SLine (last p d)) (SLine z) /\ p2 z = p2 (last p d) /\
      (mid = [] \/ exists k mid', mid = SLine k :: mid')).
    { induction 1 as [l0 k Pk Ek|l0 k f m k' rest0 out0 Pk Wf Rf F1 F2 Tg Sm IH]; intros d.
      - exists [], k. repeat split; auto.
      - destruct (IH d) as (mid & z & Q & Z1 & Z2 & _). exists (SLine k :: SArc f :: mid), z. cbn [app]. rewrite Q.
        split; [reflexivity|]. split; [exact Z1|]. split; [exact Z2|]. right. eauto. }
    intros S Hn. destruct (X _ _ S l) as (mid & z & -> & Z1 & Z2 & C). destruct rest as [|m rest]; [congruence|].
    replace (last (m :: rest) l) with (last (l :: m :: rest) l) by reflexivity.
    destruct C as [->|(k & mid' & ->)]; [inversion S|]. exists k, mid', z. auto.
  Qed.
  (** A polygon: if the path has at least three sides and ends where it starts, and the corner between what is
      left of its last side and what is left of its first has room too, closing rounds it as well. *)
  Theorem C94_rounds_closed (l : Line_) (rest : list Line_) (r : R) : EPS <= r -> EPS <= seg_len l ->
    all_roundable EPS r l rest -> (2 <= length rest)%nat -> p2 (last rest l) = p1 l ->
    exists k mid z, let p := map (fun x => SLine x) (l :: rest) in
      geom_fillet_path p r false = Ok (SLine k :: mid ++ [SLine z]) /\
      smooth r (l :: rest) (SLine k :: mid ++ [SLine z]) /\ p1 k = p1 l /\ p2 z = p1 l /\
      (roundable EPS r z k -> exists f, wf_arc f /\ radius f = r /\ tangent_to (SLine z) f (SLine k) /\
         ap1 f = before_end z (setback z k r) /\ ap2 f = after_start k (setback z k r) /\
         geom_fillet_path p r true = Ok (SLine (Ln (ap2 f) (p2 k)) :: mid ++ [SLine (Ln (p1 z) (ap1 f)); SArc f])).
  Proof.
    intros Hr Hl Ha Hn Hc. destruct (loop_smooth r Hr rest l l [] (part_refl _) eq_refl Hl Ha) as (k & out & L & Sm & K1). cbn [app] in L.
    assert (Hn' : rest <> []) by (intros ->; cbn in Hn; lia).
    destruct (smooth_last _ _ _ _ Sm Hn') as (k' & mid & z & Q & Z1 & Z2). injection Q as <- ->.
    exists k, mid, z. cbv zeta. destruct rest as [|m [|n rest]]; [congruence|cbn in Hn; lia|].
    unfold geom_fillet_path, fillet_path_gen. cbn [map]. destruct (ltb r EPS) eqn:Z; [exfalso; toR; apply Rltb_true in Z; lra|].
    cbn [tl]. cbn [map] in L. rewrite L. cbn [rbind andb].
    pose proof (smooth_length _ _ _ Sm) as Sl.
    assert (Lt : forall o : list Seg, length o = length (SLine k :: mid ++ [SLine z]) ->
      Nat.ltb (length (SLine l :: SLine m :: SLine n :: map (fun x => SLine x) rest)) (length o) = true).
    { intros o ->. apply Nat.ltb_lt. rewrite Sl. cbn [length]. rewrite map_length. lia. }
    split; [now rewrite Lt|]. split; [exact Sm|]. split; [exact K1|]. split; [congruence|].
    intros (R1 & R2 & R3 & R4 & R5 & R6 & R7).
    destruct (C93_fits z k r R1 R2 Hr R3 R4 R5 R6 R7) as (f & F & W & Rf & F1 & F2 & _ & _ & T1 & T2).
    exists f. split; [exact W|]. split; [exact Rf|]. split; [split; assumption|]. split; [exact F1|]. split; [exact F2|].
    assert (Pe : peq (s_p1 (SLine l)) (s_p2 (last (SLine l :: SLine m :: SLine n :: map (fun x => SLine x) rest) (SLine l))) = true).
    { replace (last _ (SLine l)) with (SLine (last (m :: n :: rest) l)).
      - cbn [s_p1 s_p2]. rewrite Hc. apply (peq_true He). apply self_close. exact He.
      - clear. cbn [last]. revert n. induction rest as [|x t IH]; intros n; [reflexivity|]. cbn [map]. exact (IH x). }
    match goal with |- context [Nat.ltb 2 ?x && _] => replace (Nat.ltb 2 x) with true by reflexivity end.
    cbn [andb]. rewrite Pe. unfold fillet_close_end.
    replace (last (SLine k :: mid ++ [SLine z]) (SLine l)) with (SLine z) by (change (SLine k :: mid ++ [SLine z]) with ((SLine k :: mid) ++ [SLine z]); now rewrite last_last).
    unfold insert_fillet at 1. cbn [create_fillet_arc]. rewrite F. cbn [rmap option_map connect_fillet rbind cut_first cut_second].
    unfold close_with. change (SLine k :: mid ++ [SLine z]) with ((SLine k :: mid) ++ [SLine z]). rewrite removelast_last. cbn [app].
    match goal with |- context [Nat.ltb ?u ?v] => destruct (Nat.ltb u v) eqn:Z3 end; [reflexivity|]. exfalso. apply Nat.ltb_ge in Z3.
    cbn [length] in Z3, Sl. rewrite app_length in Z3, Sl. rewrite map_length in Z3. cbn [length] in Z3, Sl. lia.
  Qed.
  (** A square of side 4, radius 1. *)
  Definition sq1 : Line_ := Ln (P 0 0) (P 4 0).
  Definition sq2 : Line_ := Ln (P 4 0) (P 4 4).
  Definition sq3 : Line_ := Ln (P 4 4) (P 0 4).
  Definition sq4 : Line_ := Ln (P 0 4) (P 0 0).
  Example C94_closed_example : EPS <= 1 -> all_roundable EPS 1 sq1 [sq2; sq3; sq4] /\ p2 sq4 = p1 sq1 /\
    roundable EPS 1 (Ln (P 0 3) (P 0 0)) (Ln (P 0 0) (P 3 0)).
  Proof.
    intros He2.
    assert (D2 : forall a b c d : R, (a - c) * (a - c) + (b - d) * (b - d) = 2 -> EPS <= euclid (P a b : Pt) (P c d)).
    { intros a b c d Q. apply Rle_trans with 1; [lra|]. apply Rsqr_incr_0_var; [|apply euclid_pos]. unfold Rsqr. rewrite euclid_sqr. cbn [px py]. toR. lra. }
    assert (X : forall a b c d e f L M, 1 <= L -> 1 <= M -> L * L = (a - c) * (a - c) + (b - d) * (b - d) -> M * M = (c - e) * (c - e) + (d - f) * (d - f) ->
      (c - a) * (e - c) + (d - b) * (f - d) = 0 -> Rabs ((c - a) * (f - d) - (d - b) * (e - c)) = L * M ->
      roundable EPS 1 (Ln (P a b) (P c d)) (Ln (P c d) (P e f)) /\ after_start (Ln (P c d) (P e f)) (setback (Ln (P a b) (P c d)) (Ln (P c d) (P e f)) 1) = P (c + (e - c) / M)%R (d + (f - d) / M)%R).
    { intros a b c d e f L0 M L1 M1 LL MM Dd Cr.
      assert (S1 : seg_len (Ln (P a b) (P c d) : Line_) = L0) by (unfold seg_len; apply euclid_unique; cbn; lra).
      assert (S2 : seg_len (Ln (P c d) (P e f) : Line_) = M) by (unfold seg_len; apply euclid_unique; cbn; lra).
      assert (LM : 1 * 1 <= L0 * M) by (apply Rmult_le_compat; lra).
      assert (T1 : setback (Ln (P a b) (P c d)) (Ln (P c d) (P e f)) 1 = 1).
      { unfold setback, dir_dot, dir_cross. rewrite S1, S2. cbn [px py p1 p2]. toR. rewrite Cr, Dd. field. lra. }
      assert (A1 : after_start (Ln (P c d) (P e f)) 1 = P (c + (e - c) / M)%R (d + (f - d) / M)%R).
      { unfold after_start. rewrite S2. unfold at_param; cbn [px py p1 p2]. apply pt_ext; cbn [px py]; match goal with |- ?a = ?b => change (@eq R a b) end; field; lra. }
      assert (B1 : before_end (Ln (P a b) (P c d)) 1 = P (c - (c - a) / L0)%R (d - (d - b) / L0)%R).
      { unfold before_end. rewrite S1. unfold at_param; cbn [px py p1 p2]. apply pt_ext; cbn [px py]; match goal with |- ?a = ?b => change (@eq R a b) end; field; lra. }
      rewrite T1. split; [|exact A1]. unfold roundable. rewrite T1, A1, B1, S1, S2. unfold dir_cross. cbn [px py p1 p2]. toR. rewrite Cr.
      repeat split; try lra. apply D2.
      match goal with |- ?g = 2 => replace g with (((a - c) * (a - c) + (b - d) * (b - d)) / (L0 * L0) + ((c - e) * (c - e) + (d - f) * (d - f)) / (M * M) + 2 * ((c - a) * (e - c) + (d - b) * (f - d)) / (L0 * M)) by (field; lra) end.
      rewrite <- LL, <- MM, Dd. field. lra. }
    assert (ab1 : forall x y, 0 <= y -> x = y \/ x = - y -> Rabs x = y).
    { intros x y Hy [->| ->]; [apply Rabs_right; lra|rewrite Rabs_Ropp; apply Rabs_right; lra]. }
    unfold sq1, sq2, sq3, sq4. cbn [all_roundable p1 p2].
    destruct (X 0 0 4 0 4 4 4 4) as [X1 ->]; try lra; [apply ab1; lra|].
    replace (P (4 + (4 - 4) / 4)%R (0 + (4 - 0) / 4)%R : Pt) with (P 4 1 : Pt) by (f_equal; toR; field).
    destruct (X 4 1 4 4 0 4 3 4) as [X2 ->]; try lra; [apply ab1; lra|].
    replace (P (4 + (0 - 4) / 4)%R (4 + (4 - 4) / 4)%R : Pt) with (P 3 4 : Pt) by (f_equal; toR; field).
    destruct (X 3 4 0 4 0 0 3 4) as [X3 _]; try lra; [apply ab1; lra|].
    destruct (X 0 3 0 0 3 0 3 3) as [X4 _]; try lra; [apply ab1; lra|].
    repeat split; auto; try apply X1; try apply X2; try apply X3; try apply X4.
  Qed.
  (** An open Z: two right angles, fillets of radius 1. *)
  Example C94_example : EPS <= 1/2 ->
    all_roundable EPS 1 (Ln (P 0 0) (P 3 0)) [Ln (P 3 0) (P 3 4); Ln (P 3 4) (P 6 4)].
  Proof.
    intros He2. assert (D2 : forall a b c d : R, (a - c) * (a - c) + (b - d) * (b - d) = 2 -> EPS <= euclid (P a b : Pt) (P c d)).
    { intros a b c d Q. apply Rle_trans with 1; [lra|]. apply Rsqr_incr_0_var; [|apply euclid_pos]. unfold Rsqr. rewrite euclid_sqr. cbn [px py]. toR. lra. }
    assert (S1 : seg_len (Ln (P 0 0) (P 3 0) : Line_) = 3) by (unfold seg_len; apply euclid_unique; cbn; lra).
    assert (S2 : seg_len (Ln (P 3 0) (P 3 4) : Line_) = 4) by (unfold seg_len; apply euclid_unique; cbn; lra).
    assert (S3 : seg_len (Ln (P 3 1) (P 3 4) : Line_) = 3) by (unfold seg_len; apply euclid_unique; cbn; lra).
    assert (S4 : seg_len (Ln (P 3 4) (P 6 4) : Line_) = 3) by (unfold seg_len; apply euclid_unique; cbn; lra).
    assert (T1 : setback (Ln (P 0 0) (P 3 0)) (Ln (P 3 0) (P 3 4)) 1 = 1).
    { unfold setback, dir_dot, dir_cross. rewrite S1, S2. cbn [px py p1 p2]. rewrite Rabs_right by lra. field. }
    assert (T2 : setback (Ln (P 3 1) (P 3 4)) (Ln (P 3 4) (P 6 4)) 1 = 1).
    { unfold setback, dir_dot, dir_cross. rewrite S3, S4. cbn [px py p1 p2]. rewrite Rabs_left by lra. field. }
    assert (A1 : after_start (Ln (P 3 0) (P 3 4)) 1 = P 3 1) by (unfold after_start; rewrite S2; unfold at_param; cbn [px py p1 p2]; apply pt_ext; cbn [px py]; toR; field).
    assert (B1 : before_end (Ln (P 0 0) (P 3 0)) 1 = P 2 0) by (unfold before_end; rewrite S1; unfold at_param; cbn [px py p1 p2]; apply pt_ext; cbn [px py]; toR; field).
    assert (A2 : after_start (Ln (P 3 4) (P 6 4)) 1 = P 4 4) by (unfold after_start; rewrite S4; unfold at_param; cbn [px py p1 p2]; apply pt_ext; cbn [px py]; toR; field).
    assert (B2 : before_end (Ln (P 3 1) (P 3 4)) 1 = P 3 3) by (unfold before_end; rewrite S3; unfold at_param; cbn [px py p1 p2]; apply pt_ext; cbn [px py]; toR; field).
    cbn [all_roundable p1 p2]. unfold roundable. rewrite T1, A1, T2, A2, B1, B2, S1, S2, S3, S4. unfold dir_cross. cbn [px py p1 p2].
    rewrite (Rabs_right (_ * _ - _)) by lra. rewrite (Rabs_left (_ * _ - _)) by lra.
    repeat split; try lra; apply D2; lra.
  Qed.

  (** ** C95: a fillet between a line and an arc. *)
  Lemma touch_body (l : Line_) (a : Arc_) (r k t th : R) (c : Pt) rev : EPS <= seg_len l -> EPS <= r -> wf_arc a -> sweep a <> 0 -> p2 l = ap1 a ->
    touches r l a k t th c -> EPS <= euclid (before_end l t) (reached (SArc a) (th / Rabs (sweep a))) ->
    exists f, line_arc_body rev l a r = Ok (Some f) /\ center f = c /\ radius f = r /\ wf_arc f /\
      (ap1 f, ap2 f) = (if rev then (reached (SArc a) (th / Rabs (sweep a)), before_end l t) else (before_end l t, reached (SArc a) (th / Rabs (sweep a)))) /\
      (if rev then heading (SArc f) 1 = P (- px (heading (SLine l) 0))%R (- py (heading (SLine l) 0))%R /\
                   heading (SArc f) 0 = heading (SArc (areversed a)) (1 - th / Rabs (sweep a))
       else heading (SArc f) 0 = heading (SLine l) 0 /\ heading (SArc f) 1 = heading (SArc a) (th / Rabs (sweep a))).
  Proof.
    intros Hl Hr W Hs Hm (Hk & Ht & Hth & Hpi & Hside & Hc & Hh & Hc2 & Hw) Hd.
    pose proof (heading_unit (SLine l) 0 ltac:(cbn; lra)) as U. set (u := heading (SLine l) 0) in *. set (L := seg_len l) in *.
    set (A := p1 l).
    assert (EB : p2 l = P (px A + L * px u)%R (py A + L * py u)%R).
    { unfold u, A. cbn [heading px py]. fold L. destruct l as [X Y]. cbn [p1 p2]. apply pt_ext; cbn [px py]; symmetry; match goal with |- ?a = ?b => change (@eq R a b) end; field; lra. }
    assert (EL : l = Ln A (P (px A + L * px u)%R (py A + L * py u)%R)) by (rewrite <- EB; unfold A; now destruct l).
    assert (EA : a = mkarc (P (px A + L * px u)%R (py A + L * py u)%R) (ap2 a) (radius a) (sweep a) (center a)) by (rewrite <- EB, Hm; now destruct a).
    set (K := turn_sign a) in *.
    assert (EK : K = if Rlt_dec (sweep a) 0 then -1 else 1) by reflexivity.
    assert (EF1 : before_end l t = P (px A + L * px u - t * px u)%R (py A + L * py u - t * py u)%R).
    { unfold before_end. fold L. rewrite EL. unfold at_param. cbn [px py p1 p2]. apply pt_ext; cbn [px py]; match goal with |- ?a = ?b => change (@eq R a b) end; field; lra. }
    assert (ET : th / Rabs (sweep a) * sweep a = K * th).
    { rewrite EK. destruct (Rlt_dec (sweep a) 0); [rewrite Rabs_left by assumption; field; lra|rewrite Rabs_right by lra; field; lra]. }
    assert (EF2 : reached (SArc a) (th / Rabs (sweep a)) = turned (center a) (K * th) (P (px A + L * px u)%R (py A + L * py u)%R)).
    { cbn [reached]. rewrite ET, <- EB, Hm. reflexivity. }
    rewrite EF1, EF2 in *. rewrite Hc in Hc2, Hw. cbn [px py] in Hc2, Hw.
    pose proof (touch_found He A (px u) (py u) L (ap2 a) (center a) (radius a) (sweep a) r t th k K U Hl Hr) as TF. cbv zeta in TF.
    rewrite <- EA, <- EL in TF.
    specialize (TF W Hk EK Hs Hside Ht Hth Hpi Hh Hc2 Hw Hd rev). cbn [px py] in TF.
    destruct TF as (f & F & Fc & Fr & Fw & Fe & Fh). exists f. split; [exact F|]. rewrite Hc. split; [exact Fc|]. split; [exact Fr|]. split; [exact Fw|]. split; [exact Fe|].
    destruct rev; [exact Fh|]. destruct Fh as [Fh1 Fh2]. split; [|exact Fh2]. rewrite Fh1. now destruct u.
  Qed.
  (** If a circle of the given radius touches a line and the arc that follows it, next to their corner,
      the fillet is the arc of that circle: it leaves the line at the one point and joins the arc at the
      other, both without a kink. *)
  Theorem C95_line_then_arc_partial (l : Line_) (a : Arc_) (r k t th : R) (c : Pt) :
    EPS <= seg_len l -> EPS <= r -> wf_arc a -> sweep a <> 0 -> p2 l = ap1 a -> EPS <= euclid (ap2 a) (p1 l) ->
    touches r l a k t th c -> EPS <= euclid (before_end l t) (reached (SArc a) (th / Rabs (sweep a))) ->
    exists f, create_fillet_arc (SLine l) (SArc a) r = Ok (Some f) /\ center f = c /\ radius f = r /\ wf_arc f /\
      ap1 f = before_end l t /\ ap2 f = reached (SArc a) (th / Rabs (sweep a)) /\
      heading (SLine l) 1 = heading (SArc f) 0 /\ heading (SArc f) 1 = heading (SArc a) (th / Rabs (sweep a)).
  Proof.
    intros Hl Hr W Hs Hm Ho Ht Hd. destruct (touch_body l a r k t th c false Hl Hr W Hs Hm Ht Hd) as (f & F & Fc & Fr & Fw & Fe & Fh1 & Fh2).
    exists f. cbn [create_fillet_arc]. rewrite line_arc_forward by exact Ho. injection Fe as Fe1 Fe2.
    split; [exact F|]. split; [exact Fc|]. split; [exact Fr|]. split; [exact Fw|]. split; [exact Fe1|]. split; [exact Fe2|].
    split; [symmetry; exact Fh1|exact Fh2].
  Qed.
  (** The same for an arc followed by a line: the picture read backwards. *)
  Theorem C95_arc_then_line_partial (l : Line_) (a : Arc_) (r k t th : R) (c : Pt) :
    EPS <= seg_len l -> EPS <= r -> wf_arc a -> sweep a <> 0 -> ap2 a = p1 l ->
    touches r (backwards_line l) (backwards_arc a) k t th c -> EPS <= euclid (after_start l t) (reached (SArc a) (1 - th / Rabs (sweep a))) ->
    exists f, create_fillet_arc (SArc a) (SLine l) r = Ok (Some f) /\ center f = c /\ radius f = r /\ wf_arc f /\
      ap1 f = reached (SArc a) (1 - th / Rabs (sweep a)) /\ ap2 f = after_start l t /\
      heading (SArc a) (1 - th / Rabs (sweep a)) = heading (SArc f) 0 /\ heading (SArc f) 1 = heading (SLine l) 0.
  Proof.
    intros Hl Hr W Hs Hm Ht Hd.
    assert (Sl : seg_len (backwards_line l) = seg_len l) by (unfold seg_len; cbn; apply euclid_sym).
    assert (Ab : Rabs (sweep (backwards_arc a)) = Rabs (sweep a)) by (cbn [sweep backwards_arc]; apply Rabs_Ropp).
    assert (Eb : before_end (backwards_line l) t = after_start l t).
    { unfold before_end, after_start. rewrite Sl. unfold at_param. cbn [p1 p2 backwards_line px py]. apply pt_ext; cbn [px py]; match goal with |- ?a = ?b => change (@eq R a b) end; ring. }
    assert (Er : reached (SArc (backwards_arc a)) (th / Rabs (sweep (backwards_arc a))) = reached (SArc a) (1 - th / Rabs (sweep a))).
    { rewrite Ab. cbn [reached center sweep ap1 backwards_arc]. destruct W as (_ & _ & W2). rewrite W2, turned_add. f_equal. toR. ring. }
    assert (Wb : wf_arc (backwards_arc a)) by (apply (wf_reversed a W)).
    destruct (touch_body (backwards_line l) (backwards_arc a) r k t th c true) as (f & F & Fc & Fr & Fw & Fe & Fh1 & Fh2).
    - rewrite Sl. exact Hl.
    - exact Hr.
    - exact Wb.
    - cbn [sweep backwards_arc]. lra.
    - cbn. auto.
    - exact Ht.
    - rewrite Eb, Er. exact Hd.
    - exists f. cbn [create_fillet_arc]. rewrite line_arc_backward by (rewrite Hm; apply same_close; [exact He|reflexivity]).
      rewrite Eb, Er in Fe. injection Fe as Fe1 Fe2.
      split; [exact F|]. split; [exact Fc|]. split; [exact Fr|]. split; [exact Fw|]. split; [exact Fe1|]. split; [exact Fe2|]. split.
      + rewrite Fh2, Ab. f_equal. unfold areversed, backwards_arc. cbn [ap1 ap2 radius sweep center]. destruct a as [a1 a2 a3 a4 a5]. cbn. rnum. do 2 f_equal. ring.
      + rewrite Fh1. cbn [heading]. rewrite Sl. cbn [px py p1 p2 backwards_line]. apply pt_ext; cbn [px py]; match goal with |- ?a = ?b => change (@eq R a b) end; field; lra.
  Qed.
  (** Whatever is returned for a line and an arc starts on the line and ends on the arc; its centre is [r] away
      from the line's carrier and [r] inside or outside the arc's circle; unless it starts at an end of the line
      its radius is exactly [r]; both ends are equally far from its centre within the tolerance. *)
  Theorem C95_line_then_arc_sound_partial (l : Line_) (a : Arc_) (r : R) f : EPS <= seg_len l -> EPS <= r -> wf_arc a -> EPS <= euclid (ap2 a) (p1 l) ->
    create_fillet_arc (SLine l) (SArc a) r = Ok (Some f) ->
    on_segment l (ap1 f) /\ (exists u, 0 <= u <= 1 /\ ap2 f = reached (SArc a) u) /\
    Rabs (side l (center f)) = r * seg_len l /\
    (euclid (center f) (center a) = radius a + r \/ euclid (center f) (center a) = Rabs (radius a - r)) /\
    (ap1 f = p1 l \/ ap1 f = p2 l \/ euclid (center f) (ap1 f) = r) /\
    EPS <= euclid (ap1 f) (ap2 f) /\ Rabs (euclid (center f) (ap1 f) - euclid (center f) (ap2 f)) < EPS.
  Proof.
    intros Hl Hr W Ho H. cbn [create_fillet_arc] in H. rewrite line_arc_forward in H by exact Ho.
    apply (body_sound He) in H as (q1 & q2 & k & h & ang & Q & Hk & S & Hh & D & O & R0 & Ha & Q2 & A & B); auto.
    injection Q as -> ->. split; [exact O|]. split; [|split; [|split; [|auto]]].
    - destruct (Req_dec (sweep a) 0) as [Z|Z].
      + exists 0. split; [lra|]. rewrite Q2. cbn [reached]. rewrite Rmult_0_l. f_equal. rewrite Z, Rabs_R0 in Ha. destruct (Rltb (sweep a) 0); lra.
      + exists (ang / Rabs (sweep a)). assert (0 < Rabs (sweep a)) by (apply Rabs_pos_lt; exact Z). split.
        * split; [apply Rmult_le_pos; [lra|apply Rlt_le, Rinv_0_lt_compat; assumption]|]. apply (Rmult_le_reg_r (Rabs (sweep a))); [assumption|].
          replace (ang / Rabs (sweep a) * Rabs (sweep a)) with ang by (field; lra). lra.
        * rewrite Q2. cbn [reached]. f_equal. destruct (Rltb (sweep a) 0) eqn:Y; [apply Rltb_true in Y; rewrite Rabs_left by assumption; field; lra|].
          apply Rltb_false in Y. rewrite Rabs_right by lra. field. lra.
    - rewrite S. pose proof Hl. destruct Hk as [-> | ->]; [rewrite Rabs_right; nra|]. replace (-1 * r * seg_len l) with (- (r * seg_len l)) by ring. rewrite Rabs_Ropp, Rabs_right; nra.
    - destruct W as (W0 & _). destruct Hh as [-> | ->]; [left; rewrite D, Rabs_right; [reflexivity|lra]|right; exact D].
  Qed.
  (** A fillet of radius 3 between a line along the diameter of a circle of radius 8 and a quarter of that circle. *)
  Definition disc_line : Line_ := Ln (P (-8)%R 0) (P 8 0).
  Lemma three_four_five : exists th, 0 < th <= PI / 2 /\ cos th = 4 / 5 /\ sin th = 3 / 5.
  Proof.
    exists (Ratan.acos (4 / 5)). pose proof (acos_bound (4 / 5)) as [B1 B2]. pose proof PI_RGT_0.
    assert (Cc : cos (Ratan.acos (4 / 5)) = 4 / 5) by (apply cos_acos; lra).
    assert (Cs : sin (Ratan.acos (4 / 5)) = 3 / 5).
    { rewrite sin_acos by lra. replace (1 - (4 / 5) * (4 / 5)) with ((3 / 5) * (3 / 5)) by field. replace (1 - (4 / 5)²) with ((3 / 5) * (3 / 5)) by (unfold Rsqr; field). apply sqrt_square. lra. }
    split; [|auto]. split.
    - destruct B1 as [B1|B1]; [exact B1|]. rewrite <- B1, cos_0 in Cc. lra.
    - destruct (Rle_lt_dec (Ratan.acos (4 / 5)) (PI / 2)); [assumption|]. pose proof (cos_lt_0 _ r ltac:(lra)). lra.
  Qed.
  Example C95_example (Hs : EPS <= 1) : exists th, touches 3 disc_line (mkarc (P 8 0) (P 0 8) 8 (PI / 2) (P 0 0)) 1 4 th (P 4 3) /\
    wf_arc (mkarc (P 8 0) (P 0 8) 8 (PI / 2) (P 0 0)).
  Proof.
    destruct three_four_five as (th & Hth & Ct & St). exists th. pose proof PI_RGT_0.
    assert (L : seg_len disc_line = 16) by (unfold seg_len; apply euclid_unique; cbn; lra).
    assert (U : heading (SLine disc_line) 0 = P 1 0) by (cbn [heading]; rewrite L; unfold disc_line; cbn [px py p1 p2]; apply pt_ext; cbn [px py]; toR; field).
    split.
    - unfold touches, turn_sign. rewrite U, L. unfold before_end. rewrite L. cbn [sweep radius center heading reached ap1]. rewrite Rmult_0_l, turned_0.
      destruct (Rlt_dec (PI / 2) 0); [lra|]. rewrite (Rabs_right (PI / 2)) by lra. replace (th / (PI / 2) * (PI / 2)) with th by (field; lra).
      unfold at_param, turned, disc_line. cbn [px py p1 p2]. rewrite Ct, St.
      repeat split; try lra; auto; try (apply pt_ext; cbn [px py]; match goal with |- ?a = ?b => change (@eq R a b) end; field).
    - unfold wf_arc. cbn [radius center ap1 ap2 sweep]. split; [lra|]. split; [apply euclid_unique; cbn; lra|].
      unfold turned. rewrite cos_PI2, sin_PI2. cbn [px py]. apply pt_ext; cbn [px py]; match goal with |- ?a = ?b => change (@eq R a b) end; ring.
  Qed.
  (** If a circle of the given radius touches an arc and the arc that follows it, and only one such circle
      comes close to doing so, the fillet is the arc of that circle between the two points: it leaves the
      first arc and joins the second without a kink.  Arcs of less than half a turn. *)
  Theorem C95_arc_then_arc_partial (a b : Arc_) (r k u v : R) (c : Pt) : wf_arc a -> wf_arc b -> EPS <= r -> touches_arcs r a b k u v c ->
    let h1 := radius a - k * turn_sign a * r in let h2 := radius b - k * turn_sign b * r in
    clearly_minor EPS a (radius a) -> clearly_minor EPS b (radius b) -> clearly_minor EPS a h1 -> clearly_minor EPS b h2 ->
    EPS <= (radius a * h1) * (radius a * h1) -> EPS <= (radius b * h2) * (radius b * h2) ->
    EPS <= euclid (center a) (center b) -> EPS <= Rabs (euclid (center a) (center b) - (h1 + h2)) ->
    EPS <= euclid (reached (SArc a) u) (reached (SArc b) v) -> only_circle EPS r a b k c ->
    exists f, create_fillet_arc (SArc a) (SArc b) r = Ok (Some f) /\ center f = c /\ radius f = r /\ wf_arc f /\
      ap1 f = reached (SArc a) u /\ ap2 f = reached (SArc b) v /\
      heading (SArc a) u = heading (SArc f) 0 /\ heading (SArc f) 1 = heading (SArc b) v.
  Proof. exact (arcs_found He a b r k u v c). Qed.
  Lemma angle2_reached (o p : Pt) ang : p <> o -> Rabs ang < PI -> EPS <= euclid p (turned o ang p) -> angle2 o p (turned o ang p) = ang.
  Proof.
    intros Hp Ha Hd. assert (Q : at_param (Ln o (turned o ang p)) 1 = turned o ang p).
    { unfold at_param. cbn [p1 p2]. set (q := turned o ang p). apply pt_ext; cbn [px py]; match goal with |- ?a = ?b => change (@eq R a b) end; ring. }
    rewrite <- Q. apply (angle2_of He); auto; [lra|unfold Rabs in Ha; destruct (Rcase_abs ang); lra|now rewrite Q].
  Qed.
  Lemma start_off_centre (a : Arc_) : wf_arc a -> forall t, turned (center a) t (ap1 a) <> center a.
  Proof.
    intros (W0 & W1 & _) t Q. pose proof (turned_dist (center a) (ap1 a) t) as D. rewrite Q, W1 in D.
    assert (Z : euclid (center a) (center a) = 0) by (apply euclid_unique; [lra|toR; ring]). lra.
  Qed.
  (** What is left of the two segments: the first one up to the fillet, the second one from there on. *)
  Theorem C95_shortened_partial (s t s' m t' : Seg) (r u v : R) : proper s -> proper t -> 0 <= u <= 1 -> 0 <= v <= 1 ->
    insert_fillet r s t = Ok (Some (s', m, t')) -> seg_begin m = reached s u -> seg_finish m = reached t v ->
    measurable_back EPS s u -> measurable EPS t v ->
    runs_over s 0 u s' /\ runs_over t v 1 t' /\ seg_finish s' = seg_begin m /\ seg_begin t' = seg_finish m /\
    seg_begin s' = seg_begin s /\ seg_finish t' = seg_finish t.
  Proof.
    intros Prs Prt Hu Hv H Hb Hf Ms Mt. unfold insert_fillet in H. destruct (create_fillet_arc s t r) as [[f|]|]; try discriminate H.
    injection H as <- <- <-. cbn [seg_begin seg_finish] in Hb, Hf.
    split; [|split; [|split; [destruct s; reflexivity|split; [destruct t; reflexivity|split; [destruct s; reflexivity|destruct t; reflexivity]]]]].
    - intros w Hw. destruct s as [l|a]; cbn [cut_first reached]; rewrite Hb.
      + cbn [reached]. unfold at_param. cbn [p1 p2]. apply pt_ext; cbn [px py]; match goal with |- ?a = ?b => change (@eq R a b) end; ring.
      + cbn [center sweep ap1]. destruct Prs as [Wa _]. destruct Ms as [M1 M2]. cbn [reached] in *.
        assert (Q : angle2 (center a) (turned (center a) (u * sweep a) (ap1 a)) (ap2 a) = (1 - u) * sweep a).
        { assert (X : ap2 a = turned (center a) ((1 - u) * sweep a) (turned (center a) (u * sweep a) (ap1 a))).
          { rewrite turned_add. destruct Wa as (_ & _ & ->). f_equal. lra. }
          rewrite X at 1. apply angle2_reached; [now apply start_off_centre|exact M1|now rewrite <- X]. }
        f_equal. match goal with |- context[sub ?x ?y] => change (sub x y) with (x - y) end. 
        match goal with |- _ * (_ - ?x) = _ => replace x with ((1 - u) * sweep a) by (symmetry; exact Q) end. match goal with |- ?a = ?b => change (@eq R a b) end. ring.
    - intros w Hw. destruct t as [l|a]; cbn [cut_second reached]; rewrite Hf.
      + cbn [reached]. unfold at_param. cbn [p1 p2]. apply pt_ext; cbn [px py]; match goal with |- ?a = ?b => change (@eq R a b) end; ring.
      + cbn [center sweep ap1]. destruct Prt as [Wa _]. destruct Mt as [M1 M2]. cbn [reached] in *.
        assert (Q : angle2 (center a) (ap1 a) (turned (center a) (v * sweep a) (ap1 a)) = v * sweep a).
        { apply angle2_reached; [|exact M1|exact M2]. pose proof (start_off_centre a Wa 0) as X. now rewrite turned_0 in X. }
        rewrite turned_add. f_equal. match goal with |- context[sub ?x ?y] => change (sub x y) with (x - y) end.
        match goal with |- context[_ * (_ - ?x)] => replace x with (v * sweep a) by (symmetry; exact Q) end. match goal with |- ?a = ?b => change (@eq R a b) end. ring.
  Qed.
  (** Two quarter circles of radius 11 that meet at (11, 0), rounded with radius 6. *)
  Lemma acute (p q : R) : 0 < p -> 0 < q -> p * p + q * q = 1 -> exists th, 0 < th < PI / 2 /\ cos th = p /\ sin th = q.
  Proof.
    intros Hp Hq H. assert (p < 1) by nra. exists (Ratan.acos p). pose proof (acos_bound p) as B1.
    assert (Cc : cos (Ratan.acos p) = p) by (apply cos_acos; lra).
    assert (Cs : sin (Ratan.acos p) = q).
    { rewrite sin_acos by lra. replace (1 - p²) with (q * q) by (unfold Rsqr; lra). apply sqrt_square. lra. }
    split; [|auto]. split.
    - destruct (proj1 B1) as [B2|B2]; [exact B2|]. rewrite <- B2, cos_0 in Cc. lra.
    - destruct (Rlt_le_dec (Ratan.acos p) (PI / 2)) as [L|L]; [exact L|].
      destruct L as [L|L]; [pose proof (cos_lt_0 _ L ltac:(pose proof PI_RGT_0; lra)); lra|]. rewrite <- L, cos_PI2 in Cc. lra.
  Qed.
  Lemma quarter_minor (a : Arc_) d : EPS <= / 10 -> Rabs (sweep a) = PI / 2 -> 1 <= d -> clearly_minor EPS a d.
  Proof.
    intros Hs Ha Hd. pose proof PI_RGT_0. unfold clearly_minor. rewrite Ha, sin_PI2. replace (PI / 2 / 2) with (PI / 4) by field.
    split; [lra|]. split; [nra|]. rewrite cos_PI4. 
    assert (Q : 1 / R_sqrt.sqrt 2 >= 7 / 10).
    { assert (R_sqrt.sqrt 2 <= 10 / 7). { apply Rsqr_incr_0_var; [|lra]. rewrite Rsqr_sqrt by lra. unfold Rsqr. lra. }
      assert (0 < R_sqrt.sqrt 2) by (apply sqrt_lt_R0; lra). apply Rle_ge. apply (Rmult_le_reg_r (R_sqrt.sqrt 2)); [lra|].
      replace (1 / R_sqrt.sqrt 2 * R_sqrt.sqrt 2) with 1 by (field; lra). nra. }
    set (z := 1 / R_sqrt.sqrt 2) in *. assert (EPS * (1 + 2 * (d + EPS)) <= / 10 * (1 + 2 * (d + / 10))) by (apply Rmult_le_compat; nra). nra.
  Qed.
  Definition quarter1 : Arc_ := mkarc (P 0 (-11)%R) (P 11 0) 11 (PI / 2) (P 0 0).
  Definition quarter2 : Arc_ := mkarc (P 11 0) (P 0 11) 11 (- (PI / 2)) (P 11 11).
  Example C95_arcs_example : EPS <= / 10 -> exists u v, touches_arcs 6 quarter1 quarter2 1 u v (P 3 (-4)) /\
    wf_arc quarter1 /\ wf_arc quarter2 /\ only_circle EPS 6 quarter1 quarter2 1 (P 3 (-4)) /\
    exists f, create_fillet_arc (SArc quarter1) (SArc quarter2) 6 = Ok (Some f) /\ center f = P 3 (-4) /\
      ap1 f = P (33 / 5) (- (44 / 5)) /\ ap2 f = P (99 / 17) (22 / 17).
  Proof.
    intros Hs. pose proof PI_RGT_0 as HP.
    destruct (acute (4 / 5) (3 / 5)) as (th & Hth & Ct & St); [lra|lra|lra|]. destruct (acute (15 / 17) (8 / 17)) as (ph & Hph & Cp & Sp); [lra|lra|lra|].
    set (u := th / (PI / 2)). set (v := ph / (PI / 2)).
    assert (Uu : u * (PI / 2) = th) by (unfold u; field; lra). assert (Uv : v * - (PI / 2) = - ph) by (unfold v; field; lra).
    assert (B1 : 0 <= u <= 1) by (split; [unfold u; apply Rmult_le_pos; [lra|apply Rlt_le, Rinv_0_lt_compat; lra]|apply (Rmult_le_reg_r (PI / 2)); lra]).
    assert (B2 : 0 <= v <= 1) by (split; [unfold v; apply Rmult_le_pos; [lra|apply Rlt_le, Rinv_0_lt_compat; lra]|apply (Rmult_le_reg_r (PI / 2)); lra]).
    assert (R1 : reached (SArc quarter1) u = P (33 / 5) (- (44 / 5))).
    { cbn [reached quarter1 center sweep ap1]. rewrite Uu. unfold turned. cbn [px py]. rewrite Ct, St. apply pt_ext; cbn [px py]; match goal with |- ?a = ?b => change (@eq R a b) end; field. }
    assert (R2 : reached (SArc quarter2) v = P (99 / 17) (22 / 17)).
    { cbn [reached quarter2 center sweep ap1]. rewrite Uv. unfold turned. cbn [px py]. rewrite cos_neg, sin_neg, Cp, Sp. apply pt_ext; cbn [px py]; match goal with |- ?a = ?b => change (@eq R a b) end; field. }
    assert (T1 : turn_sign quarter1 = 1) by (unfold turn_sign; cbn [sweep quarter1]; destruct (Rlt_dec _ _); lra).
    assert (T2 : turn_sign quarter2 = -1) by (unfold turn_sign; cbn [sweep quarter2]; destruct (Rlt_dec _ _); lra).
    assert (W1 : wf_arc quarter1).
    { unfold wf_arc, quarter1. cbn [radius center ap1 ap2 sweep]. split; [lra|]. split; [apply euclid_unique; cbn; lra|].
      unfold turned. rewrite cos_PI2, sin_PI2. cbn [px py]. apply pt_ext; cbn [px py]; match goal with |- ?a = ?b => change (@eq R a b) end; ring. }
    assert (W2 : wf_arc quarter2).
    { unfold wf_arc, quarter2. cbn [radius center ap1 ap2 sweep]. split; [lra|]. split; [apply euclid_unique; cbn; lra|].
      unfold turned. rewrite cos_neg, sin_neg, cos_PI2, sin_PI2. cbn [px py]. apply pt_ext; cbn [px py]; match goal with |- ?a = ?b => change (@eq R a b) end; ring. }
    assert (TA : touches_arcs 6 quarter1 quarter2 1 u v (P 3 (-4))).
    { unfold touches_arcs. rewrite T1, T2. unfold beside. rewrite R1, R2. cbn [radius center quarter1 quarter2].
      split; [auto|]. split; [exact B1|]. split; [exact B2|]. split; [lra|]. split; [lra|]. split; [|split; [|split]].
      - unfold heading. cbn [sweep quarter1 quarter2 center ap1 radius]. rewrite (Rmult_1_l (PI / 2)), Rmult_0_l, turned_0. unfold turned. rewrite cos_PI2, sin_PI2. cbn [px py].
        destruct (Rlt_dec (PI / 2) 0); [lra|]. destruct (Rlt_dec (- (PI / 2)) 0); [|lra]. lra.
      - unfold at_param. cbn [px py p1 p2]. apply pt_ext; cbn [px py]; match goal with |- ?a = ?b => change (@eq R a b) end; field.
      - unfold at_param. cbn [px py p1 p2]. apply pt_ext; cbn [px py]; match goal with |- ?a = ?b => change (@eq R a b) end; field.
      - cbn [px py]. lra. }
    assert (OC : only_circle EPS 6 quarter1 quarter2 1 (P 3 (-4))).
    { unfold only_circle. rewrite T1, T2. cbn [radius center quarter1 quarter2]. intros [x y] A B (w & Hw & D) _.
      pose proof (euclid_sqr (P 0 0) (P x y)) as A2. rewrite A in A2. pose proof (euclid_sqr (P 11 11) (P x y)) as B3. rewrite B in B3. cbn [px py] in A2, B3.
      assert (y = - 1 - x) as -> by lra. assert ((x - 3) * (x + 4) = 0) as Z by lra. apply Rmult_integral in Z as [Z|Z].
      - apply pt_ext; cbn [px py]; match goal with |- ?a = ?b => change (@eq R a b) end; lra.
      - exfalso. assert (x = -4) as -> by lra.
        assert (PX : 0 <= px (beside quarter1 (11 - 1 * 1 * 6) w)).
        { unfold beside, at_param. cbn [px p1 p2 reached center quarter1 sweep ap1 radius]. unfold turned. cbn [px py].
          assert (0 <= w * PI <= PI) by (destruct Hw; split; [apply Rmult_le_pos; lra|rewrite <- (Rmult_1_l PI) at 2; apply Rmult_le_compat_r; lra]).
          assert (0 <= sin (w * (PI / 2))) by (apply sin_ge_0; lra).
          match goal with |- 0 <= ?x => replace x with (5 * sin (w * (PI / 2))) by (toR; field) end. lra. }
        set (q := beside _ _ _) in *. pose proof (euclid_sqr (P (-4) (- 1 - -4)) q) as Q. cbn [px py] in Q.
        set (dd := euclid _ q) in *. assert (0 <= dd) by apply euclid_pos.
        assert (dd <= 2).
        { assert (Hq : EPS * (1 + 2 * (11 - 1 * 1 * 6 + EPS)) <= / 10 * (1 + 2 * (11 - 1 * 1 * 6 + / 10))) by (apply Rmult_le_compat; lra). lra. }
        clear - PX Q H H0. generalize dependent dd. generalize dependent (px q). generalize (py q). intros y x PX dd Q H H0.
        assert (dd * dd <= 2 * 2) by (apply Rmult_le_compat; lra). assert (4 * 4 <= (4 + x) * (4 + x)) by (apply Rmult_le_compat; lra).
        pose proof (Rle_0_sqr (-1 - -4 - y)) as S. unfold Rsqr in S. lra. }
    exists u, v. split; [exact TA|]. split; [exact W1|]. split; [exact W2|]. split; [exact OC|].
    assert (S1 : Rabs (sweep quarter1) = PI / 2) by (cbn [sweep quarter1]; apply Rabs_right; lra).
    assert (S2 : Rabs (sweep quarter2) = PI / 2) by (cbn [sweep quarter2]; rewrite Rabs_Ropp; apply Rabs_right; lra).
    pose proof (euclid_sqr (P 0 0) (P 11 11)) as CC. cbn [px py] in CC. pose proof (euclid_pos (P 0 0) (P 11 11)) as CP.
    destruct (C95_arc_then_arc_partial quarter1 quarter2 6 1 u v (P 3 (-4))) as (f & F1 & F2 & F3 & F4 & F5 & F6 & F7 & F8); auto; try lra.
    - apply quarter_minor; auto. cbn [radius quarter1]. lra.
    - apply quarter_minor; auto. cbn [radius quarter2]. lra.
    - apply quarter_minor; auto. rewrite T1. cbn [radius quarter1]. lra.
    - apply quarter_minor; auto. rewrite T2. cbn [radius quarter2]. lra.
    - rewrite T1. cbn [radius quarter1]. lra.
    - rewrite T2. cbn [radius quarter2]. lra.
    - cbn [center quarter1 quarter2]. match goal with |- context [euclid ?u ?v] => set (d := euclid u v) in * end. clear - CC CP Hs He. destruct (Rle_lt_dec 10 d); [lra|]. assert (d * d <= 10 * 10) by (apply Rmult_le_compat; lra). lra.
    - rewrite T1, T2. cbn [radius center quarter1 quarter2]. set (d := euclid _ _) in *. assert (d < 16) by nra. rewrite Rabs_left by lra. lra.
    - rewrite R1, R2. pose proof (euclid_sqr (P (33 / 5) (- (44 / 5))) (P (99 / 17) (22 / 17))) as Q. cbn [px py] in Q. match goal with |- EPS <= ?x => set (d := x) in * end. assert (0 <= d) by apply euclid_pos.
      clear - Q H Hs He. destruct (Rle_lt_dec 10 d); [lra|]. assert (d * d <= 10 * 10) by (apply Rmult_le_compat; lra). lra.
    - exists f. rewrite R1 in F5. rewrite R2 in F6. auto.
  Qed.
  (** Refuted without the hypothesis that the arc does not end where the line starts: on the outline of a half
      disc (the line, then the arc back to its start) the function takes the two to be in the order arc - line
      and makes a fillet at the other corner: it starts off the line. *)
  Theorem C95_half_disc_refuted : EPS <= 1 ->
    let a := mkarc (P 8 0) (P (-8)%R 0) 8 PI (P 0 0) in
    exists f, create_fillet_arc (SLine disc_line) (SArc a) 3 = Ok (Some f) /\
      ap1 f = P (- (32 / 5))%R (24 / 5)%R /\ ap2 f = P (-4)%R 0 /\ ~ on_segment disc_line (ap1 f).
  Proof.
    intros Hs a. destruct three_four_five as (th & Hth & Ct & St). pose proof PI_RGT_0 as Pp.
    cbn [create_fillet_arc]. rewrite line_arc_backward by (apply same_close; [exact He|reflexivity]).
    set (l' := lreversed disc_line). set (a' := areversed a).
    assert (L : seg_len l' = 16) by (unfold seg_len; apply euclid_unique; cbn; lra).
    assert (U : heading (SLine l') 0 = P (-1)%R 0) by (cbn [heading]; rewrite L; unfold l', disc_line, lreversed; cbn [px py p1 p2]; apply pt_ext; cbn [px py]; toR; field).
    assert (Sw : sweep a' = - PI) by reflexivity.
    assert (F2 : reached (SArc a') (th / Rabs (sweep a')) = P (- (32 / 5))%R (24 / 5)%R).
    { rewrite Sw, Rabs_Ropp, Rabs_right by lra. cbn [reached]. rewrite Sw. replace (th / PI * - PI) with (- th) by (field; lra).
      unfold turned. rewrite cos_neg, sin_neg, Ct, St. cbn. apply pt_ext; cbn [px py]; match goal with |- ?a = ?b => change (@eq R a b) end; field. }
    assert (F1 : before_end l' 4 = P (-4)%R 0).
    { unfold before_end. rewrite L. unfold at_param, l', disc_line, lreversed. cbn [px py p1 p2]. apply pt_ext; cbn [px py]; match goal with |- ?a = ?b => change (@eq R a b) end; field. }
    destruct (touch_body l' a' 3 (-1) 4 th (P (-4)%R 3) true) as (f & F & _ & _ & _ & Fe & _).
    - rewrite L. lra.
    - lra.
    - apply wf_reversed. unfold wf_arc, a. cbn [radius center ap1 ap2 sweep]. split; [lra|]. split; [apply euclid_unique; cbn; lra|].
      unfold turned. rewrite cos_PI, sin_PI. cbn [px py]. apply pt_ext; cbn [px py]; match goal with |- ?a = ?b => change (@eq R a b) end; ring.
    - rewrite Sw. lra.
    - reflexivity.
    - unfold touches, turn_sign. rewrite U, F1, F2, L, Sw. destruct (Rlt_dec (- PI) 0); [|lra].
      rewrite Rabs_Ropp, Rabs_right by lra. cbn [heading]. rewrite Sw. destruct (Rlt_dec (- PI) 0); [|lra]. rewrite Rmult_0_l, turned_0. unfold at_param. cbn.
      repeat split; try lra; auto; try (apply pt_ext; cbn [px py]; match goal with |- ?a = ?b => change (@eq R a b) end; field).
    - rewrite F1, F2. apply Rle_trans with 1; [lra|]. apply Rsqr_incr_0_var; [|apply euclid_pos]. unfold Rsqr. rewrite euclid_sqr. cbn. lra.
    - exists f. rewrite F1, F2 in Fe. injection Fe as Fe1 Fe2. split; [exact F|]. split; [exact Fe1|]. split; [exact Fe2|].
      rewrite Fe1. intros (u & _ & Q). apply (f_equal py) in Q. unfold at_param, disc_line in Q. cbn in Q. toR. lra.
  Qed.

  (** ** C96: rotation hints and other marks of rounded corners. *)
  Lemma smu_measured (s : Seg) u : proper s -> measurable EPS s u -> smu s (reached s u) = Ok u.
  Proof.
    destruct s as [l|a]; cbn [proper measurable smu reached].
    - intros Hl Hu. rewrite <- (at_param_model l u). apply mu_point_at; assumption.
    - intros [(W0 & W1 & W2) Hs] [Hu Hd]. unfold amu.
      assert (A : angle2 (center a) (ap1 a) (turned (center a) (u * sweep a) (ap1 a)) = u * sweep a).
      { pose proof (angle2_of He (center a) (ap1 a) 1 (u * sweep a)) as Q. rewrite !at_param_1 in Q. cbn [p2] in Q. apply Rabs_def2 in Hu.
        apply Q; [|lra|lra|exact Hd]. intros Q'. rewrite Q' in W1. replace (euclid (center a) (center a)) with 0 in W1 by (symmetry; now apply euclid_zero). lra. }
      unfold pydiv. rnum. destruct (Reqb (sweep a) 0) eqn:Z; [apply Reqb_true in Z; contradiction|]. f_equal. 
      match goal with |- ?x / _ = _ => replace x with (u * sweep a)%R end. field. exact Hs.
  Qed.
  Lemma enter_angle (s : CSeg) : proper (geo s) -> enters_at s (seg_start_angle s).
  Proof.
    intros Hp. unfold enters_at, seg_start_angle. destruct (inline_sa s) as [x|]; cbn [dflt]; [left; reflexivity|right]. split; [reflexivity|]. now apply start_heading.
  Qed.
  Lemma leave_angle (s : CSeg) : proper (geo s) -> leaves_at s (seg_end_angle s).
  Proof.
    intros Hp. unfold leaves_at, seg_end_angle. destruct (inline_ea s) as [x|]; cbn [dflt]; [left; reflexivity|right]. split; [reflexivity|]. now apply end_heading.
  Qed.
  Lemma rotation_spec (x y : R) : exists rot, rot = calc_rotation x y /\ Rabs rot <= PI /\ same_direction EPS (x + rot) y.
  Proof.
    exists (calc_rotation x y). split; [reflexivity|]. destruct (Rlt_le_dec (Rabs (x - y)) EPS) as [L|L].
    - rewrite calc_rotation_near by exact L. split; [rewrite Rabs_R0; pose proof PI_RGT_0; lra|]. left. now rewrite Rplus_0_r.
    - destruct (calc_rotation_far x y L) as [[n Hn] B]. split; [apply Rabs_le; exact B|]. right. exists n. rewrite Hn. ring.
  Qed.
  (** With [adjust_rotation] the tool turns at the same rate along a shortened segment as it did along the
      whole: a segment cut at the fraction [u] is left with the angle reached there, and the fillet starts
      with that angle (within the tolerance); similarly for the segment after the fillet. *)
  Theorem C96_hints (r : R) mark (s t a f b : CSeg) fa (u v : R) :
    create_adjusted_fillet r true mark s t = Ok (Some (a, f, b)) -> geo f = SArc fa ->
    proper (geo s) -> proper (geo t) ->
    ap1 fa = reached (geo s) u -> measurable EPS (geo s) u -> ap2 fa = reached (geo t) v -> measurable EPS (geo t) v ->
    (exists s0 s1 rot x, enters_at s s0 /\ leaves_at s s1 /\ Rabs rot <= PI /\ same_direction EPS (s0 + rot) s1 /\
       inline_sa f = Some x /\ Rabs (x - (s1 - rot * (1 - u))) < EPS /\ inline_sa a = inline_sa s /\
       (inline_ea a = Some x \/ inline_ea a = inline_ea s /\ x = s1)) /\
    (exists t0 t1 rot x, enters_at t t0 /\ leaves_at t t1 /\ Rabs rot <= PI /\ same_direction EPS (t0 + rot) t1 /\
       inline_ea f = Some x /\ Rabs (x - (t0 + rot * v)) < EPS /\ inline_ea b = inline_ea t /\
       (inline_sa b = Some x \/ inline_sa b = inline_sa t /\ x = t0)).
  Proof.
    intros H Gf Ps Pt U1 M1 U2 M2. unfold create_adjusted_fillet in H. destruct (segments_are_g1 _ _ _); [discriminate|].
    destruct (create_fillet_arc (geo s) (geo t) r) as [[fa'|]|]; cbn [rbind] in H; try discriminate.
    set (f0 := mkseg _ _ _ _ _ _ _) in H.
    destruct (adjust_hints s f0 t) as [[[s' f'] t']|] eqn:A; cbn [rbind] in H; [|discriminate].
    injection H as <- <- <-.
    assert (fa' = fa). { pose proof (adjust_geo _ _ _ _ _ _ A) as (_ & A2 & _). rewrite A2 in Gf. now injection Gf. } subst fa'.
    unfold adjust_hints in A. unfold c_p1 in A at 1. cbn [geo f0 s_p1] in A. 
    rewrite U1, (smu_measured _ _ Ps M1) in A. cbn [rbind] in A.
    destruct (rotation_spec (seg_start_angle s) (seg_end_angle s)) as (r1 & E1 & R1 & D1). rewrite <- E1 in A.
    destruct (rotation_spec (seg_start_angle t) (seg_end_angle t)) as (r2 & E2 & R2 & D2). rewrite <- E2 in A.
    assert (Z : forall x : R, is_zero x = true -> Rabs x < EPS).
    { intros x. unfold is_zero. rnum. intros Q. apply andb_true_iff in Q as [Q1 Q2]. apply Rltb_true in Q1, Q2. apply Rabs_def1; lra. }
    set (o1 := mul r1 _) in A. assert (O1 : o1 = (r1 * (1 - u))%R) by reflexivity.
    destruct (is_zero o1) eqn:Z1; cbn [negb] in A;
      unfold c_p2 in A at 1; cbn [geo f0 s_p2 set_sa] in A; rewrite U2, (smu_measured _ _ Pt M2) in A; cbn [rbind] in A;
      set (o2 := mul r2 _) in A; assert (O2 : o2 = (r2 * v)%R) by reflexivity;
      destruct (is_zero o2) eqn:Z2; cbn [negb] in A; injection A as <- <- <-; cbn [inline_sa inline_ea copy_attrs set_sa set_ea];
      (split; [exists (seg_start_angle s), (seg_end_angle s), r1|exists (seg_start_angle t), (seg_end_angle t), r2]);
      eexists; (split; [apply enter_angle; assumption|]); (split; [apply leave_angle; assumption|]); (split; [assumption|]); (split; [assumption|]); (split; [reflexivity|]);
      rewrite <- ?O1, <- ?O2; (split; [|split; [reflexivity|auto]]);
      try (apply Z in Z1); try (apply Z in Z2); rnum;
      match goal with |- Rabs ?z < _ => first [replace z with o1 by ring; assumption | replace z with (- o2) by ring; rewrite Rabs_Ropp; assumption | replace z with 0 by ring; rewrite Rabs_R0; exact He] end.
  Qed.
  (** The other hints of a segment stay with what is left of it, and the fillet is marked as asked. *)
  Theorem C96_attributes_partial (r : R) adj mark (s t a f b : CSeg) : create_adjusted_fillet r adj mark s t = Ok (Some (a, f, b)) ->
    inline_z a = inline_z s /\ inline_ignore_a a = inline_ignore_a s /\ inline_z b = inline_z t /\ inline_ignore_a b = inline_ignore_a t /\
    ignore_g1 f = mark /\ inline_z f = None /\
    (adj = false -> inline_sa a = inline_sa s /\ inline_ea a = inline_ea s /\ inline_sa b = inline_sa t /\ inline_ea b = inline_ea t /\
       inline_sa f = None /\ inline_ea f = None).
  Proof.
    unfold create_adjusted_fillet. destruct (segments_are_g1 _ _ _); [discriminate|].
    destruct (create_fillet_arc (geo s) (geo t) r) as [[fa|]|]; cbn [rbind]; try discriminate. set (f0 := mkseg _ _ _ _ _ _ _). destruct adj.
    - destruct (adjust_hints s f0 t) as [[[s' f'] t']|] eqn:A; cbn [rbind]; [|discriminate]. intros H. injection H as <- <- <-.
      unfold adjust_hints in A. destruct (smu _ _) as [m|]; cbn [rbind] in A; [|discriminate].
      destruct (negb (is_zero _)) in A; (destruct (smu _ _) as [m'|] in A; cbn [rbind] in A; [|discriminate]); destruct (negb (is_zero _)) in A;
        injection A as <- <- <-; cbn; repeat split; congruence.
    - cbn [rbind]. intros H. injection H as <- <- <-. cbn. repeat split; auto.
  Qed.
  (** Refuted: a mark set by an earlier pass ("do not treat the joints of this segment as smooth") is lost
      when the segment is shortened. *)
  Theorem C96_mark_lost_refuted (r : R) adj mark (s t a f b : CSeg) : create_adjusted_fillet r adj mark s t = Ok (Some (a, f, b)) ->
    ignore_g1 a = false /\ ignore_g1 b = false.
  Proof.
    unfold create_adjusted_fillet. destruct (segments_are_g1 _ _ _); [discriminate|].
    destruct (create_fillet_arc (geo s) (geo t) r) as [[fa|]|]; cbn [rbind]; try discriminate. set (f0 := mkseg _ _ _ _ _ _ _).
    destruct (if adj then _ else _) as [[[s' f'] t']|]; cbn [rbind]; [|discriminate]. intros H. injection H as <- <- <-. split; reflexivity.
  Qed.
  (** A corner of two lines whose hints turn the tool by one radian along the first. *)
  Example C96_example : EPS <= 1/2 ->
    let s := mkseg (SLine (Ln (P 0 0) (P 3 0))) None (Some 0) (Some 1) false false false in
    let t := mkseg (SLine (Ln (P 3 0) (P 3 4))) None None None false false false in
    exists a f b fa, create_adjusted_fillet 1 true true s t = Ok (Some (a, f, b)) /\ geo f = SArc fa /\
      proper (geo s) /\ proper (geo t) /\ ap1 fa = reached (geo s) (2 / 3) /\ ap2 fa = reached (geo t) (1 / 4) /\
      measurable EPS (geo s) (2 / 3) /\ measurable EPS (geo t) (1 / 4).
  Proof.
    intros Hs s t. destruct (C93_example ltac:(lra)) as (fa & F & F1 & F2 & F3).
    assert (S1 : seg_len (Ln (P 0 0) (P 3 0) : Line_) = 3) by (unfold seg_len; apply euclid_unique; cbn; lra).
    assert (S2 : seg_len (Ln (P 3 0) (P 3 4) : Line_) = 4) by (unfold seg_len; apply euclid_unique; cbn; lra).
    assert (P1 : proper (geo s)) by (cbn [geo s proper]; rewrite S1; lra). assert (P2 : proper (geo t)) by (cbn [geo t proper]; rewrite S2; lra).
    assert (M1 : measurable EPS (geo s) (2 / 3)) by (cbn; lra). assert (M2 : measurable EPS (geo t) (1 / 4)) by (cbn; lra).
    assert (R1 : ap1 fa = reached (geo s) (2 / 3)) by (rewrite F1; cbn [reached geo s]; unfold at_param; cbn [px py p1 p2]; apply pt_ext; cbn [px py]; match goal with |- ?a = ?b => change (@eq R a b) end; field).
    assert (R2 : ap2 fa = reached (geo t) (1 / 4)) by (rewrite F2; cbn [reached geo t]; unfold at_param; cbn [px py p1 p2]; apply pt_ext; cbn [px py]; match goal with |- ?a = ?b => change (@eq R a b) end; field).
    assert (G : segments_are_g1 (geo s) (geo t) EPS = false).
    { unfold segments_are_g1. cbn [geo s t s_p2 s_p1 s_end_tangent s_start_tangent]. unfold langle, pangle, vec. cbn [px py p1 p2].
      assert (A1 : Ratan2 0 3 = 0). { pose proof (atan2_of_polar 3 0) as Q. rewrite sin_0, cos_0, Rmult_0_r, Rmult_1_r in Q. apply Q; pose proof PI_RGT_0; lra. }
      assert (A2 : Ratan2 4 0 = PI / 2). { pose proof (atan2_of_polar 4 (PI / 2)) as Q. rewrite sin_PI2, cos_PI2, Rmult_0_r, Rmult_1_r in Q. apply Q; pose proof PI_RGT_0; lra. }
      apply andb_false_iff. right. unfold psub. cbn [px py]. rnum.
      replace (0 - 0) with 0 by ring. replace (3 - 0) with 3 by ring. replace (4 - 0) with 4 by ring. replace (3 - 3) with 0 by ring. rewrite A1, A2.
      apply Rltb_false. rewrite Rabs_left by (pose proof PI_RGT_0; lra). pose proof PI2_1. unfold PI2 in *. lra. }
    assert (A : exists s' f' t', adjust_hints s (mkseg (SArc fa) None None None false true false) t = Ok (s', f', t')).
    { unfold adjust_hints. unfold c_p1 at 1. cbn [geo s_p1]. rewrite R1. pose proof (smu_measured _ _ P1 M1) as Q1. rewrite Q1. cbn [rbind].
      pose proof (smu_measured _ _ P2 M2) as Q2.
      destruct (negb (is_zero _)); (unfold c_p2; cbn [geo s_p2 set_sa]; rewrite R2, Q2; cbn [rbind]; destruct (negb (is_zero _)); eauto). }
    destruct A as (s' & f' & t' & A). pose proof (adjust_geo _ _ _ _ _ _ A) as (_ & A2 & _).
    unfold create_adjusted_fillet. rewrite G. cbn [geo s t create_fillet_arc]. cbn [geo s t] in F. rewrite F. cbn [rbind]. fold s t. rewrite A. cbn [rbind].
    do 4 eexists. split; [reflexivity|]. split; [exact A2|]. auto 8.
  Qed.
End F.
