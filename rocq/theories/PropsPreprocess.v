(** * PropsPreprocess: C97, all passes of preprocess_paths together. *)
From Verif Require Import Num NumR Geom GeomR GeomSpec GeomProofs GeomProofs2 GeomProofs3 GeomProofs4 GeomProofs5 GeomProofs7 Bezier Gcode Cam CamR Offset OffsetSpec OffsetProofs PropsOffset Fillet FilletSpec FilletProofs FilletProofs2 FilletProofs3 PropsFillet PropsCam3 Preprocess PreprocessSpec.
From Coq Require Import ZArith Reals Lra Lia Bool List Psatz.
Import ListNotations.
Local Open Scope R_scope.

Lemma rmapl_spec {A B} (f : A -> res B) l out : rmapl f l = Ok out -> Forall2 (fun x y => f x = Ok y) l out.
Proof.
  revert out. induction l as [|x l IH]; cbn [rmapl]; intros out H; [injection H as <-; constructor|].
  destruct (f x) as [y|] eqn:F; cbn [rbind] in H; [|discriminate]. destruct (rmapl f l) as [ys|]; cbn [rbind] in H; [|discriminate].
  injection H as <-. constructor; auto.
Qed.
Lemma rflat_spec {A B} (f : A -> res (list B)) l out : rflat f l = Ok out ->
  exists bl, out = concat bl /\ Forall2 (fun x y => f x = Ok y) l bl.
Proof.
  unfold rflat. destruct (rmapl f l) as [bl|] eqn:F; cbn [rmap]; [|discriminate]. intros H. injection H as <-.
  exists bl. split; [reflexivity|]. now apply rmapl_spec.
Qed.
Lemma rmapl_ok {A B} (f : A -> res B) l out : Forall2 (fun x y => f x = Ok y) l out -> rmapl f l = Ok out.
Proof. induction 1 as [|x y l out H _ IH]; cbn [rmapl]; [reflexivity|]. now rewrite H, IH. Qed.
Lemma Forall2_concat_inv {A B} (P : A -> B -> Prop) : forall (bl : list (list A)) out, Forall2 P (concat bl) out ->
  exists cl, out = concat cl /\ Forall2 (Forall2 P) bl cl.
Proof.
  induction bl as [|b bl IH]; cbn [concat]; intros out H; [inversion H; exists []; split; [reflexivity|constructor]|].
  apply Forall2_app_inv_l in H as (o1 & o2 & H1 & H2 & ->). destruct (IH _ H2) as (cl & -> & H3).
  exists (o1 :: cl). split; [reflexivity|]. constructor; auto.
Qed.
Lemma Forall2_imp {A B} (P Q : A -> B -> Prop) l m : (forall x y, P x y -> Q x y) -> Forall2 P l m -> Forall2 Q l m.
Proof. intros H. induction 1; constructor; auto. Qed.
Lemma F2len {A B} (P : A -> B -> Prop) l m : Forall2 P l m -> length l = length m.
Proof. induction 1; cbn; auto. Qed.
Lemma Forall2_comp {A B C} (P : A -> B -> Prop) (Q : B -> C -> Prop) l m n : Forall2 P l m -> Forall2 Q m n ->
  Forall2 (fun x z => exists y, P x y /\ Q y z) l n.
Proof. intros H. revert n. induction H; intros n H2; inversion H2; subst; constructor; eauto. Qed.

(** With the fillet, offset and smoothing options off, and no curves, preprocess_paths is the function
    [preprocess] of Cam.v, about which the theorems on whole jobs (C25-C32) are. *)
Theorem C97_plain {N : NumOps} {E : Epsilon N} (k : prep N) (c : cam N) (l : list (list (cseg N))) :
  path_tool_fillet k = false -> path_tool_offset k = false -> path_smooth_fillet k = false -> pp_split_cusps k = path_split_cusps c ->
  preprocess_paths k (map (map DSeg) l) = preprocess c l.
Proof.
  intros F O S C. unfold preprocess_paths, offset_pass, smooth_pass. rewrite O, S. cbn [andb].
  assert (X : forall p, path_biarc_approximation k (map DSeg p) = Ok p).
  { intros p. unfold path_biarc_approximation, rflat.
    assert (Y : rmapl (biarc_seg k) (map DSeg p) = Ok (map (fun s => [s]) p)).
    { induction p as [|s p IH]; cbn [map rmapl biarc_seg]; [reflexivity|]. now rewrite IH. }
    rewrite Y. cbn [rmap]. f_equal. induction p as [|s p IH]; cbn; [reflexivity|]. f_equal. apply IH.
    clear -p. induction p as [|s p IH]; cbn [map rmapl biarc_seg]; [reflexivity|]. now rewrite IH. }
  unfold rflat. assert (Y : forall p, first_pass k (map DSeg p) = if path_split_cusps c then split_path_g1 p else Ok [p]).
  { intros p. unfold first_pass. rewrite X, F, C. reflexivity. }
  assert (Z : rmap (@concat _) (rmapl (first_pass k) (map (map DSeg) l)) = preprocess c l).
  { induction l as [|p l IH]; cbn [map rmapl preprocess]; [reflexivity|]. rewrite Y.
    destruct (if path_split_cusps c then split_path_g1 p else Ok [p]) as [ps|]; cbn [rbind rmap]; [|reflexivity].
    rewrite <- IH. destruct (rmapl _ _); reflexivity. }
  rewrite Z. destruct (preprocess c l); reflexivity.
Qed.

(** Without cusp splitting and tool offset every drawing path of lines and arcs goes through the two fillet
    passes: first with half the tool width as the radius, its arcs marked and no rotation adjusted, then with the
    smoothing radius, unmarked, with the rotation adjusted; both close polygons if asked to.  What a pass does
    to a path is C93-C96. *)
Theorem C97_fillets {N : NumOps} {E : Epsilon N} (k : prep N) (l : list (list (cseg N))) out :
  path_tool_offset k = false -> pp_split_cusps k = false ->
  preprocess_paths k (map (map DSeg) l) = Ok out <->
  Forall2 (fun p o => exists q,
    (if (path_tool_fillet k && Num.ltb (#0)%num (pp_tool_width k))%bool
     then fillet_path p (pp_tool_width k / #2)%num (path_close_polygons k) false true = Ok q else q = p) /\
    (if (path_smooth_fillet k && Num.ltb (#0)%num (path_smooth_radius k))%bool
     then fillet_path q (path_smooth_radius k) (path_close_polygons k) true false = Ok o else o = q)) l out.
Proof.
  intros O C.
  assert (X : forall p, path_biarc_approximation k (map DSeg p) = Ok p).
  { intros p. unfold path_biarc_approximation, rflat.
    assert (Y : rmapl (biarc_seg k) (map DSeg p) = Ok (map (fun s => [s]) p)).
    { induction p as [|s p IH]; cbn [map rmapl biarc_seg]; [reflexivity|]. now rewrite IH. }
    rewrite Y. cbn [rmap]. f_equal. clear. induction p as [|s p IH]; cbn; [reflexivity|]. now f_equal. }
  unfold preprocess_paths, offset_pass, smooth_pass. rewrite O. cbn [andb].
  set (b1 := (path_tool_fillet k && _)%bool). set (b2 := (path_smooth_fillet k && _)%bool).
  set (A := fun p q : list (cseg N) => if b1 then fillet_path p (pp_tool_width k / #2)%num (path_close_polygons k) false true = Ok q else q = p).
  set (B := fun q o : list (cseg N) => if b2 then fillet_path q (path_smooth_radius k) (path_close_polygons k) true false = Ok o else o = q).
  assert (F1 : forall p ps, first_pass k (map DSeg p) = Ok ps <-> exists q, A p q /\ ps = [q]).
  { intros p ps. unfold first_pass. rewrite X. cbn [rbind]. fold b1. rewrite C. unfold A. destruct b1.
    - destruct (fillet_path p _ _ _ _) as [q|]; cbn [rbind]; split.
      + intros H. injection H as <-. eauto.
      + intros (q' & H & ->). injection H as <-. reflexivity.
      + discriminate.
      + intros (q' & H & _). discriminate.
    - cbn [rbind]. split; [intros H; injection H as <-; eauto|intros (q & -> & ->); reflexivity]. }
  assert (Y : rflat (first_pass k) (map (map DSeg) l) = Ok out \/ True) by auto. clear Y.
  assert (G1 : forall l qs, rflat (first_pass k) (map (map DSeg) l) = Ok qs <-> Forall2 A l qs).
  { clear - F1. intros l qs. split.
    - intros H. apply rflat_spec in H as (bl & -> & H). revert bl H. induction l as [|p l IH]; intros bl H; cbn [map] in H; inversion H; subst; [constructor|].
      apply F1 in H2 as (q & Hq & ->). cbn [concat app]. constructor; auto.
    - intros H. unfold rflat. assert (Z : rmapl (first_pass k) (map (map DSeg) l) = Ok (map (fun q => [q]) qs)).
      { apply rmapl_ok. induction H; cbn [map]; constructor; auto. apply F1. eauto. }
      rewrite Z. cbn [rmap]. f_equal. clear. induction qs; cbn; [reflexivity|]. now f_equal. }
  assert (G2 : forall qs os, (if b2 then rmapl (fun p => fillet_path p (path_smooth_radius k) (path_close_polygons k) true false) qs else Ok qs) = Ok os <-> Forall2 B qs os).
  { unfold B. clear. intros qs os. destruct b2; split.
    - intros H. now apply rmapl_spec in H.
    - intros H. now apply rmapl_ok.
    - intros H. injection H as <-. induction qs; constructor; auto.
    - induction 1 as [|q o qs os -> _ IH]; [reflexivity|]. injection IH as ->. reflexivity. }
  split.
  - destruct (rflat (first_pass k) (map (map DSeg) l)) as [qs|] eqn:Q; cbn [rbind]; [|discriminate]. intros H. apply G1 in Q. apply G2 in H.
    exact (Forall2_comp _ _ _ _ _ Q H).
  - intros H. assert (Z : exists qs, Forall2 A l qs /\ Forall2 B qs out).
    { clear - H. induction H as [|p o l out (q & H1 & H2) _ (qs & I1 & I2)]; [exists []; split; constructor|]. exists (q :: qs). split; constructor; auto. }
    destruct Z as (qs & Z1 & Z2). apply G1 in Z1. rewrite Z1. cbn [rbind]. now apply G2.
Qed.

Section P.
  Context {E : Epsilon ROps}.
  Hypothesis He : 0 < EPS.

  (** A curve that is approximated without leaving out pieces (see C73 for when pieces are left out). *)
  Definition whole (k : prep ROps) (s : DSeg_) : Prop :=
    match s with
    | DCurve b => forall l, biarc_approximation b (biarc_tolerance k) (biarc_max_depth k) (line_flatness k) = Ok l ->
        runs EPS (z1 b) (z2 b) l
    | DSeg _ => True
    end.

  Lemma last_app_ne {A} (l : list A) x m d : last (l ++ x :: m) d = last (x :: m) d.
  Proof. induction l as [|y l IH]; [reflexivity|]. cbn [app last]. destruct (l ++ x :: m) eqn:Q; [destruct l; discriminate|]. rewrite <- Q in *. exact IH. Qed.
  Lemma last_ne {A} (l : list A) x d d' : last (x :: l) d = last (x :: l) d'.
  Proof. revert x. induction l as [|y l IH]; intros x; [reflexivity|]. cbn [last] in *. apply IH. Qed.
  Lemma last_d {A} (l : list A) x d : last (x :: l) d = last l x.
  Proof. destruct l as [|y l]; [reflexivity|]. cbn [last]. destruct l; [reflexivity|]. apply (last_ne l a). Qed.
  Lemma unbroken_join eps (l m : list Seg) h t g u : l = h :: t -> m = g :: u -> unbroken eps l -> unbroken eps m ->
    euclid (seg_finish (last t h)) (seg_begin g) < eps -> unbroken eps (l ++ m).
  Proof.
    intros -> ->. revert h. induction t as [|x t IH]; intros h U V D.
    - cbn [app]. cbn [unbroken]. cbn in D. auto.
    - cbn [app unbroken] in *. destruct U as [U1 U2]. split; [exact U1|]. apply IH; auto. rewrite last_d in D. exact D.
  Qed.
  Lemma runs_app eps a b c d l m : runs eps a b l -> runs eps c d m -> euclid b c < eps -> runs eps a d (l ++ m).
  Proof.
    intros (U & h & t & -> & <- & <-) (V & g & u & -> & <- & <-) D. split; [eapply unbroken_join; eauto|].
    exists h, (t ++ g :: u). split; [reflexivity|]. split; [reflexivity|]. rewrite last_app_ne, last_d. reflexivity.
  Qed.
  Lemma runs_split eps a b l m : runs eps a b (l ++ m) -> l <> [] -> m <> [] ->
    exists c d, runs eps a c l /\ runs eps d b m /\ euclid c d < eps.
  Proof.
    intros (U & h & t & Q & A & B) Hl Hm. destruct l as [|x l]; [congruence|]. destruct m as [|y m]; [congruence|].
    cbn [app] in *. injection Q as -> <-. rewrite last_app_ne, last_d in B.
    exists (seg_finish (last l h)), (seg_begin y).
    assert (X : forall h, unbroken eps (h :: l ++ y :: m) -> unbroken eps (h :: l) /\ unbroken eps (y :: m) /\ euclid (seg_finish (last l h)) (seg_begin y) < eps).
    { clear. induction l as [|z l IH]; intros h H.
      - destruct H as [H1 H2]. split; [exact Logic.I|]. split; [exact H2|exact H1].
      - destruct H as [H1 H2]. destruct (IH z H2) as (A & B & C). split; [split; [exact H1|exact A]|]. split; [exact B|]. rewrite last_d. exact C. }
    destruct (X h U) as (U1 & U2 & D). split; [|split]; [split; [exact U1|eauto 6]|split; [exact U2|eauto 6]|exact D].
  Qed.
  Lemma runs_self s : runs EPS (seg_begin s) (seg_finish s) [s].
  Proof. split; [exact Logic.I|]. exists s, []. auto. Qed.
  (** The first step keeps the drawing in one piece. *)
  Lemma biarc_runs k s p q : drawn EPS (s :: p) -> (forall x, In x (s :: p) -> whole k x) ->
    path_biarc_approximation k (s :: p) = Ok q -> runs EPS (d_begin s) (d_finish (last p s)) (map geo q).
  Proof.
    intros D W H. apply rflat_spec in H as (bl & -> & F).
    assert (One : forall x y, whole k x -> biarc_seg k x = Ok y -> runs EPS (d_begin x) (d_finish x) (map geo y)).
    { intros x y Wx. destruct x as [b|c]; cbn [biarc_seg].
      - destruct (biarc_approximation _ _ _ _) as [l|] eqn:Q; cbn [rmap]; [|discriminate]. intros H. injection H as <-.
        rewrite map_map. cbn. rewrite map_id. apply Wx, Q.
      - intros H. injection H as <-. apply runs_self. }
    revert s bl D W F. induction p as [|t p IH]; intros s bl D W F.
    - inversion F as [|? y ? yl H1 H2]; subst. inversion H2; subst. cbn [concat]. rewrite app_nil_r. apply One; [apply W; now left|exact H1].
    - inversion F as [|? y ? yl H1 H2]; subst. cbn [concat]. rewrite map_app. destruct D as [D1 D2].
      eapply runs_app; [apply (One s); [apply W; now left|exact H1]| |exact D1].
      rewrite last_d. apply IH; auto. intros x Hx. apply W. now right.
  Qed.
  (** Fillets keep the ends unless the path is closed with one. *)
  Lemma fillet_runs (p : Path) (r : R) close adj mark out a b : runs EPS a b (map geo p) -> fillet_path p r close adj mark = Ok out ->
    unbroken EPS (map geo out) /\ out <> [] /\ (close = false -> runs EPS a b (map geo out)).
  Proof.
    intros (U & h0 & t0 & Q & A & B) H. destruct (C94_connected He p r close adj mark out EPS He H U) as [V D].
    destruct p as [|x p]; [discriminate|]. cbn [map] in Q. injection Q as Qh Qt.
    destruct D as [->|(s0 & rest & h & z & Q & -> & _ & D)].
    - split; [exact V|]. split; [discriminate|]. intros _. split; [exact V|]. cbn [map]. exists h0, t0. rewrite Qh, Qt. auto.
    - split; [exact V|]. split; [discriminate|]. intros ->. split; [exact V|]. injection Q as <- <-.
      destruct D as [[D1 D2]|(D & _)]; [|discriminate]. exists (geo h), (map geo z). split; [reflexivity|].
      split; [rewrite D1, Qh; exact A|]. rewrite <- map_last in * || idtac.
      assert (ML : forall l y, seg_finish (last (map geo l) (geo y)) = seg_finish (geo (last l y))).
      { clear. induction l as [|u l IH]; intros y; [reflexivity|]. cbn [map]. rewrite !last_d. apply IH. }
      rewrite ML, D2, <- B, <- Qh, <- Qt, ML. reflexivity.
  Qed.
  Lemma unbroken_pieces eps (ps : list Path) : unbroken eps (map geo (concat ps)) -> Forall (fun q => unbroken eps (map geo q)) ps.
  Proof.
    induction ps as [|p ps IH]; cbn [concat]; intros U; [constructor|]. rewrite map_app in U.
    assert (X : forall (l m : list Seg), unbroken eps (l ++ m) -> unbroken eps l /\ unbroken eps m).
    { clear. induction l as [|x l IH]; intros m H; [split; [exact Logic.I|exact H]|]. cbn [app] in H. destruct l as [|y l].
      - split; [exact Logic.I|]. destruct m; [exact Logic.I|apply H].
      - destruct H as [H1 H2]. destruct (IH m H2) as [H3 H4]. split; [split; [exact H1|exact H3]|exact H4]. }
    apply X in U as [U1 U2]. constructor; auto.
  Qed.
  (** What the first pass makes of one drawing path. *)
  Lemma first_pass_spec k s p ps : drawn EPS (s :: p) -> (forall x, In x (s :: p) -> whole k x) ->
    first_pass k (s :: p) = Ok ps ->
    ps <> [] /\ (pp_split_cusps k = false -> length ps = 1%nat) /\ Forall (fun q => q <> []) ps /\
    unbroken EPS (map geo (concat ps)) /\ (path_close_polygons k = false -> runs EPS (d_begin s) (d_finish (last p s)) (map geo (concat ps))).
  Proof.
    intros D W. unfold first_pass. destruct (path_biarc_approximation k (s :: p)) as [q|] eqn:Q; cbn [rbind]; [|discriminate].
    apply biarc_runs in Q; auto.
    match goal with |- context [rbind ?m _] => destruct m as [q'|] eqn:Q' end; cbn [rbind]; [|discriminate].
    assert (H : unbroken EPS (map geo q') /\ q' <> [] /\ (path_close_polygons k = false -> runs EPS (d_begin s) (d_finish (last p s)) (map geo q'))).
    { destruct (_ && _); [eapply fillet_runs; eauto|]. injection Q' as <-. split; [apply Q|]. split; [|intros _; exact Q].
      intros ->. destruct Q as (_ & h & t & Q & _). discriminate. }
    destruct H as (H1 & H2 & H3). destruct (pp_split_cusps k).
    - intros Hs. destruct (C32_partition q' H2) as (ps' & Hs' & Hc & Hn & _). rewrite Hs in Hs'. injection Hs' as <-.
      rewrite Hc. split; [intros ->; cbn in Hc; congruence|]. split; [discriminate|]. auto.
    - intros H. injection H as <-. cbn [concat]. rewrite app_nil_r. split; [discriminate|]. split; [reflexivity|].
      split; [constructor; auto|]. auto.
  Qed.
  Lemma near_unbroken (p : Path) : near_joints p -> unbroken EPS (map geo p).
  Proof.
    induction p as [|s [|t r] IH]; cbn; auto. intros [A B]. split; [|apply IH; exact B]. unfold near_joint in A.
    destruct (geo s), (geo t); exact A.
  Qed.
  (** Every drawing path gives one or more tool paths (exactly one if paths are not split at cusps), in the
      same order, and none of the tool paths has a gap. *)
  Theorem C97_connected_partial (k : prep ROps) (l : list Drawing) out : path_preserve_g1 k = false ->
    (forall p, In p l -> p <> [] /\ drawn EPS p /\ forall x, In x p -> whole k x) ->
    EPS <= pp_trail_offset k \/ path_tool_offset k = false ->
    preprocess_paths k l = Ok out ->
    exists blocks, out = concat blocks /\ length blocks = length l /\
      (forall b, In b blocks -> b <> [] /\ (pp_split_cusps k = false -> length b = 1%nat) /\
         forall q, In q b -> q <> [] /\ unbroken EPS (map geo q)).
  Proof.
    intros Pg Hl Ho H. unfold preprocess_paths in H.
    destruct (rflat (first_pass k) l) as [l1|] eqn:H1; cbn [rbind] in H; [|discriminate].
    apply rflat_spec in H1 as (bl & -> & F1).
    destruct (offset_pass k (concat bl)) as [l2|] eqn:H2; cbn [rbind] in H; [|discriminate].
    assert (G1 : Forall2 (fun q q' => q <> [] -> unbroken EPS (map geo q) -> q' <> [] /\ unbroken EPS (map geo q')) (concat bl) l2).
    { unfold offset_pass in H2. destruct (path_tool_offset k && _) eqn:O.
      - destruct (rmapl _ _) as [l3|] eqn:R3; cbn [rbind] in H2; [|discriminate]. rewrite Pg in H2. injection H2 as <-.
        apply rmapl_spec in R3. eapply Forall2_imp; [|exact R3]. cbn. intros q q' Hq Hn _.
        destruct Ho as [Ho|Ho]; [|rewrite Ho in O; discriminate].
        assert (Ha : EPS <= Rabs (pp_trail_offset k)) by (toR; rewrite Rabs_right; lra).
        split; [|apply near_unbroken; eapply C91_no_gaps; eauto].
        destruct (C91_total He q (pp_trail_offset k) (line_flatness k) None Ha) as [[(o & Q & Z) _]|[Q _]]; pose proof (eq_trans (eq_sym Hq) Q) as X; [injection X as ->; exact Z|discriminate X].
      - injection H2 as <-. clear. induction (concat bl); constructor; auto. }
    assert (G2 : Forall2 (fun q q' => q <> [] -> unbroken EPS (map geo q) -> q' <> [] /\ unbroken EPS (map geo q')) l2 out).
    { unfold smooth_pass in H. destruct (path_smooth_fillet k && _).
      - apply rmapl_spec in H. eapply Forall2_imp; [|exact H]. cbn. intros q q' Hq Hn U. destruct q as [|x q]; [congruence|].
        assert (RR : runs EPS (seg_begin (geo x)) (seg_finish (last (map geo q) (geo x))) (map geo (x :: q))) by (split; [exact U|exists (geo x), (map geo q); auto]).
        eapply fillet_runs in RR; [|exact Hq]. tauto.
      - injection H as <-. clear. induction l2; constructor; auto. }
    pose proof (Forall2_comp _ _ _ _ _ G1 G2) as G. apply Forall2_concat_inv in G as (cl & -> & G).
    exists cl. split; [reflexivity|]. split; [rewrite <- (F2len _ _ _ G); symmetry; eapply F2len; eauto|].
    intros b Hb.
    assert (X : exists p b0, In p l /\ first_pass k p = Ok b0 /\ Forall2 (fun q q' => q <> [] -> unbroken EPS (map geo q) -> q' <> [] /\ unbroken EPS (map geo q')) b0 b).
    { clear - Hb F1 G. revert cl G Hb. induction F1 as [|p b0 l bl F _ IH]; intros cl G Hb; inversion G as [|? c ? cl' G0 G']; subst; [destruct Hb|].
      destruct Hb as [->|Hb].
      - exists p, b0. split; [now left|]. split; [exact F|]. eapply Forall2_imp; [|exact G0]. cbn. intros q q' (y & A & B) Hn U.
        destruct (A Hn U). auto.
      - destruct (IH _ G' Hb) as (p' & b' & I' & R'). exists p', b'. split; [now right|exact R']. }
    destruct X as (p & b0 & Ip & Fp & Gp). destruct (Hl p Ip) as (Hn & Hd & Hw). destruct p as [|s p]; [congruence|].
    destruct (first_pass_spec k s p b0 Hd Hw Fp) as (P1 & P2 & P3 & P4 & _). apply unbroken_pieces in P4.
    split; [intros ->; inversion Gp; subst; congruence|]. split; [intros S; rewrite <- (F2len _ _ _ Gp); auto|].
    intros q Hq. clear - Gp P3 P4 Hq. induction Gp as [|q0 q1 b0 b A _ IH]; [destruct Hq|]. inversion P3; inversion P4; subst.
    destruct Hq as [->|Hq]; auto.
  Qed.
  (** Without the tool offset and closing fillets the tool paths made from a drawing path follow one
      another without a gap from the start to the end of the drawing path. *)
  Theorem C97_ends (k : prep ROps) (l : list Drawing) out : path_tool_offset k = false -> path_close_polygons k = false ->
    (forall p, In p l -> p <> [] /\ drawn EPS p /\ forall x, In x p -> whole k x) ->
    preprocess_paths k l = Ok out ->
    exists blocks, out = concat blocks /\
      Forall2 (fun p b => forall s r, p = s :: r -> runs EPS (d_begin s) (d_finish (last r s)) (map geo (concat b))) l blocks.
  Proof.
    intros Ho Hc Hl H. unfold preprocess_paths in H.
    destruct (rflat (first_pass k) l) as [l1|] eqn:H1; cbn [rbind] in H; [|discriminate].
    apply rflat_spec in H1 as (bl & -> & F1). unfold offset_pass in H. rewrite Ho in H. cbn [andb rbind] in H.
    assert (G : Forall2 (fun q q' => forall a b, runs EPS a b (map geo q) -> runs EPS a b (map geo q')) (concat bl) out).
    { unfold smooth_pass in H. destruct (path_smooth_fillet k && _).
      - apply rmapl_spec in H. eapply Forall2_imp; [|exact H]. cbn. intros q q' Hq a b RR.
        eapply fillet_runs in RR; [|exact Hq]. tauto.
      - injection H as <-. clear. induction (concat bl); constructor; auto. }
    apply Forall2_concat_inv in G as (cl & -> & G). exists cl. split; [reflexivity|].
    assert (Hl' : forall p, In p l -> p <> [] /\ drawn EPS p /\ forall x, In x p -> whole k x) by exact Hl. clear Hl H.
    revert cl G. induction F1 as [|p b0 l bl F _ IH]; intros cl G; inversion G as [|? c ? cl' G0 G']; subst; constructor.
    - intros s r ->. destruct (Hl' (s :: r)) as (_ & Hd & Hw); [now left|].
      destruct (first_pass_spec k s r b0 Hd Hw F) as (_ & _ & P3 & _ & P5). specialize (P5 Hc).
      clear - G0 P5 P3 He.
      assert (K : forall b0 c, Forall (fun q : Path => q <> []) b0 ->
        Forall2 (fun q q' : Path => forall a b, runs EPS a b (map geo q) -> runs EPS a b (map geo q')) b0 c ->
        forall a b, runs EPS a b (map geo (concat b0)) -> runs EPS a b (map geo (concat c))).
      { clear - He. intros b0 c P3 G. induction G as [|q q' b0 c A G IH]; intros a b; [auto|]. cbn [concat]. inversion P3 as [|? ? Q0 Q1]; subst.
        rewrite !map_app. destruct b0 as [|q1 b0].
        - inversion G; subst. cbn [concat map]. rewrite !app_nil_r. apply A.
        - intros R0. apply runs_split in R0 as (u & v & R1 & R2 & D).
          + eapply runs_app; [apply A; exact R1|apply IH; [exact Q1|exact R2]|exact D].
          + destruct q; [congruence|discriminate].
          + inversion Q1 as [|? ? Q2 _]; subst. destruct q1; [congruence|discriminate]. }
      eapply K; eauto.
    - apply IH; [|exact G']. intros p' Hp'. apply Hl'. now right.
  Qed.
  Lemma plain_biarc k (p : Path) : path_biarc_approximation k (map DSeg p) = Ok p.
  Proof.
    unfold path_biarc_approximation, rflat.
    assert (Y : rmapl (biarc_seg k) (map DSeg p) = Ok (map (fun s => [s]) p)).
    { induction p as [|s p IH]; cbn [map rmapl biarc_seg]; [reflexivity|]. now rewrite IH. }
    rewrite Y. cbn [rmap]. f_equal. clear. induction p as [|s p IH]; cbn; [reflexivity|]. now f_equal.
  Qed.
  Lemma meets_pieces (ps : list Path) : meets (concat ps) -> Forall meets ps.
  Proof.
    assert (X : forall (l m : Path), meets (l ++ m) -> meets l /\ meets m).
    { clear. induction l as [|x l IH]; intros m H; [split; [exact Logic.I|exact H]|]. cbn [app] in H. destruct l as [|y l].
      - split; [exact Logic.I|]. destruct m; [exact Logic.I|apply H].
      - destruct H as [H1 H2]. destruct (IH m H2) as [H3 H4]. split; [split; [exact H1|exact H3]|exact H4]. }
    induction ps as [|p ps IH]; cbn [concat]; intros U; [constructor|]. apply X in U as [U1 U2]. constructor; auto.
  Qed.
  (** Trail compensation in a job without fillets: every drawing path made of proper lines and arcs that meet is
      cut, if asked for, into pieces, and the tip of the trailing tool follows every piece (C90). *)
  Theorem C97_tip_follows (k : prep ROps) (l : list Path) :
    path_tool_fillet k = false -> path_smooth_fillet k = false -> path_preserve_g1 k = false ->
    path_tool_offset k = true -> EPS <= pp_trail_offset k ->
    (forall p, In p l -> p <> [] /\ meets p /\ forall s, In s p -> proper (geo s) /\ EPS <= euclid (starts s) (ends s)) ->
    exists pieces out, preprocess_paths k (map (map DSeg) l) = Ok (concat out) /\
      Forall2 (fun p ps => p = concat ps /\ (pp_split_cusps k = false -> ps = [p])) l pieces /\
      Forall2 (Forall2 (woven EPS (pp_trail_offset k) (line_flatness k) EPS)) pieces out.
  Proof.
    intros F S G O Ht Hl.
    assert (A : exists pieces, Forall2 (fun p ps => first_pass k (map DSeg p) = Ok ps) l pieces /\
      Forall2 (fun p ps => p = concat ps /\ (pp_split_cusps k = false -> ps = [p])) l pieces /\
      Forall (Forall (fun p => p <> [])) pieces).
    { clear O Ht. induction l as [|p l IH]; [exists []; repeat split; constructor|].
      destruct IH as (pieces & A1 & A2 & A3); [intros q Hq; apply Hl; now right|].
      destruct (Hl p) as (Hn & _ & _); [now left|]. unfold first_pass. destruct (pp_split_cusps k) eqn:C.
      - destruct (C32_partition p Hn) as (ps & Hs & Hc & Hne & _). exists (ps :: pieces).
        split; [constructor|].
        + rewrite plain_biarc, F. exact Hs.
        + eapply Forall2_imp; [|exact A1]. intros x y H. unfold first_pass in H. rewrite C in H. exact H.
        + split; constructor; auto. split; [auto|discriminate].
      - exists ([p] :: pieces). split; [constructor|].
        + rewrite plain_biarc, F. reflexivity.
        + eapply Forall2_imp; [|exact A1]. intros x y H. unfold first_pass in H. rewrite C in H. exact H.
        + split; constructor; auto. split; [cbn; now rewrite app_nil_r|auto]. }
    destruct A as (pieces & A1 & A2 & A3).
    assert (B : exists out, Forall2 (Forall2 (fun p q => offset_path p (pp_trail_offset k) (line_flatness k) None = Ok q)) pieces out /\
      Forall2 (Forall2 (woven EPS (pp_trail_offset k) (line_flatness k) EPS)) pieces out).
    { assert (Good : Forall (fun ps => meets (concat ps) /\ forall s, In s (concat ps) -> proper (geo s) /\ EPS <= euclid (starts s) (ends s)) pieces).
      { clear - A2 Hl. induction A2 as [|p ps l pieces [-> _] _ IH]; constructor; [|apply IH; intros q Hq; apply Hl; now right].
        destruct (Hl (concat ps)) as (_ & M & Q); [now left|]. auto. }
      clear - Good A3 He Ht. induction pieces as [|ps pieces IH]; [exists []; split; constructor|].
      inversion Good as [|? ? [M Pr] Good']; subst. inversion A3 as [|? ? N N']; subst. destruct (IH N' Good') as (out & B1 & B2).
      apply meets_pieces in M.
      assert (C : exists o, Forall2 (fun p q => offset_path p (pp_trail_offset k) (line_flatness k) None = Ok q) ps o /\
        Forall2 (woven EPS (pp_trail_offset k) (line_flatness k) EPS) ps o).
      { clear - N M Pr He Ht. induction ps as [|p ps IH]; [exists []; split; constructor|].
        inversion N; inversion M; subst. destruct IH as (o & C1 & C2); auto.
        { intros s Hs. apply Pr. cbn [concat]. apply in_or_app. now right. }
        destruct p as [|s p]; [congruence|].
        destruct (C90_tip_follows_partial He s p (pp_trail_offset k) (line_flatness k) None Ht) as (q & Q1 & Q2); [cbn; lra| |auto|].
        { intros x Hx. apply Pr. cbn [concat]. apply in_or_app. now left. }
        exists (q :: o). split; constructor; auto. }
      destruct C as (o & C1 & C2). exists (o :: out). split; constructor; auto. }
    destruct B as (out & B1 & B2). exists pieces, out. split; [|auto].
    unfold preprocess_paths, rflat. assert (R1 : rmapl (first_pass k) (map (map DSeg) l) = Ok pieces).
    { apply rmapl_ok. clear - A1. induction A1; cbn [map]; constructor; auto. }
    rewrite R1. cbn [rmap rbind]. unfold offset_pass, smooth_pass. rewrite O, S, G. cbn [andb].
    match goal with |- context [Num.ltb ?u ?v] => destruct (Num.ltb u v) eqn:Z end; [|exfalso; toR; apply Rltb_false in Z; lra].
    assert (R2 : rmapl (fun p => offset_path p (pp_trail_offset k) (line_flatness k) None) (concat pieces) = Ok (concat out)).
    { apply rmapl_ok. clear - B1. induction B1 as [|x y l m H _ IH]; cbn [concat]; [constructor|]. apply Forall2_app; auto. }
    rewrite R2. reflexivity.
  Qed.
  (** A drawing path with a tiny segment between two corners stops the whole job if paths are split at
      cusps and offset: the piece consisting of that segment alone has no offset path. *)
  Definition step_path : Path :=
    [plain (SLine (Ln (P 0 0) (P 1 0))); plain (SLine (Ln (P 1 0) (P 1 (EPS / 2))));
     plain (SLine (Ln (P 1 (EPS / 2)) (P 2 (EPS / 2))))]%R.
  Theorem C97_tiny_piece_refuted (k : prep ROps) : EPS <= 1 ->
    path_tool_fillet k = false -> pp_split_cusps k = true -> path_tool_offset k = true -> EPS <= pp_trail_offset k ->
    drawn EPS (map DSeg step_path) /\ 1 <= euclid (P 0 0) (P 2 (EPS / 2)%R) /\
    preprocess_paths k [map DSeg step_path] = Raise IndexError.
  Proof.
    intros H1 F C O Ht. pose proof PI_RGT_0 as P0. pose proof PI2_1 as P2.
    split; [|split].
    - cbn. repeat split; apply self_close; auto.
    - apply Rsqr_incr_0_var; [|apply euclid_pos]. unfold Rsqr. rewrite euclid_sqr. cbn [px py]. nra.
    - unfold preprocess_paths, rflat. cbn [rmapl]. unfold first_pass. rewrite plain_biarc, F, C. cbn [andb rbind].
      assert (T1 : langle (N := ROps) (Ln (P 0 0) (P 1 0)) = 0).
      { change (Ratan2 (0 - 0) (1 - 0) = 0). replace (0 - 0) with (1 * sin 0) by (rewrite sin_0; ring). replace (1 - 0) with (1 * cos 0) by (rewrite cos_0; ring). apply atan2_of_polar; lra. }
      assert (T2 : langle (N := ROps) (Ln (P 1 0) (P 1 (EPS / 2)%R)) = PI / 2).
      { change (Ratan2 (EPS / 2 - 0) (1 - 1) = PI / 2). replace (EPS / 2 - 0) with (EPS / 2 * sin (PI / 2)) by (rewrite sin_PI2; ring). replace (1 - 1) with (EPS / 2 * cos (PI / 2)) by (rewrite cos_PI2; ring). apply atan2_of_polar; lra. }
      assert (T3 : langle (N := ROps) (Ln (P 1 (EPS / 2)%R) (P 2 (EPS / 2)%R)) = 0).
      { change (Ratan2 (EPS / 2 - EPS / 2) (2 - 1) = 0). replace (EPS / 2 - EPS / 2) with (1 * sin 0) by (rewrite sin_0; ring). replace (2 - 1) with (1 * cos 0) by (rewrite cos_0; ring). apply atan2_of_polar; lra. }
      assert (S : split_path_g1 step_path = Ok (map (fun s => [s]) step_path)).
      { unfold step_path, split_path_g1, split_loop, cut_here. cbn [plain geo ignore_g1 s_end_tangent s_start_tangent].
        rewrite T1, T2, T3. unfold feq. rnum.
        rewrite (proj2 (Rltb_false (Rabs (0 - PI / 2)) EPS)) by (rewrite Rabs_left; lra).
        rewrite (proj2 (Rltb_false (Rabs (PI / 2 - 0)) EPS)) by (rewrite Rabs_right; lra). reflexivity. }
      rewrite S. cbn [rbind rmap concat app]. unfold offset_pass. rewrite O. cbn [andb].
      match goal with |- context [Num.ltb ?u ?v] => destruct (Num.ltb u v) eqn:Z end; [|exfalso; toR; apply Rltb_false in Z; lra].
      rewrite app_nil_r. cbn [map step_path rmapl].
      assert (Ha : EPS <= Rabs (pp_trail_offset k)) by (toR; rewrite Rabs_right; lra).
      match goal with |- context [offset_path ?p _ _ _] => destruct (C91_total He p (pp_trail_offset k) (line_flatness k) None Ha) as [[(o & Q & _) _]|[Q Q']] end.
      2:{ exfalso. specialize (Q' _ (or_introl eq_refl)). cbn [plain geo s_p1 s_p2 p1 p2] in Q'.
          assert (X : euclid (P 0 0) (P 1 0) = 1) by (apply euclid_unique; cbn; lra). toR; lra. }
      change (@None (T ROps)) with (@None R) in *. rewrite Q. cbn [rbind]. clear Q.
      match goal with |- context [offset_path ?p _ _ _] => destruct (C91_total He p (pp_trail_offset k) (line_flatness k) None Ha) as [[_ (s & [<-|[]] & X)]|[Q _]] end.
      { exfalso. cbn [plain geo s_p1 s_p2 p1 p2] in X. assert (Y : euclid (P 1 0) (P 1 (EPS / 2)%R) = EPS / 2) by (apply euclid_unique; cbn; lra). toR; lra. }
      match goal with |- context [rbind ?m _] => replace m with (@Raise Path IndexError) by (symmetry; exact Q) end. reflexivity.
  Qed.
  (** Curves that are flat enough to become a line are not left out. *)
  Lemma flat_whole (k : prep ROps) (b : bez ROps) (f : R) : EPS <= euclid (z1 b) (z2 b) -> flatness b = Ok f -> f < line_flatness k -> whole k (DCurve b).
  Proof.
    intros Hc Hf Hl l. unfold biarc_approximation. rewrite Nat.add_comm. cbn [Nat.add biarc].
    destruct (peq (z1 b) (z2 b)) eqn:Z; [apply (peq_true He) in Z; lra|]. rewrite Hf. cbn [rbind]. rnum.
    destruct (Rltb f (line_flatness k)) eqn:Z2; [|apply Rltb_false in Z2; lra]. intros H. injection H as <-.
    split; [exact Logic.I|]. exists (SLine (Ln (z1 b) (z2 b))), []. auto.
  Qed.
  (** An L-shaped path of two lines, with trail compensation. *)
  Example C97_example (k : prep ROps) : EPS <= 1 ->
    path_tool_fillet k = false -> path_smooth_fillet k = false -> path_preserve_g1 k = false ->
    path_tool_offset k = true -> pp_trail_offset k = 1 -> pp_split_cusps k = false ->
    let p : Path := [plain (SLine (Ln (P 0 0) (P 3 0))); plain (SLine (Ln (P 3 0) (P 3 4)))] in
    exists q, preprocess_paths k [map DSeg p] = Ok [q] /\ woven EPS 1 (line_flatness k) EPS p q /\ unbroken EPS (map geo q).
  Proof.
    intros H1 F S G O T1 C p.
    assert (L1 : euclid (P 0 0) (P 3 0) = 3) by (apply euclid_unique; cbn; lra).
    assert (L2 : euclid (P 3 0) (P 3 4) = 4) by (apply euclid_unique; cbn; lra).
    assert (Pr : forall s, In s p -> proper (geo s) /\ EPS <= euclid (starts s) (ends s)).
    { intros s [<-|[<-|[]]]; unfold starts, ends, proper, seg_len; cbn [plain geo reached p1 p2].
      - rewrite L1, at_param_0, at_param_1. cbn [p1 p2]. rewrite L1. lra.
      - rewrite L2, at_param_0, at_param_1. cbn [p1 p2]. rewrite L2. lra. }
    destruct (C97_tip_follows k [p]) as (pieces & out & R1 & R2 & R3); auto; [rewrite T1; exact H1| |].
    { intros q [<-|[]]. split; [discriminate|]. split; [|exact Pr]. split; [|exact Logic.I].
      unfold ends, starts. cbn [plain geo reached]. rewrite at_param_0, at_param_1. reflexivity. }
    inversion R2 as [|? ps ? pl [_ Q] X]; subst. inversion X; subst. rewrite (Q C) in R3.
    inversion R3 as [|? o ? ol Y Z]; subst. inversion Z; subst. inversion Y as [|? q ? ql W V]; subst. inversion V; subst.
    cbn [concat app] in R1. rewrite T1 in W. exists q. split; [exact R1|]. split; [exact W|].
    destruct (C97_connected_partial k [map DSeg p] [q] G) as (bl & B1 & _ & B2); [| |exact R1|].
    - intros d [<-|[]]. split; [discriminate|]. split; [|intros x [<-|[<-|[]]]; exact Logic.I].
      split; [|exact Logic.I]. cbn. now apply self_close.
    - left. rewrite T1. exact H1.
    - assert (I : exists b, In b bl /\ In q b).
      { assert (J : In q (concat bl)) by (rewrite <- B1; now left). apply in_concat in J as (b & J1 & J2). eauto. }
      destruct I as (b & I1 & I2). destruct (B2 b I1) as (_ & _ & I3). apply I3, I2.
  Qed.
End P.
