(** * PropsPreview3: the outline of the tool marks (C142).  Over R. *)
From Verif Require Import Num NumR Geom GeomSpec GeomSpec2 GeomProofs GeomProofs5 Gcode Preview PreviewSpec PropsGeom PropsPreview.
From Coq Require Import ZArith Reals Lra Lia Bool List.
Import ListNotations.
Local Open Scope R_scope.

Section C142.
  Context {E : Epsilon ROps} (He : 0 < EPS).
  (** Neighbouring points are the same point or at least EPS apart. *)
  Fixpoint spread (p : Pt) (l : list Pt) : Prop :=
    match l with [] => True | q :: r => (q = p \/ EPS <= euclid q p) /\ spread q r end.

  Lemma chain_app p l m q : chain p (l ++ m) q <-> exists x, chain p l x /\ chain x m q.
  Proof.
    revert p. induction l as [|a l IH]; intros p; cbn [app chain].
    - split; [eauto|intros (x & -> & H); exact H].
    - rewrite IH. split; [intros (A & x & B & C); exists x; auto|intros (x & (A & B) & C); split; [auto|exists x; auto]].
  Qed.
  Lemma last_step (p d : Pt) l : last (p :: l) d = last l p.
  Proof. revert p d. induction l as [|q l IH]; intros p d; [reflexivity|]. change (last (p :: q :: l) d) with (last (q :: l) d). rewrite !IH. reflexivity. Qed.
  Lemma outline_loop_chain pts path p0 prev : chain p0 path prev -> spread prev pts ->
    chain p0 (outline_loop path prev pts) (last pts prev).
  Proof.
    revert path prev. induction pts as [|p pts IH]; intros path prev C S; cbn [outline_loop]; [exact C|].
    destruct S as [S1 S2]. rewrite last_step.
    destruct (peq p prev) eqn:Q.
    - apply (peq_true He) in Q. destruct S1 as [-> |S1]; [|lra]. apply IH; auto.
    - destruct (rev path) as [|l before] eqn:RV.
      + assert (path = []) as -> by (rewrite <- (rev_involutive path), RV; reflexivity). cbn [chain] in C. subst prev. apply IH; auto. cbn. auto.
      + assert (path = rev before ++ [l])%list as -> by (rewrite <- (rev_involutive path), RV; reflexivity).
        apply chain_app in C as (x & C1 & C2 & C3). cbn [chain] in C3.
        destruct (Z.eqb (which_side l p true) 0); apply IH; auto; apply chain_app.
        * exists x. split; [exact C1|]. cbn. auto.
        * exists prev. split; [|cbn; auto]. apply chain_app. exists x. split; [exact C1|]. cbn [chain]. auto.
  Qed.
  Lemma crossing_spec l j rest j' x m : first_crossing l j rest = Some (j', x, m) ->
    exists i a b, rest = (a ++ m :: b)%list /\ length a = i /\ j' = (j + i)%nat /\ intersection l m true false false = Some x.
  Proof.
    revert j. induction rest as [|y rest IH]; intros j H; cbn [first_crossing] in H; [discriminate|].
    destruct (intersection l y true false false) as [q|] eqn:Q.
    - injection H as <- <- <-. exists 0%nat, [], rest. repeat split; auto.
    - destruct (IH _ H) as (i & a & b & -> & L & -> & K). exists (S i), (y :: a), b. cbn. repeat split; auto; lia.
  Qed.
  Lemma fix_skip n l : fix_intersections n l = fix_intersections 0 (skipn n l).
  Proof. revert n. induction l as [|a l IH]; intros [|n]; cbn [fix_intersections skipn]; auto. Qed.
  Lemma fix_chain n path p q : (length path <= n)%nat -> chain p path q -> chain p (fix_intersections 0 path) q.
  Proof.
    revert path p. induction n as [|n IH]; intros [|l r] p L C; cbn [length] in L; try lia; cbn [fix_intersections]; auto.
    destruct C as [C1 C2]. destruct (first_crossing l 0 (tl r)) as [[[j x] m]|] eqn:F.
    - destruct (crossing_spec _ _ _ _ _ _ F) as (i & a & b & R1 & R2 & -> & _). destruct r as [|r0 r]; [destruct a; discriminate R1|]. cbn [tl] in R1. subst r.
      rewrite fix_skip. replace (skipn (0 + i + 2) (r0 :: a ++ m :: b)) with b.
      2:{ replace (0 + i + 2)%nat with (S (length a + 1)) by lia. cbn [skipn]. rewrite skipn_app.
          replace (length a + 1 - length a)%nat with 1%nat by lia. rewrite skipn_all2 by lia. reflexivity. }
      cbn [chain]. split; [exact C1|]. split; [reflexivity|]. apply IH; [cbn [length] in L; rewrite app_length in L; cbn in L; lia|].
      cbn [chain] in C2. destruct C2 as [_ C2]. apply chain_app in C2 as (y & _ & _ & C3). exact C3.
    - cbn [chain]. split; [exact C1|]. apply IH; [lia|exact C2].
  Qed.
  (** The sides of the outline, before reversals are removed: a chain from the first mark to the last. *)
  Theorem C142_chain p pts : spread p pts -> chain p (fix_intersections 0 (outline_loop [] p pts)) (last pts p).
  Proof. intros S. eapply fix_chain; [apply Nat.le_refl|]. apply outline_loop_chain; [reflexivity|exact S]. Qed.

  (** ** A plain run: neither straight on, nor crossing itself, nor turning back *)
  Fixpoint legs (p : Pt) (pts : list Pt) : list Line_ := match pts with [] => [] | q :: r => Ln p q :: legs q r end.
  Fixpoint bends (p : Pt) (pts : list Pt) : Prop :=
    match pts with
    | q :: (r :: _) as t => EPS <= Rabs (side (Ln p q) r) /\ bends q t
    | _ => True
    end.
  Fixpoint onward (p : Pt) (pts : list Pt) : Prop :=
    match pts with
    | q :: (r :: _) as t => PI / 2 <= Rabs (angle2 q p r) /\ onward q t
    | _ => True
    end.
  Fixpoint uncrossed (l : list Line_) : Prop :=
    match l with [] => True | x :: r => Forall (fun m => intersection x m true false false = None) (tl r) /\ uncrossed r end.
  Lemma outline_legs pts prev p0 path : path <> [] -> last path (Ln p0 prev) = Ln p0 prev -> spread prev pts ->
    (forall q r, pts = q :: r -> EPS <= euclid q prev /\ EPS <= Rabs (side (Ln p0 prev) q)) ->
    (forall a b q l, (prev :: pts)%list = (l ++ a :: b :: q)%list -> EPS <= euclid b a) ->
    bends prev pts -> outline_loop path prev pts = (path ++ legs prev pts)%list.
  Proof.
    revert prev p0 path. induction pts as [|q pts IH]; intros prev p0 path N L S K A B; cbn [outline_loop legs].
    - now rewrite app_nil_r.
    - destruct (K q pts eq_refl) as [K1 K2]. destruct (peq q prev) eqn:Q; [apply (peq_true He) in Q; lra|].
      destruct (rev path) as [|l before] eqn:RV; [exfalso; apply N; rewrite <- (rev_involutive path), RV; reflexivity|].
      assert (path = rev before ++ [l])%list as Qp by (rewrite <- (rev_involutive path), RV; reflexivity).
      assert (l = Ln p0 prev) as -> by (rewrite Qp, last_last in L; exact L).
      replace (Z.eqb (which_side (Ln p0 prev) q true) 0) with false.
      2:{ symmetry. unfold which_side. replace (is_zero (cross (vec (Ln p0 prev)) (psub q (p1 (Ln p0 prev))))) with false; [now destruct (Num.leb _ _)|].
          symmetry. unfold is_zero. replace (cross (vec (Ln p0 prev)) (psub q (p1 (Ln p0 prev)))) with (side (Ln p0 prev) q) by (unfold side, cross, vec, psub; cbn [px py p1 p2]; toR; ring). rnum.
          apply andb_false_iff. unfold Rabs in K2. destruct (Rcase_abs (side (Ln p0 prev) q)); [left|right]; apply Rltb_false; lra. }
      rewrite (IH q prev (path ++ [Ln prev q])%list).
      + now rewrite <- app_assoc.
      + intros X. now apply app_eq_nil in X as [_ X].
      + now rewrite last_last.
      + now destruct S.
      + intros r t ->. split; [|cbn [bends] in B; tauto]. apply (A q r t [prev]). reflexivity.
      + intros a b t l Q1. apply (A a b t (prev :: l)). cbn. now rewrite Q1.
      + cbn [bends] in B. destruct pts; [exact Logic.I|tauto].
  Qed.
  Lemma fix_uncrossed l : uncrossed l -> fix_intersections 0 l = l.
  Proof.
    induction l as [|x r IH]; intros U; cbn [fix_intersections]; auto. destruct U as [U1 U2].
    assert (forall j, first_crossing x j (tl r) = None) as Q. { induction U1 as [|m t Hm U1 IHu]; intros j; cbn [first_crossing]; auto. now rewrite Hm. }
    rewrite Q, IH; auto.
  Qed.
  Lemma reversal_onward p q pts : onward p (q :: pts) -> reversal_loop 0 (Ln p q) (legs q pts) = Ln p q :: legs q pts.
  Proof.
    revert p q. induction pts as [|r pts IH]; intros p q O; cbn [legs reversal_loop]; auto. cbn [onward] in O. destruct O as [O1 O2]. cbn [p1 p2].
    replace (@Num.ltb ROps (Num.abs (angle2 q p r)) (Num.div Num.pi (of_Z 2))) with false by (symmetry; rnum; apply Rltb_false; exact O1).
    rewrite IH; auto.
  Qed.
  (** Such a run of points becomes the broken line through them. *)
  Theorem C142_plain_partial p q pts : (forall a b r l, (p :: q :: pts)%list = (l ++ a :: b :: r)%list -> EPS <= euclid b a) ->
    bends p (q :: pts) -> uncrossed (legs p (q :: pts)) -> onward p (q :: pts) ->
    make_outline_path (p :: q :: pts) = Ok (legs p (q :: pts)).
  Proof.
    intros A B U O. unfold make_outline_path. cbn [tl]. 
    assert (Q : outline_loop [] p (q :: pts) = legs p (q :: pts)).
    { cbn [outline_loop rev]. destruct (peq q p) eqn:Q; [apply (peq_true He) in Q; specialize (A p q pts []%list eq_refl); lra|].
      rewrite (outline_legs pts q p [Ln p q]).
      - reflexivity.
      - discriminate.
      - reflexivity.
      - assert (A' : forall a b r l, (q :: pts)%list = (l ++ a :: b :: r)%list -> EPS <= euclid b a) by (intros a b r l X; apply (A a b r (p :: l)); cbn; now rewrite X).
        clear - A'. revert q A'. induction pts as [|r pts IH]; intros q A'; cbn [spread]; auto. split; [right; apply (A' q r pts []); reflexivity|].
        apply IH. intros a b t l X. apply (A' a b t (q :: l)). cbn. now rewrite X.
      - intros r t ->. split; [apply (A q r t [p]); reflexivity|]. cbn [bends] in B. tauto.
      - intros a b r l X. apply (A a b r (p :: l)). cbn. now rewrite X.
      - cbn [bends] in B. destruct pts; [exact Logic.I|tauto]. }
    rewrite Q, fix_uncrossed by exact U. cbn [legs fix_reversals]. f_equal. apply reversal_onward. exact O.
  Qed.

  (** ** What goes wrong *)
  (** Marks that all coincide (a plunge in place between tool down and tool up): IndexError. *)
  Theorem C142_single_mark_refuted (p : Pt) pts : Forall (fun q => q = p) pts -> pts <> [] -> make_outline_path (p :: pts) = Raise IndexError.
  Proof.
    intros F N. destruct pts as [|q pts]; [contradiction|]. unfold make_outline_path. cbn [tl].
    assert (Q : outline_loop [] p (q :: pts) = []).
    { clear N. induction F as [|x l -> F IH]; cbn [outline_loop]; auto.
      assert (peq p p = true) as ->; [|exact IH]. apply (peq_true He). replace (euclid p p) with 0 by (symmetry; apply euclid_zero; reflexivity). exact He. }
    rewrite Q. reflexivity.
  Qed.
  (** A side that closes on itself collapses to its starting point: the last line meets the first one there. *)
  Lemma meets_at_start (l z : Line_) : p2 z = p1 l -> EPS <= Rabs (dir_cross l z) -> intersection l z true false false = Some (p1 l).
  Proof.
    intros Q D. unfold intersection, intersection_mu, cross_terms. rewrite Q. rnum.
    assert (K : (py (p1 l) - py (p1 z)) * (px (p2 l) - px (p1 l)) - (px (p1 l) - px (p1 z)) * (py (p2 l) - py (p1 l)) = dir_cross l z) by (unfold dir_cross; rewrite Q; ring).
    rewrite K. replace (Rltb (Rabs (dir_cross l z)) EPS) with false by (symmetry; apply Rltb_false; exact D).
    assert (Dz : dir_cross l z <> 0). { intros X. rewrite X, Rabs_R0 in D. lra. }
    replace (((px (p1 l) - px (p1 z)) * (py (p1 l) - py (p1 z)) - (py (p1 l) - py (p1 z)) * (px (p1 l) - px (p1 z))) / dir_cross l z) with 0 by (field; exact Dz).
    replace (((px (p2 l) - px (p1 l)) * (py (p1 l) - py (p1 z)) - (py (p2 l) - py (p1 l)) * (px (p1 l) - px (p1 z))) / dir_cross l z) with 1.
    2:{ rewrite <- K. field. rewrite K. exact Dz. }
    cbn [orb andb]. 
    replace (Rltb 0 (- EPS)) with false by (symmetry; apply Rltb_false; lra). replace (Rltb (1 + EPS) 0) with false by (symmetry; apply Rltb_false; lra).
    replace (Rltb 1 (- EPS)) with false by (symmetry; apply Rltb_false; lra). replace (Rltb (1 + EPS) 1) with false by (symmetry; apply Rltb_false; lra).
    cbn [orb]. f_equal. destruct l as [[a b] q]. unfold lpoint_at, padd, pmul, vec, psub. cbn [px py p1 p2]. apply pt_ext; cbn [px py]; toR; ring.
  Qed.
  Theorem C142_closed_refuted (l y : Line_) mid z : p2 z = p1 l -> EPS <= Rabs (dir_cross l z) ->
    Forall (fun m => intersection l m true false false = None) mid ->
    rbind (Ok (fix_intersections 0 (l :: y :: mid ++ [z])%list)) fix_reversals = Ok [Ln (p1 l) (p1 l); Ln (p1 l) (p1 l)].
  Proof.
    intros Q D F. cbn [rbind fix_intersections tl].
    assert (C : forall j, first_crossing l j (mid ++ [z])%list = Some ((j + length mid)%nat, p1 l, z)).
    { induction F as [|m t Hm F IH]; intros j; cbn [first_crossing app length].
      - rewrite (meets_at_start l z Q D). now rewrite Nat.add_0_r.
      - rewrite Hm, IH. do 3 f_equal. lia. }
    rewrite C. replace (0 + length mid + 2)%nat with (S (length (mid ++ [z])%list)) by (rewrite app_length; cbn; lia).
    rewrite fix_skip. replace (skipn (length (mid ++ [z])%list) (mid ++ [z])%list) with (@nil Line_) by (symmetry; apply skipn_all).
    rewrite Q. cbn [fix_intersections fix_reversals reversal_loop p1 p2].
    assert (A : angle2 (p1 l) (p1 l) (p1 l) = 0).
    { unfold angle2. replace (peq (psub (p1 l) (p1 l)) (psub (p1 l) (p1 l))) with true; [reflexivity|]. symmetry. apply (peq_true He).
      replace (euclid (psub (p1 l) (p1 l)) (psub (p1 l) (p1 l))) with 0 by (symmetry; apply euclid_zero; reflexivity). exact He. }
    rewrite A. pose proof PI_RGT_0. 
    replace (@Num.ltb ROps (Num.abs 0) (Num.div Num.pi (of_Z 2))) with true by (symmetry; rnum; apply Rltb_true; rewrite Rabs_R0; lra).
    replace (@Num.ltb ROps (of_Z 0) 0) with false by (symmetry; rnum; apply Rltb_false; lra).
    cbn [left_search p1 p2]. rewrite A.
    replace (@Num.ltb ROps (Num.div Num.pi (of_Z 2)) (Num.abs 0)) with false by (symmetry; rnum; apply Rltb_false; rewrite Rabs_R0; lra).
    reflexivity.
  Qed.
  Example C142_closed_example (sq := legs (P 0 0) [P 2 0; P 2 2; P 0 2; P 0 0]) : EPS <= 1 ->
    fix_intersections 0 sq = [Ln (P 0 0) (P 0 0); Ln (P 0 0) (P 0 0)].
  Proof.
    intros He1. pose proof (C142_closed_refuted (Ln (P 0 0) (P 2 0)) (Ln (P 2 0) (P 2 2)) [Ln (P 2 2) (P 0 2)] (Ln (P 0 2) (P 0 0)) eq_refl) as H.
    assert (N1 : intersection (Ln (P 0 0) (P 2 0)) (Ln (P 2 2) (P 0 2)) true false false = None).
    { unfold intersection, intersection_mu, cross_terms. cbn [p1 p2 px py]. rnum.
      replace (Rltb (Rabs ((2 - 2) * (2 - 0) - (0 - 2) * (0 - 0))) EPS) with true; [reflexivity|]. symmetry. apply Rltb_true.
      replace ((2 - 2) * (2 - 0) - (0 - 2) * (0 - 0)) with 0 by ring. now rewrite Rabs_R0. }
    assert (D : EPS <= Rabs (dir_cross (Ln (P 0 0) (P 2 0)) (Ln (P 0 2) (P 0 0)))).
    { unfold dir_cross. cbn [p1 p2 px py]. rewrite Rabs_left; lra. }
    cbn [fix_intersections]. unfold sq. cbn [legs fix_intersections tl first_crossing]. rewrite N1, (meets_at_start (Ln (P 0 0) (P 2 0)) (Ln (P 0 2) (P 0 0)) eq_refl D). reflexivity.
  Qed.
  (** An open run that satisfies the conditions of C142_plain_partial. *)
  Example C142_plain_example : EPS <= 1 -> make_outline_path [P 0 0; P 2 0; P 2 2] = Ok [Ln (P 0 0) (P 2 0); Ln (P 2 0) (P 2 2)].
  Proof.
    intros He1. 
    assert (D1 : euclid (P 2 0) (P 0 0 : Pt) = 2). { unfold euclid. cbn [px py]. replace ((2 - 0)² + (0 - 0)²) with (2²) by (unfold Rsqr; ring). apply sqrt_Rsqr. lra. }
    assert (D2 : euclid (P 2 2) (P 2 0 : Pt) = 2). { unfold euclid. cbn [px py]. replace ((2 - 2)² + (2 - 0)²) with (2²) by (unfold Rsqr; ring). apply sqrt_Rsqr. lra. }
    apply C142_plain_partial.
    - intros a b r [|x [|y [|z l]]] X; cbn in X; try (injection X as <- <- _; lra); try (injection X as _ <- <- _; lra); try discriminate.
      all: injection X; intros; try discriminate; destruct l; discriminate.
    - cbn [bends]. split; [|exact Logic.I]. unfold side. cbn [p1 p2 px py]. rewrite Rabs_right; lra.
    - cbn [legs uncrossed tl]. repeat split; constructor.
    - cbn [onward]. split; [|exact Logic.I]. unfold angle2.
      replace (peq (psub (P 0 0) (P 2 0)) (psub (P 2 2) (P 2 0 : Pt))) with false.
      2:{ symmetry. apply (peq_false He). unfold psub. cbn [px py]. unfold euclid. cbn [px py]. rnum.
          apply Rle_trans with (sqrt (2²)); [rewrite sqrt_Rsqr; lra|]. apply sqrt_le_1_alt. unfold Rsqr. lra. }
      unfold cross, dot, psub. cbn [px py]. rnum.
      replace ((0 - 2) * (2 - 2) + (0 - 0) * (2 - 0)) with 0 by ring. pose proof PI_RGT_0.
      unfold Ratan2. repeat (destruct (Rlt_dec _ _) || destruct (Rle_dec _ _) || destruct (Rgt_dec _ _) || destruct (Req_EM_T _ _)); try lra;
        first [rewrite Rabs_right by lra; lra|rewrite Rabs_left by lra; lra].
  Qed.
  (** Without tool marks no outline is ever drawn, whatever show_tm_outline says. *)
  Theorem C142_no_marks_refuted (k : plotter_opts ROps) es s s' : show_toolmarks k = false -> pl_marks s = [] -> plot_all k es s = Ok s' ->
    on_layer DebugLayer (pl_drawn s') = on_layer DebugLayer (pl_drawn s).
  Proof.
    intros Hk. revert s. induction es as [|e es IH]; intros s Hm H; cbn [plot_all] in H; [injection H as <-; reflexivity|].
    unfold rbind in H. destruct (plot_call k e s) as [s1|] eqn:Q; [|discriminate].
    assert (pl_marks s1 = [] /\ on_layer DebugLayer (pl_drawn s1) = on_layer DebugLayer (pl_drawn s)) as [M D]; [|rewrite <- D; apply IH; auto].
    assert (DR : forall e s, layer_of e = PathLayer -> on_layer DebugLayer (pl_drawn (draw e s)) = on_layer DebugLayer (pl_drawn s)).
    { intros e0 s0 He0. cbn [draw pl_drawn]. unfold on_layer. rewrite filter_app. cbn [filter]. rewrite He0. now rewrite app_nil_r. }
    destruct e as [[x|] [y|] z a|[x|] [y|] z a|cx cy [x|] [y|] z a cw| |]; cbn [plot_call end_point rbind] in Q; rewrite ?Hk in Q; cbn [rbind] in Q; try discriminate.
    - injection Q as <-. cbn [update_location pl_marks pl_drawn]. split; [exact Hm|]. now apply DR.
    - injection Q as <-. cbn [update_location pl_marks pl_drawn]. destruct (Num.ltb _ _); split; auto.
    - injection Q as <-. cbn [update_location pl_marks pl_drawn]. split; [exact Hm|]. now apply DR.
    - injection Q as <-. auto.
    - unfold draw_outline in Q. rewrite Hm in Q. destruct (show_tm_outline k); injection Q as <-; auto.
  Qed.
End C142.
