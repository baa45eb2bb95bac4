(** * PolyHull: the monotone-chain convex hull over R. *)
From Verif Require Import Num NumR Geom GeomR GeomSpec GeomProofs GeomProofs5 Polygon PolySpec.
From Coq Require Import ZArith Reals Lra Lia Bool List Psatz Sorted Permutation.
Import ListNotations.
Local Open Scope R_scope.

(** ** vectors in the (lexicographically) right half plane *)
Definition pos (x y : R) : Prop := 0 < x \/ (x = 0 /\ 0 < y).
Definition cr (ux uy wx wy : R) : R := ux * wy - uy * wx.
Lemma cr_id ux uy vx vy wx wy : vx * cr ux uy wx wy = ux * cr vx vy wx wy + wx * cr ux uy vx vy.
Proof. unfold cr. ring. Qed.
Lemma cr_weak ux uy vx vy wx wy : pos ux uy -> pos vx vy -> pos wx wy ->
  0 <= cr ux uy vx vy -> 0 <= cr vx vy wx wy -> 0 <= cr ux uy wx wy.
Proof.
  intros Hu Hv Hw H1 H2.
  assert (Ux : 0 <= ux) by (destruct Hu; lra). assert (Wx : 0 <= wx) by (destruct Hw; lra).
  destruct Hv as [Hv|[Hv Hy]].
  - apply Rmult_le_reg_l with vx; auto. rewrite Rmult_0_r, (cr_id _ _ vx vy).
    apply Rplus_le_le_0_compat; apply Rmult_le_pos; auto.
  - subst vx. unfold cr in *. assert (wx = 0) by nra. subst wx. destruct Hw as [Hw|[_ Hw]]; [lra|]. nra.
Qed.
Lemma cr_strict ux uy vx vy wx wy : pos ux uy -> pos vx vy -> pos wx wy ->
  0 < cr ux uy vx vy -> 0 <= cr vx vy wx wy -> 0 < cr ux uy wx wy.
Proof.
  intros Hu Hv Hw H1 H2.
  assert (Ux : 0 <= ux) by (destruct Hu; lra). assert (Wx : 0 <= wx) by (destruct Hw; lra).
  destruct Hv as [Hv|[Hv Hy]].
  - apply Rmult_lt_reg_l with vx; auto. rewrite Rmult_0_r, (cr_id _ _ vx vy).
    destruct Hw as [Hw|[Hw Wy]].
    + apply Rplus_le_lt_0_compat; [apply Rmult_le_pos; auto|apply Rmult_lt_0_compat; auto].
    + subst wx. assert (0 < ux). { destruct Hu as [|[Z Q]]; auto. subst ux. unfold cr in H1. nra. }
      unfold cr. replace (ux * (vx * wy - vy * 0) + 0 * (ux * vy - uy * vx)) with (ux * vx * wy) by ring.
      apply Rmult_lt_0_compat; [apply Rmult_lt_0_compat|]; auto.
  - subst vx. unfold cr in *. assert (wx = 0) by nra. subst wx. destruct Hw as [Hw|[_ Hw]]; [lra|].
    assert (0 < ux) by nra. assert (0 < ux * wy) by (apply Rmult_lt_0_compat; auto). lra.
Qed.
Lemma cr_strict' ux uy vx vy wx wy : pos ux uy -> pos vx vy -> pos wx wy ->
  0 <= cr ux uy vx vy -> 0 < cr vx vy wx wy -> 0 < cr ux uy wx wy.
Proof.
  intros Hu Hv Hw H1 H2.
  assert (Ux : 0 <= ux) by (destruct Hu; lra). assert (Wx : 0 <= wx) by (destruct Hw; lra).
  destruct Hv as [Hv|[Hv Hy]].
  - apply Rmult_lt_reg_l with vx; auto. rewrite Rmult_0_r, (cr_id _ _ vx vy).
    destruct Hu as [Hu|[Hu Uy]].
    + apply Rplus_lt_le_0_compat; [apply Rmult_lt_0_compat; auto|apply Rmult_le_pos; auto].
    + subst ux. unfold cr in *. nra.
  - subst vx. unfold cr in *. exfalso. nra.
Qed.

(** ** lexicographic order *)
Definition llt (a b : Pt) : Prop := pos (px b - px a) (py b - py a).
Definition lle (a b : Pt) : Prop := llt a b \/ a = b.
Lemma llt_trans a b c : llt a b -> llt b c -> llt a c.
Proof. unfold llt, pos. toR. intros [H|[H H']] [G|[G G']]; [left|left|left|right]; try lra. Qed.
Lemma llt_irrefl a : ~ llt a a.
Proof. unfold llt, pos. toR. lra. Qed.
Lemma lle_trans a b c : lle a b -> lle b c -> lle a c.
Proof. intros [H| ->]; [|auto]. intros [G|<-]; left; auto. eapply llt_trans; eauto. Qed.
Lemma lle_lt_trans a b c : lle a b -> llt b c -> llt a c.
Proof. intros [H| ->] G; auto. eapply llt_trans; eauto. Qed.
Lemma llt_le_trans a b c : llt a b -> lle b c -> llt a c.
Proof. intros H [G|<-]; auto. eapply llt_trans; eauto. Qed.
Lemma lle_refl a : lle a a. Proof. right; auto. Qed.
Lemma lle_total a b : lle a b \/ llt b a.
Proof.
  destruct a as [x y], b as [z w]. unfold lle, llt, pos. cbn [px py]. toR.
  destruct (Rtotal_order x z) as [H|[H|H]]; [left; left; left; lra| |right; left; lra].
  destruct (Rtotal_order y w) as [G|[G|G]]; [left; left; right; lra|subst; left; right; reflexivity|right; right; lra].
Qed.
Lemma lle_antisym a b : lle a b -> lle b a -> a = b.
Proof. intros [H|H] G; auto. exfalso. apply (llt_irrefl a). eapply llt_le_trans; eauto. Qed.

Lemma cross3_cr (a b c : Pt) : cross3 a b c = cr (px b - px a) (py b - py a) (px c - px b) (py c - py b).
Proof. unfold cross3, cr. toR. ring. Qed.
Lemma cross3_cr2 (a b c : Pt) : cross3 a b c = cr (px b - px a) (py b - py a) (px c - px a) (py c - py a).
Proof. unfold cross3, cr. toR. ring. Qed.
Lemma cross3_aba (a b : Pt) : cross3 a b a = 0. Proof. unfold cross3. toR. ring. Qed.
Lemma cross3_abb (a b : Pt) : cross3 a b b = 0. Proof. unfold cross3. toR. ring. Qed.
Lemma cross3_rot (a b c : Pt) : cross3 a b c = cross3 b c a. Proof. unfold cross3. toR. ring. Qed.

(** z < a < b < r, left turns at a and b: r is left of z -> a *)
Lemma left_trans (z a b r : Pt) : llt z a -> llt a b -> llt b r -> 0 < cross3 z a b -> 0 < cross3 a b r -> 0 < cross3 z a r.
Proof.
  intros H1 H2 H3 C1 C2. rewrite cross3_cr in *.
  assert (Q : 0 < cr (px a - px z) (py a - py z) (px r - px b) (py r - py b)).
  { eapply cr_strict; [exact H1|exact H2|exact H3|auto|lra]. }
  replace (cr (px a - px z) (py a - py z) (px r - px a) (py r - py a)) with
    (cr (px a - px z) (py a - py z) (px b - px a) (py b - py a) + cr (px a - px z) (py a - py z) (px r - px b) (py r - py b)).
  - lra.
  - unfold cr. toR. ring.
Qed.

(** ** the chain, last point first *)
Fixpoint chainR (h : list Pt) : Prop :=
  match h with
  | [] => False
  | b :: t => match t with
              | [] => True
              | a :: t' => llt a b /\ (match t' with z :: _ => 0 < cross3 z a b | [] => True end) /\ chainR t
              end
  end.
Fixpoint edgesR (h : list Pt) : list (Pt * Pt) :=
  match h with
  | b :: t => match t with a :: _ => (a, b) :: edgesR t | [] => [] end
  | [] => []
  end.
Lemma turn_left (a b r : Pt) : (turn a b r =? 1)%Z = true <-> 0 < cross3 a b r.
Proof.
  unfold turn. rnum. unfold cross3. toR.
  match goal with |- context [Rltb ?x 0] => set (d := x) end.
  replace ((px b - px a) * (py r - py a) - (py b - py a) * (px r - px a)) with d by (unfold d; ring).
  destruct (Rltb d 0) eqn:A; rbool; [cbn; split; [discriminate|lra]|].
  destruct (Rltb 0 d) eqn:B; rbool; cbn; split; try discriminate; try lra; auto.
Qed.

(** adding a point that turns left keeps the chain convex, and the point is left of all edges *)
Lemma chain_left_all (h : list Pt) : forall b a t r, h = b :: a :: t -> chainR h -> llt b r -> 0 < cross3 a b r ->
  forall x y, In (x, y) (edgesR h) -> 0 < cross3 x y r.
Proof.
  induction h as [|b0 h IH]; intros b a t r E C L T x y; [discriminate|].
  injection E as -> ->. cbn [edgesR]. intros [H|H]; [injection H as <- <-; auto|].
  destruct t as [|z t]; [destruct H|]. cbn [chainR] in C. destruct C as (L1 & T1 & C).
  apply (IH a z t r eq_refl C); auto.
  - eapply llt_trans; eauto.
  - destruct C as (L0 & _). eapply left_trans; eauto.
Qed.

Section H.
  Context {E : Epsilon ROps}.
  Hypothesis He : 0 < EPS.

  (** [pop_right] returns a suffix; the point just popped (if any) is remembered *)
  Lemma pop_spec (h : list Pt) r : h <> [] -> exists b t, pop_right h r = b :: t /\
    (match t with a :: _ => 0 < cross3 a b r | [] => True end) /\
    (exists pre, h = pre ++ b :: t /\ (pre = [] \/ exists b1 pre', pre = pre' ++ [b1] /\ cross3 b b1 r <= 0)).
  Proof.
    induction h as [|b h IH]; [congruence|]. intros _. cbn [pop_right].
    destruct h as [|a t].
    - exists b, []. split; auto. split; auto. exists []. auto.
    - destruct (turn a b r =? 1)%Z eqn:T.
      + exists b, (a :: t). split; auto. split; [apply turn_left; auto|]. exists []. auto.
      + destruct IH as (c & t' & E1 & E2 & pre & E3 & E4); [discriminate|]. exists c, t'. split; auto. split; auto.
        exists (b :: pre). split; [cbn; congruence|]. right.
        destruct E4 as [-> |(b1 & pre' & -> & Q)].
        * cbn in E3. injection E3 as -> ->. exists b, []. split; auto.
          assert (~ 0 < cross3 c b r) by (rewrite <- turn_left; congruence). lra.
        * exists b1, (b :: pre'). auto.
  Qed.

  (** the invariant over the processed points *)
  Record inv (done h : list Pt) : Prop := {
    inv_chain : chainR h;
    inv_sub : forall p, In p h -> In p done;
    inv_top : forall b t, h = b :: t -> forall p, In p done -> lle p b;
    inv_bot : forall h' b, h = h' ++ [b] -> forall p, In p done -> lle b p;
    inv_left : forall a b, In (a, b) (edgesR h) -> forall p, In p done -> 0 <= cross3 a b p }.

  Lemma chain_suffix pre : forall b t, chainR (pre ++ b :: t) -> chainR (b :: t).
  Proof.
    induction pre as [|c pre IH]; intros b t H; auto. apply IH. cbn in H.
    destruct (pre ++ b :: t) eqn:Q; [destruct pre; discriminate|]. tauto.
  Qed.
  Lemma edges_suffix pre : forall h x, In x (edgesR h) -> In x (edgesR (pre ++ h)).
  Proof.
    induction pre as [|c pre IH]; intros h x H; auto. cbn. specialize (IH _ _ H).
    destruct (pre ++ h); [destruct IH|right; auto].
  Qed.
  Lemma chain_below (h : list Pt) : forall b t, chainR (b :: t) -> h = b :: t -> forall p, In p t -> llt p b.
  Proof.
    induction h as [|b0 h IH]; intros b t C Q p Hp; [discriminate|]. injection Q as -> ->.
    destruct t as [|a t]; [destruct Hp|]. cbn in C. destruct C as (L & _ & C).
    destruct Hp as [<-|Hp]; auto. eapply llt_trans; [|exact L]. eapply IH; eauto.
  Qed.
  Lemma edge_after (pre : list Pt) b1 b t : In (b, b1) (edgesR ((pre ++ [b1]) ++ b :: t)).
  Proof. rewrite <- app_assoc. apply edges_suffix. cbn. auto. Qed.

  Lemma step_inv done h r : inv done h -> (forall p, In p done -> lle p r) -> (forall p, In p done -> p = r \/ EPS <= euclid p r) ->
    inv (r :: done) (keep_left h r).
  Proof.
    intros I Hr Hs. destruct h as [|h0 h1]; [destruct (inv_chain _ _ I)|].
    set (h := h0 :: h1) in *.
    destruct (pop_spec h r) as (b & t & Q1 & Q2 & pre & Q3 & Q4); [discriminate|].
    unfold keep_left. rewrite Q1.
    assert (Hb : In b done). { apply (inv_sub _ _ I). rewrite Q3. apply in_or_app. right. left. auto. }
    assert (Cb : chainR (b :: t)). { apply chain_suffix with pre. rewrite <- Q3. apply (inv_chain _ _ I). }
    assert (BOT : t = [] -> forall p, In p done -> lle b p).
    { intros ->. apply (inv_bot _ _ I pre b Q3). }
    destruct (peq b r) eqn:PE; cbn [negb].
    - (* b = r *)
      assert (b = r). { destruct (Hs b Hb) as [|D]; auto. apply peq_true in PE; auto. lra. }
      subst b. destruct t as [|a t]; [|rewrite cross3_abb in Q2; lra].
      assert (ALL : forall p, In p done -> p = r). { intros p Hp. apply lle_antisym; auto. }
      constructor.
      + cbn. auto.
      + intros p [<-|[]]. left; auto.
      + intros b t Q p Hp. injection Q as <- <-. destruct Hp as [<-|Hp]; [apply lle_refl|auto].
      + intros h' b Q p Hp. destruct h' as [|x [|y h']]; [injection Q as <-|discriminate|discriminate].
        destruct Hp as [<-|Hp]; [apply lle_refl|]. rewrite (ALL p Hp). apply lle_refl.
      + cbn. tauto.
    - (* b < r *)
      assert (Nb : b <> r). { intros ->. apply peq_false in PE; auto. pose proof (proj2 (euclid_zero r r) eq_refl). lra. }
      assert (Lb : llt b r). { destruct (Hr b Hb); auto. congruence. }
      assert (SUFE : forall x y, In (x, y) (edgesR (b :: t)) -> In (x, y) (edgesR h)).
      { intros x y H. rewrite Q3. apply edges_suffix. auto. }
      assert (NEW : forall p, In p done -> 0 <= cross3 b r p).
      { intros p Hp. rewrite cross3_cr2.
        destruct (lle_total b p) as [[L|<-]|L].
        - (* p > b *)
          destruct Q4 as [-> |(b1 & pre' & -> & Q4)].
          + exfalso. apply (llt_irrefl b). eapply llt_le_trans; [exact L|]. apply (inv_top _ _ I b t Q3 p Hp).
          + assert (Ed : In (b, b1) (edgesR h)) by (rewrite Q3; apply edge_after).
            pose proof (inv_left _ _ I b b1 Ed p Hp) as L1. rewrite cross3_cr2 in L1.
            assert (Lb1 : llt b b1).
            { pose proof (inv_chain _ _ I) as C. rewrite Q3, <- app_assoc in C. cbn in C. apply (chain_suffix pre') in C. cbn in C. tauto. }
            eapply (cr_weak _ _ (px b1 - px b) (py b1 - py b)); [exact Lb|exact Lb1|exact L| |exact L1].
            rewrite cross3_cr2 in Q4. unfold cr in *. toR. lra.
        - rewrite <- cross3_cr2, cross3_aba. lra.
        - (* p < b *)
          destruct t as [|a t].
          + exfalso. apply (llt_irrefl b). eapply lle_lt_trans; [apply (BOT eq_refl p Hp)|exact L].
          + assert (Ed : In (a, b) (edgesR h)) by (apply SUFE; cbn; auto).
            pose proof (inv_left _ _ I a b Ed p Hp) as L1. rewrite cross3_cr in L1, Q2.
            assert (La : llt a b) by (cbn in Cb; tauto).
            assert (Q : 0 < cr (px b - px p) (py b - py p) (px r - px b) (py r - py b)).
            { eapply (cr_strict' _ _ (px b - px a) (py b - py a)); [exact L|exact La|exact Lb| |exact Q2].
              unfold cr in *. toR. lra. }
            unfold cr in *. toR. lra. }
      constructor.
      + cbn [chainR]. split; [exact Lb|]. split; [destruct t; auto|exact Cb].
      + intros p [<-|Hp]; [left; auto|]. right. apply (inv_sub _ _ I). rewrite Q3. apply in_or_app. auto.
      + intros b' t' Q p Hp. injection Q as <- <-. destruct Hp as [<-|Hp]; [apply lle_refl|auto].
      + intros h' b' Q p Hp.
        destruct h' as [|x h']; [destruct t; discriminate Q|]. cbn in Q. injection Q as <- Q.
        assert (Q' : h = (pre ++ h') ++ [b']) by (rewrite <- app_assoc, <- Q; exact Q3).
        pose proof (inv_bot _ _ I _ _ Q') as BB.
        destruct Hp as [<-|Hp]; [|auto]. eapply lle_trans; [apply (BB b Hb)|left; auto].
      + intros x y Hxy p Hp. cbn [edgesR] in Hxy. destruct Hxy as [Hxy|Hxy].
        * injection Hxy as <- <-. destruct Hp as [<-|Hp]; [rewrite cross3_abb; lra|auto].
        * destruct Hp as [<-|Hp]; [|apply (inv_left _ _ I); auto].
          destruct t as [|a t]; [destruct Hxy|].
          left. eapply (chain_left_all (b :: a :: t)); eauto.
  Qed.
  Lemma first_inv r : inv [r] (keep_left [] r).
  Proof.
    cbn. constructor; cbn; auto; try tauto.
    - intros b t Q p [<-|[]]. injection Q as <- <-. apply lle_refl.
    - intros h' b Q p [<-|[]]. destruct h' as [|x [|y h']]; [injection Q as <-; apply lle_refl|discriminate|discriminate].
  Qed.

  (** the whole scan over a sorted, separated list *)
  Definition sorted (l : list Pt) : Prop := StronglySorted lle l.
  Definition separated (l : list Pt) : Prop := forall p q, In p l -> In q l -> p = q \/ EPS <= euclid p q.
  Lemma scan_inv l : forall done h, inv done h -> sorted l -> (forall p q, In p done -> In q l -> lle p q) ->
    (forall p q, In p (done ++ l) -> In q (done ++ l) -> p = q \/ EPS <= euclid p q) ->
    exists done', (forall p, In p done' <-> In p (done ++ l)) /\ inv done' (fold_left keep_left l h).
  Proof.
    induction l as [|r l IH]; intros done h I S L Sep.
    - exists done. rewrite app_nil_r. split; [tauto|exact I].
    - cbn [fold_left]. apply StronglySorted_inv in S. destruct S as [S F]. rewrite Forall_forall in F.
      destruct (IH (r :: done) (keep_left h r)) as (d' & D1 & D2); auto.
      + apply step_inv; auto.
        * intros p Hp. apply L; auto. left; auto.
        * intros p Hp. apply Sep; apply in_or_app; [left; auto|right; left; auto].
      + intros p q [<-|Hp] Hq; [apply F; auto|apply L; auto]. right; auto.
      + intros p q Hp Hq. apply Sep; cbn in Hp, Hq; rewrite in_app_iff in *; cbn; tauto.
      + exists d'. split; [|exact D2]. intros p. rewrite D1. cbn. rewrite !in_app_iff. cbn. tauto.
  Qed.
  Lemma half_inv l : l <> [] -> sorted l -> separated l ->
    exists done, (forall p, In p done <-> In p l) /\ inv done (fold_left keep_left l []).
  Proof.
    destruct l as [|r l]; [congruence|]. intros _ S Sep. cbn [fold_left].
    apply StronglySorted_inv in S. destruct S as [S F]. rewrite Forall_forall in F.
    destruct (scan_inv l [r] (keep_left [] r)) as (d & D1 & D2).
    - apply first_inv.
    - auto.
    - intros p q [<-|[]] Hq. auto.
    - exact Sep.
    - exists d. split; auto.
  Qed.
End H.
