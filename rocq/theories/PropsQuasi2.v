(** * PropsQuasi2: which tiles of a quasi-periodic tiling are considered, and in which order (C148), over R. *)
From Verif Require Import Num NumR Geom GeomR GeomSpec GeomProofs GeomProofs2 Quasi PropsQuasi.
From Coq Require Import ZArith Reals Lra Lia List Bool Permutation Sorted.
Import ListNotations.
Local Open Scope R_scope.

(** ** Specification *)
(** The pairs of line numbers, without the first and the last line of each direction *)
Definition line_pairs (o : qopts ROps) : list (nat * nat) := list_prod (seq 1 (numlines o - 2)) (seq 1 (numlines o - 2)).
(** Distance of a pair from the middle of the grid *)
Definition off_center (o : qopts ROps) (p : nat * nat) : R :=
  let m := INR (numlines o - 1) / 2 in R_sqrt.sqrt (Rsqr (INR (fst p) - m) + Rsqr (INR (snd p) - m)).

(** ** C148 *)
Section Rings.
  Variable o : qopts ROps.
  Lemma radius2_dist n m : radius2 o n m = Rsqr (off_center o (n, m)).
  Proof.
    unfold radius2, off_center. cbn [fst snd]. rewrite !of_nat_INR. rewrite Rsqr_sqrt by (apply Rplus_le_le_0_compat; apply Rle_0_sqr). rnum. unfold Rsqr. cbn. lra.
  Qed.
  Lemma off_pos p : 0 <= off_center o p. Proof. apply sqrt_pos. Qed.
  Definition in_ring (a b : R) (p : nat * nat) : bool := Rleb a (off_center o p) && Rltb (off_center o p) b.
  Lemma ring_eq a b : 0 <= a -> a <= b -> ring o (a * a) (b * b) = filter (in_ring a b) (line_pairs o).
  Proof.
    intros A B. unfold ring, line_pairs. apply filter_ext. intros [n m]. cbn [fst snd]. rewrite radius2_dist. unfold in_ring. rnum. pose proof (off_pos (n, m)) as P.
    f_equal.
    - destruct (Rleb a _) eqn:E; [apply Rleb_true in E; apply Rleb_true|apply Rleb_false in E; apply Rleb_false]; unfold Rsqr; nra.
    - destruct (Rltb _ b) eqn:E; [apply Rltb_true in E; apply Rltb_true|apply Rltb_false in E; apply Rltb_false]; unfold Rsqr; nra.
  Qed.
  Lemma off_bound p : In p (line_pairs o) -> off_center o p < INR (numlines o - 1).
  Proof.
    destruct p as [n m]. unfold line_pairs. intros H. apply in_prod_iff in H as [A B]. apply in_seq in A, B.
    assert (M : (2 <= numlines o - 1)%nat) by lia. set (k := (numlines o - 1)%nat) in *.
    assert (A' : (1 <= n <= k - 1)%nat) by lia. assert (B' : (1 <= m <= k - 1)%nat) by lia. clear A B.
    apply Rsqr_incrst_0; [|apply off_pos|apply pos_INR]. rewrite <- radius2_dist. unfold radius2. rewrite !of_nat_INR. fold k. rnum.
    assert (1 <= INR n <= INR k - 1) by (replace 1 with (INR 1) by reflexivity; rewrite <- minus_INR by lia; split; apply le_INR; lia).
    assert (1 <= INR m <= INR k - 1) by (replace 1 with (INR 1) by reflexivity; rewrite <- minus_INR by lia; split; apply le_INR; lia).
    unfold Rsqr. cbn. clear - H H0. nra.
  Qed.
  Lemma filter_split {A} (f g h : A -> bool) l : (forall x, f x = (g x || h x)) -> (forall x, g x && h x = false) ->
    Permutation (filter g l ++ filter h l) (filter f l).
  Proof.
    intros E D. induction l as [|x l IH]; [constructor|]. cbn [filter]. rewrite E. specialize (D x). destruct (g x), (h x); try discriminate; cbn [orb app].
    - now constructor. - etransitivity; [symmetry; apply Permutation_middle|]. now constructor. - exact IH.
  Qed.
  Lemma rings_perm fuel : forall x l, 0 <= x -> rings fuel o x = Ok l -> Permutation l (filter (fun p => Rleb x (off_center o p)) (line_pairs o)).
  Proof.
    assert (END : forall x, @Num.leb ROps x (of_nat (numlines o - 1)) = false -> filter (fun p => Rleb x (off_center o p)) (line_pairs o) = []).
    { intros x H. rewrite of_nat_INR in H. apply Rleb_false in H. pose proof off_bound as OB. induction (line_pairs o) as [|p l IH]; [reflexivity|]. cbn [filter].
      rewrite (proj2 (Rleb_false _ _)); [apply IH; intros; apply OB; now right|]. specialize (OB p (or_introl eq_refl)). lra. }
    induction fuel as [|fuel IH]; intros x l X H; cbn [rings] in H; destruct (@Num.leb ROps x _) eqn:E; cbn [negb] in H; try discriminate;
      try (injection H as <-; rewrite END by exact E; constructor).
    destruct (rings fuel o _) as [r|] eqn:Q; [|discriminate]. cbn [rmap] in H. match type of H with Ok ?v = Ok _ => assert (H' : v = l) by congruence end. subst l. clear H.
    assert (F : Num.lit (n:=ROps) 4 (-1) = 4 / 10) by (cbn; lra). rewrite F in *. clear F. change (@Num.add ROps) with Rplus in *. change (@Num.mul ROps) with Rmult in *. apply IH in Q; [|lra]. rewrite (ring_eq x (x + 4 / 10)) by lra. rewrite Q.
    apply filter_split; intros p; unfold in_ring.
    - destruct (Rleb x (off_center o p)) eqn:A; cbn [andb]; [|symmetry; apply Rleb_false; apply Rleb_false in A; lra].
      destruct (Rltb (off_center o p) (x + 4 / 10)) eqn:B; [reflexivity|]. symmetry. cbn [orb]. apply Rleb_true. apply Rltb_false in B. lra.
    - destruct (Rltb (off_center o p) (x + 4 / 10)) eqn:B; [|now rewrite andb_false_r]. rewrite (proj2 (Rleb_false (x + 4 / 10) (off_center o p))); [apply andb_false_r|]. now apply Rltb_true in B.
  Qed.
  Lemma SS_app (r : nat * nat -> nat * nat -> Prop) l1 l2 : StronglySorted r l1 -> StronglySorted r l2 -> (forall a b, In a l1 -> In b l2 -> r a b) -> StronglySorted r (l1 ++ l2).
  Proof.
    intros A B C. induction A as [|a l A IH F]; [exact B|]. cbn. constructor; [apply IH; intros; apply C; [now right|assumption]|].
    apply Forall_app. split; [exact F|]. apply Forall_forall. intros b I. apply C; [now left|assumption].
  Qed.
  Lemma rings_order fuel : forall x l, 0 <= x -> rings fuel o x = Ok l ->
    StronglySorted (fun p q => off_center o p < off_center o q + 4 / 10) l /\ Forall (fun p => x <= off_center o p) l.
  Proof.
    induction fuel as [|fuel IH]; intros x l X H; cbn [rings] in H; destruct (negb _); try discriminate; try (injection H as <-; split; constructor).
    destruct (rings fuel o _) as [r|] eqn:Q; [|discriminate]. cbn [rmap] in H. match type of H with Ok ?v = Ok _ => assert (H' : v = l) by congruence end. subst l. clear H.
    assert (F : Num.lit (n:=ROps) 4 (-1) = 4 / 10) by (cbn; lra). rewrite F in *. clear F. change (@Num.add ROps) with Rplus in *. change (@Num.mul ROps) with Rmult in *. apply IH in Q as [S L]; [|lra]. rewrite (ring_eq x (x + 4 / 10)) by lra.
    set (f := filter _ _). assert (B : Forall (fun p => x <= off_center o p < x + 4 / 10) f).
    { apply Forall_forall. intros p I. apply filter_In in I as [_ I]. unfold in_ring in I. apply andb_true_iff in I as [I1 I2]. apply Rleb_true in I1. apply Rltb_true in I2. lra. }
    clearbody f. rewrite Forall_forall in L. split.
    - apply SS_app; [|exact S|].
      + clear - B. induction B as [|p f P B IH]; constructor; [exact IH|]. eapply Forall_impl; [|exact B]. intros q Hq. cbv beta in *. lra.
      + intros a b IA IB. rewrite Forall_forall in B. specialize (B a IA). specialize (L b IB). cbv beta in *. lra.
    - apply Forall_app. split; [eapply Forall_impl; [|exact B]; intros q Hq; cbv beta in *; lra|]. apply Forall_forall. intros p I. specialize (L p I). cbv beta in L. lra.
  Qed.
  Lemma rings_end : forall fuel x, INR (numlines o - 1) < x + INR fuel * (4 / 10) -> exists l, rings fuel o x = Ok l.
  Proof.
    assert (F : Num.lit (n:=ROps) 4 (-1) = 4 / 10) by (cbn; lra).
    induction fuel as [|fuel IH]; intros x H; cbn [rings].
    - rewrite of_nat_INR. rnum. cbn [INR] in H. rewrite (proj2 (Rleb_false _ _)) by lra. eexists; reflexivity.
    - destruct (negb _); [eexists; reflexivity|]. rewrite S_INR in H. destruct (IH (x + 4 / 10)) as [l L]; [lra|]. rewrite F. rnum. rewrite L. eexists; reflexivity.
  Qed.
End Rings.

(** The order in which the crossings of lines are considered: a run considers, for every pair of directions and every pair of lines other than the first and the last
    ones of each direction, their crossing exactly once; crossings are taken from the middle outwards, up to 0.4; and the drawing is what the crossings give, in order. *)
Theorem C148_once (o : qopts ROps) fuel out : quasi fuel o = Ok out ->
  exists vs pairs outs, init_vectors o = Ok vs /\ Permutation pairs (line_pairs o) /\ NoDup pairs /\
    StronglySorted (fun p q => off_center o p < off_center o q + 4 / 10) pairs /\
    Forall2 (fun '(n, m, (t, r)) evs => tile o vs n m t r = Ok evs) (list_prod pairs (direction_pairs o)) outs /\ out = concat outs /\
    (forall t r, In (t, r) (direction_pairs o) <-> (t < r < symmetry o)%nat) /\ NoDup (direction_pairs o).
Proof.
  unfold quasi. destruct (init_vectors o) as [vs|] eqn:V; [|discriminate]. cbn [rbind]. destruct (rings fuel o _) as [pairs|] eqn:Q; [|discriminate]. cbn [rbind]. intros H.
  replace (@lit ROps 0 0) with 0 in Q by (cbn; ring).
  assert (PM : Permutation pairs (line_pairs o)).
  { pose proof (rings_perm o fuel 0 pairs ltac:(lra) Q) as PM. rewrite PM. rewrite (filter_ext _ (fun _ => true)); [|intros p; apply Rleb_true, off_pos].
    clear. induction (line_pairs o); [constructor|]. cbn. now constructor. }
  assert (ND : NoDup (line_pairs o)).
  { assert (LP : forall l1 l2 : list nat, NoDup l1 -> NoDup l2 -> NoDup (list_prod l1 l2)); [|apply LP; apply seq_NoDup].
    intros l1 l2 N1 N2. induction N1 as [|a l1 NI N1 IH]; [constructor|]. cbn [list_prod].
    assert (AP : forall (u v : list (nat * nat)), NoDup u -> NoDup v -> (forall p, In p u -> ~ In p v) -> NoDup (u ++ v)).
    { intros u v U W D. induction U as [|p u NU U IHU]; [exact W|]. cbn. constructor; [|apply IHU; intros; apply D; now right].
      intros I. apply in_app_or in I as [I|I]; [contradiction|]. exact (D p (or_introl eq_refl) I). }
    apply AP; [|exact IH|].
    - apply FinFun.Injective_map_NoDup; [|exact N2]. intros p q E. now injection E.
    - intros p I J. apply in_map_iff in I as (b & <- & _). apply in_prod_iff in J as [J _]. contradiction. }
  exists vs, pairs. 
  assert (CC : forall A B C (f : A -> B -> res (list C)) l k out, collect (fun a => collect (fun b => f a b) k) l = Ok out ->
    exists outs, Forall2 (fun '(a, b) evs => f a b = Ok evs) (list_prod l k) outs /\ out = concat outs).
  { clear. intros A B C f l k. induction l as [|a l IH]; intros out H; cbn [collect] in H; [injection H as <-; exists []; split; constructor|].
    destruct (collect (fun b => f a b) k) as [u|] eqn:U; [|discriminate]. cbn [rbind] in H. destruct (collect _ l) as [w|]; [|discriminate]. cbn [rmap] in H. injection H as <-.
    destruct (IH w eq_refl) as (o2 & F2 & ->). destruct (collect_spec _ _ _ U) as (o1 & F1 & ->). exists (o1 ++ o2). cbn [list_prod]. split; [|now rewrite concat_app].
    apply Forall2_app; [|exact F2]. clear - F1. induction F1; constructor; auto. }
  destruct (CC _ _ _ (fun p q => let '(n, m) := p in let '(t, r) := q in tile o vs n m t r) pairs (direction_pairs o) out) as (outs & F & ->).
  { rewrite <- H. clear. induction pairs as [|[n m] l IH]; [reflexivity|]. cbn [collect]. rewrite IH. reflexivity. }
  exists outs. split; [reflexivity|]. split; [exact PM|]. split; [eapply Permutation_NoDup; [symmetry; exact PM|exact ND]|].
  split; [exact (proj1 (rings_order o fuel 0 pairs ltac:(lra) Q))|]. split.
  { clear - F. induction F as [|[[n m] [t r]] e l os E F IH]; constructor; auto. }
  split; [reflexivity|]. split; [exact (direction_pairs_in o)|].
  unfold direction_pairs. generalize (seq_NoDup (symmetry o - 1) 0). generalize (seq 0 (symmetry o - 1)). intros l N. induction N as [|t l NI N IH]; [constructor|]. cbn [flat_map].
  assert (AP : forall (u v : list (nat * nat)), NoDup u -> NoDup v -> (forall p, In p u -> ~ In p v) -> NoDup (u ++ v)).
  { intros u v U W D. induction U as [|p u NU U IHU]; [exact W|]. cbn. constructor; [|apply IHU; intros; apply D; now right].
    intros I. apply in_app_or in I as [I|I]; [contradiction|]. exact (D p (or_introl eq_refl) I). }
  apply AP; [|exact IH|].
  - apply FinFun.Injective_map_NoDup; [|apply seq_NoDup]. intros p q E. now injection E.
  - intros p I J. apply in_map_iff in I as (b & <- & _). apply in_flat_map in J as (t' & J1 & J2). apply in_map_iff in J2 as (b' & E & _). injection E as -> _. contradiction.
Qed.

(** *** Odd symmetries *)
Lemma odd_cos s t : Nat.odd s = true -> cos (INR t * (2 * PI / INR s)) <> 0.
Proof.
  intros O E. apply cos_eq_0_0 in E as [k E]. assert (S0 : INR s <> 0) by (apply not_0_INR; intros ->; discriminate).
  pose proof PI_RGT_0 as PP. assert (X : 4 * INR t = INR s * (2 * IZR k + 1)).
  { apply Rmult_eq_reg_r with (PI / (2 * INR s)); [|apply Rmult_integral_contrapositive_currified; [lra|apply Rinv_neq_0_compat; lra]].
    replace (4 * INR t * (PI / (2 * INR s))) with (INR t * (2 * PI / INR s)) by (field; exact S0). rewrite E. field. exact S0. }
  rewrite !INR_IZR_INZ in X. rewrite <- !mult_IZR, <- plus_IZR, <- mult_IZR in X. apply eq_IZR in X. apply Nat.odd_spec in O as [h O]. subst s.
  rewrite Nat2Z.inj_add, Nat2Z.inj_mul in X. lia.
Qed.
Lemma odd_sin s d : Nat.odd s = true -> (0 < d < s)%nat -> sin (INR d * (2 * PI / INR s)) <> 0.
Proof.
  intros O D E. apply sin_eq_0_0 in E as [k E]. assert (S0 : INR s <> 0) by (apply not_0_INR; lia).
  pose proof PI_RGT_0 as PP. assert (X : 2 * INR d = INR s * IZR k).
  { apply Rmult_eq_reg_r with (PI / INR s); [|apply Rmult_integral_contrapositive_currified; [lra|apply Rinv_neq_0_compat; lra]].
    replace (2 * INR d * (PI / INR s)) with (INR d * (2 * PI / INR s)) by (field; exact S0). rewrite E. field. exact S0. }
  rewrite !INR_IZR_INZ in X. rewrite <- !mult_IZR in X. apply eq_IZR in X. apply Nat.odd_spec in O as [h O]. subst s.
  rewrite Nat2Z.inj_add, Nat2Z.inj_mul in X. assert (Z.of_nat d < 2 * Z.of_nat h + 1)%Z by lia. assert (0 < Z.of_nat d)%Z by lia.
  assert (K : k = 1%Z) by nia. subst k. lia.
Qed.
Section Odd.
  Variable o : qopts ROps.
  Hypothesis Odd : Nat.odd (symmetry o) = true.
  Lemma odd_even : Nat.even (symmetry o) = false. Proof. rewrite <- Nat.negb_odd, Odd. reflexivity. Qed.
  Lemma init_loop_total phi : forall c a t, (forall i, (i < c)%nat -> cos (a + INR i * phi) <> 0) -> exists vs, init_loop o phi a t c = Ok vs.
  Proof.
    induction c as [|c IH]; intros a t H; [eexists; reflexivity|]. cbn [init_loop]. unfold mk_qvec, pydiv. rnum.
    pose proof (H 0%nat ltac:(lia)) as H0. cbn [INR] in H0. rewrite Rmult_0_l, Rplus_0_r in H0. rewrite (proj2 (Reqb_false _ _)) by exact H0. cbn [rmap rbind].
    destruct (IH (a + phi) (S t)) as [vs V]. { intros i Hi. specialize (H (S i) ltac:(lia)). rewrite S_INR in H. replace (a + phi + INR i * phi) with (a + (INR i + 1) * phi) by ring. exact H. }
    rewrite V. eexists; reflexivity.
  Qed.
  Lemma init_total : exists vs, init_vectors o = Ok vs.
  Proof.
    unfold init_vectors, pydiv. rewrite of_nat_INR, odd_even. rnum. rewrite (proj2 (Reqb_false _ _)) by (apply not_0_INR; intros E; rewrite E in Odd; discriminate). cbn [rbind].
    apply init_loop_total. intros i Hi. replace (@lit ROps 0 0) with 0 by (cbn; ring). rewrite Rplus_0_l. now apply odd_cos.
  Qed.
  Lemma star_cross t r : (t < r < symmetry o)%nat -> px (star o t) * py (star o r) - py (star o t) * px (star o r) <> 0.
  Proof.
    intros H. unfold star, first_angle. rewrite odd_even. cbn [px py]. rewrite !Rplus_0_l.
    match goal with |- cos ?a * sin ?b - sin ?a * cos ?b <> 0 => replace (cos a * sin b - sin a * cos b) with (sin (b - a)) by (rewrite sin_minus; ring);
      replace (b - a) with (INR (r - t) * (2 * PI / INR (symmetry o))) by (rewrite minus_INR by lia; ring) end.
    apply odd_sin; [exact Odd|lia].
  Qed.
  Lemma segments_total s p v1 v2 : px v1 * py v2 - py v1 * px v2 <> 0 -> exists sg, tile_segments o s p v1 v2 (dot v1 v2) = Ok sg.
  Proof.
    intros C. unfold tile_segments.
    match goal with |- context[if @Num.ltb ROps ?x ?q then ?u else ?v] => assert (EP : exists a b c d, (if @Num.ltb ROps x q then u else v) = (a, b, c, d) /\ 0 < Rmax (distance2 a b) (distance2 b c)) end.
    { set (k := segment_ratio o).
      assert (NZ : forall u w : R, (u <> 0 \/ w <> 0) -> 0 < u * u + w * w) by (intros u w [?|?]; nra).
      assert (GO : forall d1 d2 : R, d1 > 0 \/ d2 > 0 -> 0 < Rmax d1 d2) by (intros d1 d2 [?|?]; [eapply Rlt_le_trans; [|apply Rmax_l]|eapply Rlt_le_trans; [|apply Rmax_r]]; lra).
      assert (W : (1 - k <> 0 /\ (px v2 - px v1 <> 0 \/ py v2 - py v1 <> 0)) \/ k = 1).
      { destruct (Req_dec k 1) as [|K]; [now right|left]. split; [lra|]. destruct (Req_dec (px v2) (px v1)) as [X|X]; [|left; lra]. right. intros Y. apply C. replace (py v2) with (py v1) by lra. rewrite X. ring. }
      assert (V1 : px v1 <> 0 \/ py v1 <> 0) by (destruct (Req_dec (px v1) 0) as [X|X]; [right; intros Y; apply C; rewrite X, Y; ring|now left]).
      assert (V2 : px v2 <> 0 \/ py v2 <> 0) by (destruct (Req_dec (px v2) 0) as [X|X]; [right; intros Y; apply C; rewrite X, Y; ring|now left]).
      assert (SC : forall u w : R, 1 - k <> 0 -> (u <> 0 \/ w <> 0) -> (1 - k) * u <> 0 \/ (1 - k) * w <> 0) by (intros u w K [?|?]; [left|right]; now apply Rmult_integral_contrapositive_currified).
      destruct (@Num.ltb ROps _ _); do 4 eexists; (split; [reflexivity|]); apply GO; unfold distance2; cbn [px py]; rnum.
      - destruct W as [[K D]|K].
        + left. apply Rlt_gt. specialize (SC _ _ K D). apply NZ in SC. eapply Rlt_le_trans; [exact SC|]. apply Req_le. ring.
        + right. rewrite K. apply NZ in V1. eapply Rlt_le_trans; [exact V1|]. apply Req_le. ring.
      - destruct W as [[K D]|K].
        + right. apply Rlt_gt. specialize (SC _ _ K D). apply NZ in SC. eapply Rlt_le_trans; [exact SC|]. apply Req_le. ring.
        + left. rewrite K. apply NZ in V2. eapply Rlt_le_trans; [exact V2|]. apply Req_le. ring. }
    destruct EP as (a & b & c & d & -> & POS). destruct s; try (eexists; reflexivity).
    - destruct (_ && _); eexists; reflexivity.
    - unfold pydiv. rewrite pymax_R. rnum. rewrite (proj2 (Reqb_false _ _)) by lra. eexists; reflexivity.
    - destruct (split_cross o); eexists; reflexivity.
  Qed.
  (** With an odd symmetry a tiling is always drawn, whatever the settings. *)
  Theorem C148_odd_total : exists fuel out, quasi fuel o = Ok out.
  Proof.
    destruct init_total as [vs V]. destruct (init_vectors_spec o vs V) as [LV DV].
    assert (F : exists fuel, INR (numlines o - 1) / (4 / 10) < INR fuel).
    { exists (Z.to_nat (up (INR (numlines o - 1) / (4 / 10)))). destruct (archimed (INR (numlines o - 1) / (4 / 10))) as [U _]. rewrite (INR_IZR_INZ (Z.to_nat _)).
      rewrite Z2Nat.id; [lra|]. apply le_IZR. pose proof (pos_INR (numlines o - 1)). lra. }
    destruct F as [fuel F]. exists fuel.
    destruct (rings_end o fuel 0) as [pairs Q]. { rewrite Rplus_0_l. apply Rmult_lt_reg_r with (10 / 4); [lra|]. lra. }
    unfold quasi. rewrite V. cbn [rbind]. replace (@lit ROps 0 0) with 0 by (cbn; ring). rewrite Q. cbn [rbind].
    assert (CT : forall A B (f : A -> res (list B)) l, (forall a, In a l -> exists b, f a = Ok b) -> exists out, collect f l = Ok out).
    { clear. intros A B f l. induction l as [|a l IH]; intros H; [eexists; reflexivity|]. cbn [collect]. destruct (H a (or_introl eq_refl)) as [b ->]. cbn [rbind].
      destruct IH as [c ->]; [intros; apply H; now right|]. eexists; reflexivity. }
    apply CT. intros [n m] _. apply CT. intros [t r] I. apply direction_pairs_in in I. unfold tile.
    destruct (DV t ltac:(lia)) as (Dt & Ct & St). destruct (DV r ltac:(lia)) as (Dr & Cr & Sr). pose proof (star_cross t r I) as CR.
    assert (NE : q_slope (nthv vs r) - q_slope (nthv vs t) <> 0).
    { rewrite St, Sr. intros E. apply CR. apply Rmult_eq_reg_r with (/ (px (star o t) * px (star o r))); [|apply Rinv_neq_0_compat, Rmult_integral_contrapositive_currified; assumption].
      rewrite Rmult_0_l, <- E. field. split; assumption. }
    unfold pydiv. rnum. rewrite (proj2 (Reqb_false _ _)) by exact NE. cbn [rbind]. destruct (indices _ _ _ _ _ _ _ _ _ _) as [k|]; [|eexists; reflexivity].
    unfold plot_tile. destruct (negb _); [eexists; reflexivity|]. destruct (_ || _); [|eexists; reflexivity].
    rewrite Dt, Dr. destruct (segments_total (if @Num.ltb ROps (skinnyfat_ratio o) (Num.abs (Num.add (Num.mul (px (star o t)) (px (star o r))) (Num.mul (py (star o t)) (py (star o r))))) then q_skinny o else q_fat o)
      (base o vs k) (star o t) (star o r) CR) as [sg SG]. unfold dot in SG. rnum. rewrite SG. eexists; reflexivity.
  Qed.
End Odd.

(** In exact arithmetic an even symmetry has parallel directions: if there is any pair of lines to consider, the tiling fails with a division by zero
    whatever the tolerance (which was added to avoid just that). *)
Theorem C148_even_refuted (o : qopts ROps) fuel : Nat.even (symmetry o) = true -> (3 <= numlines o)%nat -> INR (numlines o - 1) < INR fuel * (4 / 10) ->
  quasi fuel o = Raise ZeroDivisionError.
Proof.
  intros E NL F. destruct (rings_end o fuel 0) as [pairs Q]; [lra|]. unfold quasi.
  assert (IL : forall phi c a t, (exists vs, init_loop o phi a t c = Ok vs) \/ init_loop o phi a t c = Raise ZeroDivisionError).
  { clear. intros phi. induction c as [|c IH]; intros a t; [left; eexists; reflexivity|]. cbn [init_loop]. unfold mk_qvec, pydiv. rnum. destruct (Reqb _ 0); [now right|]. cbn [rmap rbind].
    destruct (IH (a + phi) (S t)) as [[vs V]|V]; rewrite V; [left; eexists; reflexivity|now right]. }
  destruct (init_vectors o) as [vs|e] eqn:V.
  2: { cbn [rbind]. unfold init_vectors, pydiv in V. destruct (Num.eqb _ _); [cbn in V; congruence|]. cbn [rbind] in V.
       match type of V with init_loop _ ?p ?a _ ?c = _ => destruct (IL p c a 0%nat) as [[vs W]|W] end; rewrite W in V; congruence. }
  cbn [rbind]. replace (@lit ROps 0 0) with 0 by (cbn; ring). rewrite Q. cbn [rbind]. destruct (init_vectors_spec o vs V) as [LV DV].
  assert (SY : symmetry o <> 0%nat). { intros S0. unfold init_vectors, pydiv in V. rewrite S0, of_nat_INR in V. rnum. cbn [INR] in V. rewrite (proj2 (Reqb_true _ _) eq_refl) in V. discriminate. }
  apply Nat.even_spec in E as [h E].
  assert (I1 : In (1%nat, 1%nat) pairs).
  { pose proof (rings_perm o fuel 0 pairs ltac:(lra) Q) as PM. symmetry in PM. eapply Permutation_in; [exact PM|]. apply filter_In. split; [|apply Rleb_true, off_pos].
    apply in_prod_iff. split; apply in_seq; lia. }
  assert (I2 : In (0%nat, h) (direction_pairs o)) by (apply direction_pairs_in; lia).
  assert (CF : forall A B (f : A -> res (list B)) l a, (forall x, (exists b, f x = Ok b) \/ f x = Raise ZeroDivisionError) -> In a l -> f a = Raise ZeroDivisionError ->
    collect f l = Raise ZeroDivisionError).
  { clear. intros A B f l a T I F. induction l as [|x l IH]; [destruct I|]. cbn [collect]. destruct I as [->|I]; [rewrite F; reflexivity|].
    destruct (T x) as [[b ->]| ->]; [|reflexivity]. cbn [rbind]. rewrite (IH I). reflexivity. }
  assert (CT : forall A B (f : A -> res (list B)) l, (forall x, (exists b, f x = Ok b) \/ f x = Raise ZeroDivisionError) ->
    (exists b, collect f l = Ok b) \/ collect f l = Raise ZeroDivisionError).
  { clear. intros A B f l T. induction l as [|x l IH]; [left; eexists; reflexivity|]. cbn [collect]. destruct (T x) as [[b ->]| ->]; [|now right]. cbn [rbind].
    destruct IH as [[c ->]| ->]; [left; eexists; reflexivity|now right]. }
  assert (TT : forall n m t r, (exists b, tile o vs n m t r = Ok b) \/ tile o vs n m t r = Raise ZeroDivisionError).
  { intros n m t r. unfold tile, pydiv. destruct (Num.eqb _ _); [now right|]. cbn [rbind]. destruct (indices _ _ _ _ _ _ _ _ _ _) as [k|]; [|left; eexists; reflexivity].
    unfold plot_tile. destruct (negb _); [left; eexists; reflexivity|]. destruct (_ || _); [|left; eexists; reflexivity].
    unfold tile_segments. destruct (if @Num.ltb ROps _ _ then _ else _) as [[[s0 s1] s2] s3].
    destruct (if @Num.ltb ROps _ _ then _ else _); try (left; eexists; reflexivity).
    - destruct (_ && _); left; eexists; reflexivity.
    - unfold pydiv. destruct (Num.eqb _ _); [now right|left; eexists; reflexivity].
    - destruct (split_cross o); left; eexists; reflexivity. }
  eapply CF; [| exact I1 |].
  - intros [n m]. apply CT. intros [t r]. apply TT.
  - eapply CF; [| exact I2 |]; [intros [t r]; apply TT|].
    unfold tile. destruct (DV 0%nat ltac:(lia)) as (_ & C0 & S0). destruct (DV h ltac:(lia)) as (_ & Ch & Sh). unfold pydiv. rnum.
    rewrite (proj2 (Reqb_true _ _)); [reflexivity|]. rewrite S0, Sh. revert C0 Ch. unfold star. cbn [px py]. cbn [INR]. rewrite Rmult_0_l, Rplus_0_r.
    replace (INR h * (2 * PI / INR (symmetry o))) with PI.
    2: { rewrite E, mult_INR. cbn [INR]. field. apply not_0_INR. lia. }
    rewrite neg_cos, neg_sin. intros C0 Ch. field. exact C0.
Qed.

(** Example: symmetry 3 with the default settings of the other options. The tile on the directions 0 and 1 is a skinny one with a decoration; the tiling is drawn. *)
Definition three (s : segtype) : qopts ROps := QOpts 3 s SegNone (1 / 100000000) false (2137 / 10000) (1132 / 10000) (1 / 2) (2 / 10) 30 (fun _ => true).
Definition three_tile (s : segtype) : tile_ := Tile (lattice (three s) [3; 4; 5]%Z) (star (three s) 0) (star (three s) 1).
Theorem C147_example s : seg_on s = true ->
  valid_tile (three s) (three_tile s) /\ kind_of (three s) (three_tile s) s /\ visible (three s) (corners (three_tile s)) = true /\
  (exists evs, plot_tile (three s) (corner (three_tile s)) (side1 (three_tile s)) (side2 (three_tile s)) = Ok evs /\ (2 <= length evs)%nat) /\
  exists fuel out, quasi fuel (three s) = Ok out.
Proof.
  intros S. assert (VT : valid_tile (three s) (three_tile s)).
  { exists 0%nat, 1%nat, [3; 4; 5]%Z. cbn [symmetry three]. repeat split; try lia; intros; destruct i as [|[|[|i]]]; cbn; lia. }
  assert (K : kind_of (three s) (three_tile s) s).
  { left. split; [|reflexivity]. unfold skinny, three_tile, dot, star, first_angle. cbn [side1 side2 three skinnyfat_ratio symmetry Nat.even px py]. toR. rewrite <- cos_minus.
    match goal with |- _ < Rabs (cos ?z) => replace z with (- (2 * (PI / 3))) by (cbn; field) end. rewrite cos_neg, cos_2PI3. rewrite Rabs_left by lra. lra. }
  split; [exact VT|split; [exact K|split; [reflexivity|split; [|now apply C148_odd_total]]]].
  destruct (segments_total (three s) s (corner (three_tile s)) (side1 (three_tile s)) (side2 (three_tile s)) (star_cross (three s) eq_refl 0 1 ltac:(cbn; lia))) as [sg SG].
  exists (QPolygon (corners (three_tile s)) (Rabs (dot (side1 (three_tile s)) (side2 (three_tile s)))) :: sg). split.
  - unfold plot_tile. change (visible (three s) _) with true. cbn [negb]. change (q_skinny (three s)) with s. rewrite S. cbn [orb].
    destruct K as [[K _]|[K _]]; [|exfalso; apply K]; [|].
    + unfold skinny in K. change (Num.add (Num.mul (px (side1 (three_tile s))) (px (side2 (three_tile s)))) (Num.mul (py (side1 (three_tile s))) (py (side2 (three_tile s))))) with (dot (side1 (three_tile s)) (side2 (three_tile s))).
      change (@Num.ltb ROps) with Rltb. change (@Num.abs ROps) with Rabs. rewrite (proj2 (Rltb_true _ _) K). rewrite SG. reflexivity.
    + unfold skinny, three_tile, dot, star, first_angle. cbn [side1 side2 three skinnyfat_ratio symmetry Nat.even px py]. toR. rewrite <- cos_minus.
      match goal with |- _ < Rabs (cos ?z) => replace z with (- (2 * (PI / 3))) by (cbn; field) end. rewrite cos_neg, cos_2PI3. rewrite Rabs_left by lra. lra.
  - cbn [length]. enough (sg <> []) by (destruct sg; [congruence|cbn; lia]). intros ->. revert SG. unfold tile_segments. destruct (if @Num.ltb ROps _ _ then _ else _) as [[[s0 s1] s2] s3].
    destruct s; try discriminate. unfold pydiv. destruct (Num.eqb _ _); discriminate.
Qed.
