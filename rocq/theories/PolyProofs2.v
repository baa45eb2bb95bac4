(** * PolyProofs2: Ramer-Douglas-Peucker simplification over R. *)
From Verif Require Import Num NumR Geom GeomR GeomSpec GeomProofs GeomProofs2 GeomProofs4 GeomProofs5 Polygon PolySpec BezierProofs PolyProofs.
From Coq Require Import ZArith Reals Lra Lia Bool List Psatz.
Import ListNotations.
Local Open Scope R_scope.

Notation O0 := (P 0%R 0%R : Pt).

Section Rdp.
  Context {e : Epsilon ROps}.
  Hypothesis He : 0 < EPS.

  Lemma far_spec (c : Line_) (l : list Pt) : forall i dmax idx, exists D I, far c i l dmax idx = Ok (D, I) /\ dmax <= D /\
    (forall k, (k < length l)%nat -> exists q, on_segment c q /\ euclid q (nth k l O0) <= D) /\
    ((D = dmax /\ I = idx) \/ (dmax < D /\ exists k, (k < length l)%nat /\ I = S (i + k))).
  Proof.
    induction l as [|p l IH]; intros i dmax idx.
    - exists dmax, idx. cbn. repeat split; auto; try lra. intros; lia.
    - cbn [far]. destruct (ldist_segment He c p) as (q & Hq & Sq & _). rewrite Hq. cbn [rbind]. rnum.
      destruct (Rltb dmax (euclid q p)) eqn:L; rbool.
      + destruct (IH (S i) (euclid q p) (S i)) as (D & I & F & M & A & B). exists D, I. rewrite F. split; auto.
        split; [lra|]. split.
        * intros [|k] Hk; cbn [nth]; [exists q; split; auto|]. apply A. cbn in Hk. lia.
        * right. split; [lra|]. destruct B as [[-> ->]|(_ & k & Hk & ->)].
          -- exists 0%nat. cbn. split; [lia|lia].
          -- exists (S k). cbn. split; lia.
      + destruct (IH (S i) dmax idx) as (D & I & F & M & A & B). exists D, I. rewrite F. split; auto.
        split; [lra|]. split.
        * intros [|k] Hk; cbn [nth]; [exists q; split; auto; lra|]. apply A. cbn in Hk. lia.
        * destruct B as [B|(H & k & Hk & ->)]; [left; auto|right]. split; auto. exists (S k). cbn. split; lia.
  Qed.

  Lemma nth_removelast {A} (l : list A) d k : (k < length l - 1)%nat -> nth k (removelast l) d = nth k l d.
  Proof.
    intros H. destruct l as [|a l]; [cbn in H; lia|].
    destruct (@exists_last _ (a :: l)) as (m & z & E); [discriminate|]. rewrite E in *. rewrite removelast_last.
    rewrite app_length in H. cbn in H. rewrite app_nth1; [reflexivity|lia].
  Qed.
  Lemma length_removelast {A} (l : list A) : length (removelast l) = (length l - 1)%nat.
  Proof.
    destruct l as [|a l]; [reflexivity|]. destruct (@exists_last _ (a :: l)) as (m & z & E); [discriminate|].
    rewrite E, removelast_last, app_length. cbn. lia.
  Qed.
  Lemma nth_last {A} (l : list A) d : nth (length l - 1) l d = last l d.
  Proof.
    destruct l as [|a l]; [reflexivity|]. destruct (@exists_last _ (a :: l)) as (m & z & E); [discriminate|].
    rewrite E, last_last, app_length. cbn. replace (length m + 1 - 1)%nat with (length m) by lia.
    rewrite app_nth2, Nat.sub_diag; [reflexivity|lia].
  Qed.
  Lemma nth_firstn {A} (l : list A) d n k : (k < n)%nat -> nth k (firstn n l) d = nth k l d.
  Proof. revert n k. induction l as [|a l IH]; intros [|n] [|k] H; try lia; auto. cbn. apply IH. lia. Qed.
  Lemma nth_skipn {A} (l : list A) d n k : nth k (skipn n l) d = nth (n + k) l d.
  Proof. revert n. induction l as [|a l IH]; intros [|n]; auto; [cbn; destruct k; auto|]. cbn. apply IH. Qed.
  Lemma consecutive_in_l {A} (l : list A) a b : In (a, b) (consecutive l) -> In a l.
  Proof. unfold consecutive. apply in_combine_l. Qed.
  Lemma consecutive_in_r {A} (l : list A) a b : In (a, b) (consecutive l) -> In b l.
  Proof. unfold consecutive. intros H. apply in_combine_r in H. destruct l; [destruct H|right; exact H]. Qed.

  Lemma simplification_two tol (l : list Pt) : (2 <= length l)%nat ->
    (forall k, (0 < k < length l - 1)%nat -> exists q, on_segment (Ln (nth 0 l O0) (nth (length l - 1) l O0)) q /\ euclid q (nth k l O0) <= tol) ->
    simplification tol l [nth 0 l O0; nth (length l - 1) l O0].
  Proof.
    intros L H. exists [0; length l - 1]%nat. split; [reflexivity|]. split; [reflexivity|]. split; [exists [0%nat]; reflexivity|].
    intros i j [E|[]]. injection E as <- <-. split; [lia|]. exact H.
  Qed.
  Lemma simplification_join tol (l : list Pt) idx s1 s2 : (0 < idx < length l - 1)%nat ->
    simplification tol (firstn (S idx) l) s1 -> simplification tol (skipn idx l) s2 ->
    simplification tol l (s1 ++ tl s2).
  Proof.
    intros Hi (k1 & E1 & H1 & (i1 & L1) & C1) (k2 & E2 & H2 & (i2 & L2) & C2).
    rewrite firstn_length in L1, C1. rewrite skipn_length in L2, C2.
    replace (Nat.min (S idx) (length l) - 1)%nat with idx in L1 by lia.
    destruct k2 as [|z B]; [discriminate|]. cbn in H2. injection H2 as ->.
    exists (k1 ++ map (Nat.add idx) B).
    assert (R1 : forall k, In k k1 -> (k <= idx)%nat).
    { intros k Hk. destruct (Nat.eq_dec k idx) as [|N]; [lia|].
      assert (exists j, In (k, j) (consecutive k1)) as (j & Hj).
      { rewrite L1 in Hk. apply in_app_iff in Hk. destruct Hk as [Hk|[Hk|[]]]; [|congruence].
        apply in_split in Hk. destruct Hk as (u & v & ->). rewrite L1, <- app_assoc. cbn [app].
        destruct (v ++ [idx]) as [|w W] eqn:V; [destruct v; discriminate|].
        exists w. rewrite consecutive_join. apply in_app_iff. right. left. reflexivity. }
      apply C1 in Hj. destruct Hj as [Hj _]. lia. }
    split; [|split; [|split]].
    - rewrite map_app, map_map. f_equal.
      + rewrite E1. apply map_ext_in. intros k Hk. apply nth_firstn. apply R1 in Hk. lia.
      + rewrite E2. cbn [map tl]. apply map_ext. intros k. apply nth_skipn.
    - destruct k1; [discriminate|exact H1].
    - destruct B as [|b B'] eqn:EB.
      + exfalso. destruct i2 as [|? [|? ?]]; cbn in L2; try discriminate. injection L2 as L2. lia.
      + rewrite <- EB in *. assert (BN : B <> []) by (rewrite EB; discriminate). destruct (exists_last BN) as (m & y & EY).
        exists (k1 ++ map (Nat.add idx) m). rewrite EY, map_app, app_assoc. f_equal. cbn [map]. f_equal.
        rewrite EY in L2. change (0%nat :: m ++ [y]) with ((0%nat :: m) ++ [y]) in L2. apply app_inj_tail in L2.
        destruct L2 as [_ ->]. lia.
    - intros i j Hij. rewrite L1, <- app_assoc in Hij. cbn [app] in Hij. rewrite consecutive_join, <- L1 in Hij.
      apply in_app_iff in Hij. destruct Hij as [Hij|Hij].
      + pose proof Hij as Hin. apply C1 in Hij. destruct Hij as [Hlt Hk]. split; [lia|].
        intros k Kb. destruct (Hk k Kb) as (q & Sq & Dq). rewrite !nth_firstn in * by lia. exists q. auto.
      + assert (Hc : consecutive (idx :: map (Nat.add idx) B) = map (fun '(a, b) => (idx + a, idx + b)%nat) (consecutive (0%nat :: B))).
        { rewrite <- consecutive_map. cbn [map]. rewrite Nat.add_0_r. reflexivity. }
        rewrite Hc in Hij. apply in_map_iff in Hij. destruct Hij as ([a b] & E & Hab). injection E as <- <-.
        apply C2 in Hab. destruct Hab as [Hlt Hk]. split; [lia|].
        intros k Kb. destruct (Hk (k - idx)%nat ltac:(lia)) as (q & Sq & Dq). rewrite !nth_skipn in *.
        replace (idx + (k - idx))%nat with k in Dq by lia. exists q. auto.
  Qed.

  Theorem rdp_ok tol : 0 <= tol -> forall fuel l, (length l <= fuel)%nat ->
    exists out, rdp fuel l tol = Ok out /\ ((2 <= length l)%nat -> simplification tol l out) /\ ((length l < 2)%nat -> out = l).
  Proof.
    intros Ht. induction fuel as [|f IH]; intros l Hl.
    - destruct l; [|cbn in Hl; lia]. exists []. repeat split; auto. cbn. lia.
    - destruct l as [|a [|b [|c l]]].
      + exists []. repeat split; auto. cbn. lia.
      + exists [a]. repeat split; auto. cbn. lia.
      + exists [a; b]. split; [reflexivity|]. split; [|cbn; lia]. intros _.
        apply (simplification_two tol [a; b]); cbn; [lia|]. intros; lia.
      + set (L := a :: b :: c :: l) in *. assert (L3 : (3 <= length L)%nat) by (subst L; cbn; lia).
        assert (R1 : rdp (S f) L tol =
          rbind (far (Ln a (last (b :: c :: l) a)) 0 (removelast (tl L)) 0 0) (fun '(dmax, idx) =>
            if (dmax >? tol)%num then
              if Nat.eqb (length L) 3 then Ok L else
              rbind (rdp f (firstn (S idx) L) tol) (fun s1 =>
              rbind (rdp f (skipn idx L) tol) (fun s2 => Ok (s1 ++ tl s2)))
            else Ok [p1 (Ln a (last (b :: c :: l) a)); p2 (Ln a (last (b :: c :: l) a))])) by reflexivity.
        rewrite R1. clear R1. assert (LA : last (b :: c :: l) a = nth (length L - 1) L O0).
        { rewrite nth_last. subst L. clear. generalize c. cbn. induction l as [|x l IH]; intros; [reflexivity|]. apply IH. }
        rewrite LA. destruct (far_spec (Ln a (nth (length L - 1) L O0)) (removelast (tl L)) 0 0 0) as (D & I & F & M & A & B).
        change (T ROps) with R in *. rnum. rewrite F. cbn [rbind]. rewrite length_removelast in A, B.
        assert (TL : length (tl L) = (length L - 1)%nat) by (subst L; cbn; lia). rewrite TL in A, B.
        assert (NT : forall k, (k < length L - 1 - 1)%nat -> nth k (removelast (tl L)) O0 = nth (S k) L O0).
        { intros k Hk. rewrite nth_removelast by lia. reflexivity. }
        rnum. destruct (Rltb tol D) eqn:TD; rbool.
        * destruct B as [[-> _]|(_ & k & Hk & ->)]; [lra|]. cbn [Nat.add].
          destruct (Nat.eqb_spec (length L) 3) as [E3|N3].
          -- exists L. split; [reflexivity|]. split; [|lia]. intros _. destruct l; [|subst L; cbn in E3; lia].
             exists [0; 1; 2]%nat. split; [reflexivity|]. split; [reflexivity|]. split; [exists [0; 1]%nat; reflexivity|].
             intros i j [Ei|[Ei|[]]]; injection Ei as <- <-; split; cbn; try lia; intros; lia.
          -- destruct (IH (firstn (S (S k)) L)) as (s1 & S1 & C1 & _); [rewrite firstn_length; lia|].
             destruct (IH (skipn (S k) L)) as (s2 & S2 & C2 & _); [rewrite skipn_length; lia|].
             rewrite S1, S2. cbn [rbind]. exists (s1 ++ tl s2). split; [reflexivity|]. split; [|lia]. intros _.
             apply (simplification_join tol L (S k)); [lia|apply C1; rewrite firstn_length; lia|apply C2; rewrite skipn_length; lia].
        * eexists. split; [reflexivity|]. split; [|lia]. intros _.
          apply (simplification_two tol L); [lia|]. intros [|k] Hk; [lia|].
          destruct (A k ltac:(lia)) as (q & Sq & Dq). exists q. split; [exact Sq|]. rewrite NT in Dq by lia. lra.
  Qed.

  (** If every inner vertex is within the tolerance of the chord, only the two ends survive. *)
  Lemma ldist_le (c : Line_) p tol : EPS <= seg_len c -> (exists q, on_segment c q /\ euclid q p <= tol) ->
    exists d, ldist c p true = Ok d /\ d <= tol.
  Proof.
    intros L (q & Sq & Dq). destruct (ldist_segment He c p) as (r & Hr & _ & Mr). exists (euclid r p). split; auto.
    pose proof (Mr L q Sq). lra.
  Qed.
  Lemma far_le (c : Line_) tol (l : list Pt) : 0 <= tol -> EPS <= seg_len c ->
    (forall p, In p l -> exists q, on_segment c q /\ euclid q p <= tol) ->
    forall i dmax idx, dmax <= tol -> exists D I, far c i l dmax idx = Ok (D, I) /\ D <= tol.
  Proof.
    intros Ht L. induction l as [|p l IH]; intros H i dmax idx Hd; [exists dmax, idx; auto|].
    cbn [far]. destruct (ldist_le c p tol L (H p (or_introl eq_refl))) as (d & -> & Hd'). cbn [rbind].
    destruct (d >? dmax)%num; apply IH; auto; intros; apply H; right; auto.
  Qed.
  Lemma rdp_flat tol (l : list Pt) : 0 <= tol -> (2 <= length l)%nat ->
    EPS <= euclid (nth 0 l O0) (nth (length l - 1) l O0) ->
    (forall p, In p l -> exists q, on_segment (Ln (nth 0 l O0) (nth (length l - 1) l O0)) q /\ euclid q p <= tol) ->
    simplify_rdp l tol = Ok [nth 0 l O0; nth (length l - 1) l O0].
  Proof.
    intros Ht L2 LL H. destruct l as [|a [|b [|c l]]]; [cbn in L2; lia|cbn in L2; lia|reflexivity|].
    set (L := a :: b :: c :: l) in *. unfold simplify_rdp.
    assert (LA : last (b :: c :: l) a = nth (length L - 1) L O0).
    { rewrite nth_last. subst L. clear. generalize c. cbn. induction l as [|x l IH]; intros; [reflexivity|]. apply IH. }
    assert (R1 : rdp (length L) L tol =
          rbind (far (Ln a (last (b :: c :: l) a)) 0 (removelast (tl L)) 0 0) (fun '(dmax, idx) =>
            if (dmax >? tol)%num then
              if Nat.eqb (length L) 3 then Ok L else
              rbind (rdp (S (S (length l))) (firstn (S idx) L) tol) (fun s1 =>
              rbind (rdp (S (S (length l))) (skipn idx L) tol) (fun s2 => Ok (s1 ++ tl s2)))
            else Ok [p1 (Ln a (last (b :: c :: l) a)); p2 (Ln a (last (b :: c :: l) a))])) by reflexivity.
    rewrite R1, LA. clear R1.
    destruct (far_le (Ln a (nth (length L - 1) L O0)) tol (removelast (tl L)) Ht LL) with (i := 0%nat) (dmax := 0) (idx := 0%nat) as (D & I & F & M); auto.
    { intros p Hp. apply H. right. change (In p (tl L)). clear - Hp. revert Hp. generalize (tl L). intros m Hm.
      destruct m as [|x m]; [destruct Hm|]. destruct (@exists_last _ (x :: m)) as (u & z & E); [discriminate|].
      rewrite E in *. rewrite removelast_last in Hm. apply in_app_iff. auto. }
    change (T ROps) with R in *. rnum. rewrite F. cbn [rbind]. rnum.
    replace (Rltb tol D) with false by (symmetry; rbool; lra). reflexivity.
  Qed.

  (** ** a negative tolerance never terminates on four collinear points *)
  Lemma far_zero (c : Line_) (l : list Pt) : (forall p, In p l -> ldist c p true = Ok 0) -> forall i, far c i l 0 0 = Ok (0, 0%nat).
  Proof.
    induction l as [|p l IH]; intros H i; [reflexivity|]. cbn [far]. rewrite H by (left; auto). cbn [rbind]. rnum.
    replace (Rltb 0 0) with false by (symmetry; rbool; lra). apply IH. intros; apply H; right; auto.
  Qed.
  Lemma rdp_negative (a b c d : Pt) tol : tol < 0 -> (forall p, In p [b; c] -> ldist (Ln a d) p true = Ok 0) ->
    forall fuel, rdp fuel [a; b; c; d] tol = Raise OutOfFuel.
  Proof.
    intros Ht H. induction fuel as [|f IH]; [reflexivity|].
    assert (R1 : rdp (S f) [a; b; c; d] tol =
          rbind (far (Ln a d) 0 [b; c] 0 0) (fun '(dmax, idx) =>
            if (dmax >? tol)%num then
              rbind (rdp f (firstn (S idx) [a; b; c; d]) tol) (fun s1 =>
              rbind (rdp f (skipn idx [a; b; c; d]) tol) (fun s2 => Ok (s1 ++ tl s2)))
            else Ok [a; d])) by reflexivity.
    rewrite R1. clear R1. pose proof (far_zero (Ln a d) [b; c] H 0) as F. change (T ROps) with R in *. rnum. rewrite F. cbn [rbind].
    rnum. replace (Rltb tol 0) with true by (symmetry; rbool; lra). cbn [firstn skipn]. 
    assert (rdp f [a] tol = Ok [a]) as -> by (destruct f; reflexivity). cbn [rbind]. rewrite IH. reflexivity.
  Qed.
End Rdp.
