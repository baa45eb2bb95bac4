(** * PolyHull3: the convex hull theorem. *)
From Verif Require Import Num NumR Geom GeomR GeomSpec GeomProofs GeomProofs2 GeomProofs5 Polygon PolySpec PolyHull PolyHull2.
From Coq Require Import ZArith Reals Lra Lia Bool List Psatz Sorted Permutation.
Import ListNotations.
Local Open Scope R_scope.

Section H.
  Context {E : Epsilon ROps}.
  Hypothesis He : 0 < EPS.

  Lemma split_ends (l : list Pt) x y : hd_error l = Some x -> last l x = y -> x <> y -> exists m, l = x :: m ++ [y].
  Proof.
    destruct l as [|x0 l]; [discriminate|]. intros H L N. injection H as ->.
    destruct l as [|z l]; [cbn in L; congruence|].
    destruct (@exists_last _ (z :: l)) as (m & w & Q); [discriminate|]. exists m. rewrite Q. f_equal. f_equal. f_equal.
    rewrite <- L. change (last (x :: z :: l) x) with (last (z :: l) x). rewrite Q. symmetry. apply last_last.
  Qed.
  Lemma all_same (l : list Pt) x : l <> [] -> NoDup l -> (forall p, In p l -> p = x) -> l = [x].
  Proof.
    destruct l as [|a [|b l]]; intros NE ND H; [congruence|f_equal; apply H; left; auto|].
    exfalso. apply NoDup_cons_iff in ND. destruct ND as [ND _]. apply ND. left.
    rewrite (H a), (H b); auto; [right; left; auto|left; auto].
  Qed.
  Lemma pairs_prev A (p : Pt) B : A <> [] -> exists a, In (a, p) (pairs (A ++ p :: B)).
  Proof.
    intros H. destruct (exists_last H) as (A' & a & ->). exists a. rewrite <- app_assoc. cbn [app].
    rewrite pairs_join. apply in_or_app. right. rewrite pairs_cons. left. reflexivity.
  Qed.
  Lemma pairs_next (A : list Pt) (p b : Pt) B : In (p, b) (pairs (A ++ p :: b :: B)).
  Proof. rewrite pairs_join. apply in_or_app. right. rewrite pairs_cons. left. reflexivity. Qed.
  (** a vertex of the list that is not its head has a predecessor; not its last: a successor *)
  Lemma has_prev (l : list Pt) p x : In p l -> hd_error l = Some x -> p <> x -> exists a, In (a, p) (pairs l).
  Proof.
    intros H Hx N. apply in_split in H. destruct H as (A & B & ->). apply pairs_prev. intros ->. cbn in Hx. congruence.
  Qed.
  Lemma has_next (l : list Pt) p d : In p l -> last l d <> p -> exists b, In (p, b) (pairs l).
  Proof.
    intros H N. apply in_split in H. destruct H as (A & B & ->). destruct B as [|b B].
    - exfalso. apply N. apply last_last.
    - exists b. apply pairs_next.
  Qed.
  Lemma shared pts L U x y : half llt pts L -> half (fun a b => llt b a) pts U -> hd_error L = Some x -> last L x = y ->
    hd_error U = Some y -> forall p, In p L -> In p U -> p = x \/ p = y.
  Proof.
    intros HL HU Lx Ly Uy p HpL HpU.
    destruct (lle_total p x) as [L1|L1]; [|destruct (lle_total y p) as [L2|L2]].
    1, 2: destruct (hf_ends _ _ _ HL) as (x' & y' & A & B & C); rewrite Lx in A; injection A as <-; rewrite Ly in B; subst y'.
    - left. destruct (C p (hf_sub _ _ _ HL p HpL)) as [C1 _]. apply lle_antisym; [auto|exact C1].
    - right. destruct (C p (hf_sub _ _ _ HL p HpL)) as [_ C1]. symmetry. apply lle_antisym; [auto|exact C1].
    - exfalso.
      assert (Nx : p <> x) by (intros ->; apply (llt_irrefl _ L1)). assert (Ny : p <> y) by (intros ->; apply (llt_irrefl _ L2)).
      destruct (has_prev L p x HpL Lx Nx) as (a & Ha).
      destruct (has_next L p x HpL) as (b & Hb); [congruence|].
      destruct (has_prev U p y HpU Uy Ny) as (c & Hc).
      apply (not_shared a p b c).
      + apply (hf_lt _ _ _ HL _ _ Ha).
      + apply (hf_lt _ _ _ HL _ _ Hb).
      + apply (hf_lt _ _ _ HU _ _ Hc).
      + apply (hf_turn _ _ _ HL _ _ _ Ha Hb).
      + apply (hf_left _ _ _ HL _ _ Hb). apply (hf_sub _ _ _ HU). apply pairs_in in Hc. tauto.
      + apply (hf_left _ _ _ HU _ _ Hc). apply (hf_sub _ _ _ HL). apply pairs_in in Ha. tauto.
  Qed.
  Lemma flat_half lt pts (l : list Pt) a y : half lt pts l -> llt a y -> (forall p, In p pts -> cross3 a y p = 0) -> (length l <= 2)%nat.
  Proof.
    intros H L C. destruct l as [|p [|q [|r l]]]; cbn; try lia. exfalso.
    assert (T : 0 < cross3 p q r).
    { apply (hf_turn _ _ _ H); [left; auto|right; left; auto]. }
    rewrite (on_line a y p q r) in T; auto; [lra| | |]; apply C, (hf_sub _ _ _ H); cbn; auto.
  Qed.

  Theorem hull_correct (pts : list Pt) : separated pts -> is_hull pts (convex_hull pts).
  Proof.
    intros Sep. destruct pts as [|p0 pts0] eqn:PT.
    { constructor; cbn; try tauto; try constructor; try discriminate. }
    rewrite <- PT in *. assert (NE : pts <> []) by (rewrite PT; discriminate). clear PT.
    destruct (two_halves He pts NE Sep) as [HL HU]. unfold convex_hull.
    set (L := half_hull (sort_pts pts)) in *. set (U := half_hull (rev (sort_pts pts))) in *. clearbody L U.
    destruct (hf_ends _ _ _ HL) as (x & y & Lx & Ly & LE). destruct (hf_ends _ _ _ HU) as (y' & x' & Uy & Ux & UE).
    assert (Px : In x pts). { apply (hf_sub _ _ _ HL). destruct L; [discriminate|]. injection Lx as ->. left; auto. }
    assert (Py : In y pts). { apply (hf_sub _ _ _ HL). rewrite <- Ly. destruct L as [|l0 L]; [discriminate|].
      destruct (@exists_last _ (l0 :: L)) as (m & w & Q); [discriminate|]. rewrite Q, last_last. apply in_or_app. right. left. auto. }
    assert (Py' : In y' pts). { apply (hf_sub _ _ _ HU). destruct U; [discriminate|]. injection Uy as ->. left; auto. }
    assert (Px' : In x' pts). { apply (hf_sub _ _ _ HU). rewrite <- Ux. destruct U as [|l0 U]; [discriminate|].
      destruct (@exists_last _ (l0 :: U)) as (m & w & Q); [discriminate|]. rewrite Q, last_last. apply in_or_app. right. left. auto. }
    assert (EY : y' = y).
    { apply lle_antisym; [apply (LE y' Py')|]. destruct (proj1 (UE y Py)) as [HH| ->]; [left; auto|right; auto]. }
    assert (EX : x' = x).
    { apply lle_antisym; [|apply (LE x' Px')]. destruct (proj2 (UE x Px)) as [HH| ->]; [left; auto|right; auto]. }
    rewrite EX, EY in *. clear Px' Py' EX EY x' y'.
    assert (XY : x = y \/ llt x y). { destruct (proj1 (LE y Py)); auto. }
    destruct XY as [XY|XY].
    - (* all points are the same *)
      rewrite <- XY in *.
      assert (ALL : forall p, In p pts -> p = x).
      { intros p Hp. destruct (LE p Hp) as [A B]. apply lle_antisym; [exact B|exact A]. }
      assert (L1 : L = [x]).
      { apply all_same; [destruct L; discriminate|apply (hf_nodup _ _ _ HL)|]. intros p Hp. apply ALL, (hf_sub _ _ _ HL), Hp. }
      assert (U1 : U = [x]).
      { apply all_same; [destruct U; discriminate|apply (hf_nodup _ _ _ HU)|]. intros p Hp. apply ALL, (hf_sub _ _ _ HU), Hp. }
      rewrite L1, U1. cbn [inner tl removelast app]. constructor.
      + intros p [<-|[]]; auto.
      + constructor; [intros []|constructor].
      + cbn. intros a b [Q|[]] p Hp. injection Q as <- <-. rewrite (ALL p Hp), cross3_aba. lra.
      + cbn. lia.
      + discriminate.
      + intros a Q p Hp. injection Q as <-. auto.
      + discriminate.
    - assert (NXY : x <> y) by (intros ->; apply (llt_irrefl _ XY)).
      destruct (split_ends L x y Lx Ly NXY) as (m & LM).
      destruct (split_ends U y x Uy Ux (not_eq_sym NXY)) as (n & UN).
      assert (IN : inner U = n). { rewrite UN. unfold inner. cbn [tl]. apply removelast_last. }
      rewrite IN. assert (CY : cyclic_edges (L ++ n) = pairs L ++ pairs U) by (rewrite LM, UN; apply cyclic_split).
      assert (NU : forall p, In p n -> In p U) by (intros p Hp; rewrite UN; right; apply in_or_app; auto).
      assert (SH : forall p, In p L -> In p U -> p = x \/ p = y) by (apply (shared pts); auto).
      (* strictness at the two joints *)
      assert (FLAT : forall a z, llt a z -> (forall p, In p pts -> cross3 a z p = 0) -> (length (L ++ n) <= 2)%nat).
      { intros a z Laz C. pose proof (flat_half _ _ _ _ _ HL Laz C) as A. pose proof (flat_half _ _ _ _ _ HU Laz C) as B.
        rewrite LM, UN in *. cbn in *. rewrite !app_length in *. cbn in *. lia. }
      constructor.
      + intros p Hp. apply in_app_or in Hp. destruct Hp as [Hp|Hp]; [apply (hf_sub _ _ _ HL), Hp|apply (hf_sub _ _ _ HU), NU, Hp].
      + assert (NDU : NoDup U) by apply (hf_nodup _ _ _ HU). rewrite UN in NDU. apply NoDup_cons_iff in NDU. destruct NDU as [N1 N2].
        apply NoDup_remove in N2. rewrite app_nil_r in N2. destruct N2 as [N2 N3].
        assert (G : forall k, NoDup k -> NoDup n -> (forall p, In p k -> ~ In p n) -> NoDup (k ++ n)).
        { clear. induction k as [|a k IH]; intros A B C; auto. cbn. apply NoDup_cons_iff in A. constructor.
          - intros H. apply in_app_or in H. destruct H; [tauto|]. apply (C a); [left; auto|auto].
          - apply IH; [tauto|auto|]. intros p Hp. apply C. right; auto. }
        apply G; [apply (hf_nodup _ _ _ HL)|auto|]. intros p HpL Hpn. destruct (SH p HpL (NU p Hpn)) as [-> | ->]; auto.
        apply N1. apply in_or_app. auto.
      + intros a b Q p Hp. rewrite CY in Q. apply in_app_or in Q.
        destruct Q as [Q|Q]; [apply (hf_left _ _ _ HL); auto|apply (hf_left _ _ _ HU); auto].
      + intros Len a b c Q1 Q2. rewrite CY in *. apply in_app_or in Q1. apply in_app_or in Q2.
        destruct Q1 as [Q1|Q1], Q2 as [Q2|Q2].
        * apply (hf_turn _ _ _ HL); auto.
        * (* at the right-most point *)
          pose proof (hf_lt _ _ _ HL _ _ Q1) as La. pose proof (hf_lt _ _ _ HU _ _ Q2) as Lc. cbn beta in Lc.
          apply pairs_in in Q1 as I1. apply pairs_in in Q2 as I2.
          assert (b = y).
          { destruct (SH b) as [-> |]; auto; [tauto|tauto|]. exfalso. apply (llt_irrefl a). eapply llt_le_trans; [exact La|].
            apply (LE a). apply (hf_sub _ _ _ HL). tauto. }
          subst b. destruct (hf_left _ _ _ HL _ _ Q1 c) as [|Z]; auto; [apply (hf_sub _ _ _ HU); tauto|]. exfalso.
          assert (C : forall p, In p pts -> cross3 a y p = 0).
          { apply (joint pts a y c); auto.
            - intros p Hp. apply (LE p Hp).
            - intros p Hp. apply (hf_left _ _ _ HL _ _ Q1 p Hp).
            - intros p Hp. apply (hf_left _ _ _ HU _ _ Q2 p Hp). }
          pose proof (FLAT a y La C). lia.
        * (* at the left-most point *)
          pose proof (hf_lt _ _ _ HU _ _ Q1) as La. pose proof (hf_lt _ _ _ HL _ _ Q2) as Lc. cbn beta in La.
          apply pairs_in in Q1 as I1. apply pairs_in in Q2 as I2.
          assert (b = x).
          { destruct (SH b) as [| ->]; auto; [tauto|tauto|]. exfalso. apply (llt_irrefl y). eapply llt_le_trans; [exact Lc|].
            apply (LE c). apply (hf_sub _ _ _ HL). tauto. }
          subst b. destruct (hf_left _ _ _ HU _ _ Q1 c) as [|Z]; auto; [apply (hf_sub _ _ _ HL); tauto|]. exfalso.
          assert (C : forall p, In p (map pneg pts) -> cross3 (pneg a) (pneg x) p = 0).
          { apply (joint (map pneg pts) (pneg a) (pneg x) (pneg c)); auto.
            - apply (proj2 (neg_llt _ _)). exact La.
            - apply (proj2 (neg_llt _ _)). exact Lc.
            - intros p Hp. apply in_map_iff in Hp. destruct Hp as (q & <- & Hq). apply (proj2 (neg_lle _ _)). apply (LE q Hq).
            - intros p Hp. apply in_map_iff in Hp. destruct Hp as (q & <- & Hq). rewrite neg_cross. apply (hf_left _ _ _ HU _ _ Q1 q Hq).
            - intros p Hp. apply in_map_iff in Hp. destruct Hp as (q & <- & Hq). rewrite neg_cross. apply (hf_left _ _ _ HL _ _ Q2 q Hq).
            - rewrite neg_cross. auto. }
          assert (C' : forall p, In p pts -> cross3 x a p = 0).
          { intros p Hp. specialize (C (pneg p) (in_map _ _ _ Hp)). rewrite neg_cross in C. rewrite <- C. unfold cross3 in *. toR. lra. }
          pose proof (FLAT x a La C'). lia.
        * apply (hf_turn _ _ _ HU); auto.
      + intros a b Q p Hp. rewrite LM in Q. destruct m as [|m0 m].
        2: { apply (f_equal (@length _)) in Q. cbn in Q. rewrite !app_length in Q. cbn in Q. lia. }
        cbn in Q. injection Q as <- <- Hn. subst n. rewrite Hn in *.
        pose proof (hf_left _ _ _ HL x y) as A. rewrite LM in A. specialize (A (or_introl eq_refl) p Hp).
        pose proof (hf_left _ _ _ HU y x) as B. rewrite UN in B. specialize (B (or_introl eq_refl) p Hp).
        apply between_pts; auto; [apply (LE p Hp)|apply (LE p Hp)|]. unfold cross3 in *. toR. lra.
      + intros a Q. exfalso. rewrite LM in Q. apply (f_equal (@length _)) in Q. cbn in Q. rewrite !app_length in Q. cbn in Q. lia.
      + intros Q. rewrite LM in Q. discriminate.
  Qed.
End H.
