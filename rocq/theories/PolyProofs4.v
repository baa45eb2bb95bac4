(** * PolyProofs4: the even-odd test decides membership in convex polygons. *)
From Verif Require Import Num NumR Geom GeomR GeomSpec GeomProofs GeomProofs2 GeomProofs4 GeomProofs5 Polygon PolySpec BezierProofs PolyProofs PolyProofs3.
From Coq Require Import ZArith Reals Lra Lia Bool List Psatz Permutation.
Import ListNotations.
Local Open Scope R_scope.

(** ** edges of a closed polygon *)
Lemma edge_in (h : list Pt) a b : In (a, b) (cyclic_edges h) -> In a h /\ In b h.
Proof.
  destruct h as [|p r]; [intros []|]. cbn [cyclic_edges]. intros H. split; [apply in_combine_l in H; exact H|].
  apply in_combine_r in H. apply in_app_iff in H. destruct H as [H|[H|[]]]; [right; auto|left; auto].
Qed.
Lemma combine_in_l {A B} (l : list A) : forall (m : list B) a, length l = length m -> In a l -> exists b, In (a, b) (combine l m).
Proof.
  induction l as [|x l IH]; intros [|y m] a L H; try discriminate; [destruct H|]. destruct H as [<-|H].
  - exists y. left. reflexivity.
  - destruct (IH m a) as (b & Hb); auto. exists b. right. exact Hb.
Qed.
Lemma combine_in_r {A B} (l : list A) : forall (m : list B) b, length l = length m -> In b m -> exists a, In (a, b) (combine l m).
Proof.
  induction l as [|x l IH]; intros [|y m] b L H; try discriminate; [destruct H|]. destruct H as [<-|H].
  - exists x. left. reflexivity.
  - destruct (IH m b) as (a & Ha); auto. exists a. right. exact Ha.
Qed.
Lemma edge_out (h : list Pt) a : In a h -> exists b, In (a, b) (cyclic_edges h).
Proof.
  destruct h as [|p r]; [intros []|]. intros H. cbn [cyclic_edges]. apply combine_in_l; auto. rewrite app_length. cbn. lia.
Qed.
Lemma edge_into (h : list Pt) b : In b h -> exists a, In (a, b) (cyclic_edges h).
Proof.
  destruct h as [|p r]; [intros []|]. intros H. cbn [cyclic_edges]. apply combine_in_r; [rewrite app_length; cbn; lia|].
  apply in_app_iff. destruct H as [<-|H]; [right; left; auto|left; auto].
Qed.
Lemma combine_fun {A B} (l : list A) : forall (m : list B), NoDup l -> forall a b d, In (a, b) (combine l m) -> In (a, d) (combine l m) -> b = d.
Proof.
  induction l as [|x l IH]; intros [|y m] N a b d H1 H2; try destruct H1. 
  - inversion_clear N as [|? ? N1 N2]. injection H as -> ->. destruct H2 as [H2|H2]; [congruence|].
    apply in_combine_l in H2. contradiction.
  - inversion_clear N as [|? ? N1 N2]. destruct H2 as [H2|H2]; [|eauto]. injection H2 as -> ->. apply in_combine_l in H. contradiction.
Qed.
Lemma combine_nodup {A B} (l : list A) : forall (m : list B), NoDup l -> NoDup (combine l m).
Proof.
  induction l as [|x l IH]; intros [|y m] N; cbn; try constructor; inversion_clear N as [|? ? N1 N2]; auto.
  intros H. apply in_combine_l in H. contradiction.
Qed.
Lemma edge_fun (h : list Pt) a b d : NoDup h -> In (a, b) (cyclic_edges h) -> In (a, d) (cyclic_edges h) -> b = d.
Proof. destruct h as [|p r]; [intros _ []|]. cbn [cyclic_edges]. intros N. apply combine_fun; auto. Qed.
Lemma edges_nodup (h : list Pt) : NoDup h -> NoDup (cyclic_edges h).
Proof. destruct h as [|p r]; [constructor|]. cbn [cyclic_edges]. apply combine_nodup. Qed.
Lemma highest (h : list Pt) : h <> [] -> exists m, In m h /\ forall v, In v h -> py v <= py m.
Proof.
  induction h as [|a [|b h] IH]; intros N; [congruence| |].
  - exists a. split; [left; auto|]. intros v [->|[]]. apply Rle_refl.
  - destruct IH as (m & Im & Hm); [discriminate|]. destruct (Rle_lt_dec (py a) (py m)).
    + exists m. split; [right; auto|]. intros v [->|Hv]; auto.
    + exists a. split; [left; auto|]. intros v [->|Hv]; [apply Rle_refl|]. apply Hm in Hv. change (T ROps) with R in *. lra.
Qed.
Lemma lowest (h : list Pt) : h <> [] -> exists m, In m h /\ forall v, In v h -> py m <= py v.
Proof.
  induction h as [|a [|b h] IH]; intros N; [congruence| |].
  - exists a. split; [left; auto|]. intros v [->|[]]. apply Rle_refl.
  - destruct IH as (m & Im & Hm); [discriminate|]. destruct (Rle_lt_dec (py m) (py a)).
    + exists m. split; [right; auto|]. intros v [->|Hv]; auto.
    + exists a. split; [left; auto|]. intros v [->|Hv]; [apply Rle_refl|]. apply Hm in Hv. change (T ROps) with R in *. lra.
Qed.

(** ** one edge and one horizontal ray *)
Definition up (y : R) (e : Pt * Pt) : Prop := py (fst e) <= y < py (snd e).
Definition down (y : R) (e : Pt * Pt) : Prop := py (snd e) <= y < py (fst e).
Definition upb (y : R) (e : Pt * Pt) : bool := Rleb (py (fst e)) y && Rltb y (py (snd e)).
Definition downb (y : R) (e : Pt * Pt) : bool := Rleb (py (snd e)) y && Rltb y (py (fst e)).
Lemma upb_iff y e : upb y e = true <-> up y e.
Proof. unfold upb, up. rewrite andb_true_iff, Rleb_true, Rltb_true. tauto. Qed.
Lemma downb_iff y e : downb y e = true <-> down y e.
Proof. unfold downb, down. rewrite andb_true_iff, Rleb_true, Rltb_true. tauto. Qed.
(** the abscissa at which the line a b has ordinate y *)
Definition xat (a b : Pt) (y : R) : R := px a + (y - py a) / (py b - py a) * (px b - px a).
Lemma cross3_xat (a b : Pt) x y : py b - py a <> 0 -> cross3 a b (P x y : Pt) = (py b - py a) * (xat a b y - x).
Proof. intros H. unfold cross3, xat. cbn [px py]. change (T ROps) with R in *. field. auto. Qed.
Lemma cross3_affine (a b c d : Pt) y : py d - py c <> 0 ->
  cross3 a b (P (xat c d y) y : Pt) = (1 - (y - py c) / (py d - py c)) * cross3 a b c + (y - py c) / (py d - py c) * cross3 a b d.
Proof. intros H. unfold cross3, xat. cbn [px py]. change (T ROps) with R in *. field. auto. Qed.
Lemma ratio_up (a b y : R) : a <= y < b -> 0 <= (y - a) / (b - a) < 1.
Proof.
  intros H. assert (0 < b - a) by lra. split.
  - apply Rmult_le_pos; [lra|]. left. apply Rinv_0_lt_compat. lra.
  - apply Rmult_lt_reg_r with (b - a); auto. unfold Rdiv. rewrite Rmult_assoc, Rinv_l by lra. lra.
Qed.
Lemma ratio_down (a b y : R) : b <= y < a -> 0 < (y - a) / (b - a) <= 1.
Proof.
  intros H. replace ((y - a) / (b - a)) with (1 - (y - b) / (a - b)) by (field; lra). pose proof (ratio_up b a y H). lra.
Qed.
Lemma xat_sound (a b : Pt) (y : R) : up y (a, b) \/ down y (a, b) ->
  exists v, 0 <= v <= 1 /\ (forall c d, cross3 c d (P (xat a b y) y : Pt) = (1 - v) * cross3 c d a + v * cross3 c d b).
Proof.
  intros H. exists ((y - py a) / (py b - py a)). change (T ROps) with R in *. split.
  - unfold up, down in H. cbn [fst snd] in H. change (T ROps) with R in *. destruct H as [H|H]; [pose proof (ratio_up _ _ _ H)|pose proof (ratio_down _ _ _ H)]; change (T ROps) with R in *; lra.
  - intros c d. apply cross3_affine. unfold up, down in H. cbn [fst snd] in H. change (T ROps) with R in *. lra.
Qed.
Lemma crosses_up (p a b : Pt) : up (py p) (a, b) -> (crosses p a b = true <-> px p < xat a b (py p)).
Proof.
  intros H. unfold up in H. cbn [fst snd] in H. unfold crosses. change (T ROps) with R in *.
  replace (Rltb (py p) (py b)) with true by (symmetry; rbool; lra).
  replace (Rltb (py p) (py a)) with false by (symmetry; rbool; lra). cbn [Bool.eqb negb andb]. rewrite Rltb_true. unfold xat.
  replace ((px a - px b) * (py p - py b) / (py a - py b) + px b) with (px a + (py p - py a) / (py b - py a) * (px b - px a)) by (field; lra).
  tauto.
Qed.
Lemma crosses_down (p a b : Pt) : down (py p) (a, b) -> (crosses p a b = true <-> px p < xat a b (py p)).
Proof.
  intros H. unfold down in H. cbn [fst snd] in H. unfold crosses. change (T ROps) with R in *.
  replace (Rltb (py p) (py b)) with false by (symmetry; rbool; lra).
  replace (Rltb (py p) (py a)) with true by (symmetry; rbool; lra). cbn [Bool.eqb negb andb]. rewrite Rltb_true. unfold xat.
  replace ((px a - px b) * (py p - py b) / (py a - py b) + px b) with (px a + (py p - py a) / (py b - py a) * (px b - px a)) by (field; lra).
  tauto.
Qed.
Lemma crosses_neither (p a b : Pt) : upb (py p) (a, b) = false -> downb (py p) (a, b) = false -> crosses p a b = false.
Proof.
  unfold upb, downb, crosses. cbn [fst snd]. change (T ROps) with R in *. intros A B.
  destruct (Rltb (py p) (py b)) eqn:C, (Rltb (py p) (py a)) eqn:D; try reflexivity; exfalso; rbool.
  - apply andb_false_iff in A as [A|A]; rbool; lra.
  - apply andb_false_iff in B as [B|B]; rbool; lra.
Qed.
Lemma up_not_down y e : upb y e = true -> downb y e = false.
Proof.
  rewrite upb_iff. unfold up, downb. change (T ROps) with R in *. intros H. apply andb_false_iff. left. rbool. lra.
Qed.

(** ** counting *)
Lemma filter_split {A} (f u d : A -> bool) l : (forall x, u x = true -> d x = false) -> (forall x, u x = false -> d x = false -> f x = false) ->
  length (filter f l) = (length (filter f (filter u l)) + length (filter f (filter d l)))%nat.
Proof.
  intros H1 H2. induction l as [|x l IH]; [reflexivity|]. cbn [filter].
  destruct (u x) eqn:U.
  - rewrite (H1 x U). cbn [filter]. destruct (f x); cbn [length]; rewrite IH; lia.
  - destruct (d x) eqn:D; cbn [filter].
    + destruct (f x); cbn [length]; rewrite IH; lia.
    + rewrite (H2 x U D). exact IH.
Qed.
Lemma length_filter_sum {A} (f : A -> bool) l : INR (length (filter f l)) = sum_over (fun x => if f x then 1 else 0) l.
Proof. induction l as [|x l IH]; [reflexivity|]. unfold sum_over in *. cbn [filter fold_right]. destruct (f x); [|lra]. cbn [length]. rewrite S_INR. lra. Qed.
Lemma up_down_count (h : list Pt) y : length (filter (upb y) (cyclic_edges h)) = length (filter (downb y) (cyclic_edges h)).
Proof.
  apply INR_eq. rewrite !length_filter_sum.
  pose proof (telescope (fun p => if Rltb y (py p) then 1 else 0) h) as S.
  rewrite (sum_ext _ (fun e => (if upb y e then 1 else 0) + -1 * (if downb y e then 1 else 0))) in S.
  - rewrite PolyProofs.sum_plus, sum_scal in S. lra.
  - intros [a b] _. unfold upb, downb. cbn [fst snd]. change (T ROps) with R in *.
    destruct (Rltb y (py b)) eqn:B, (Rltb y (py a)) eqn:A; rewrite ?andb_false_r, ?andb_true_r; rbool.
    + replace (Rleb (py a) y) with false by (symmetry; rbool; lra). replace (Rleb (py b) y) with false by (symmetry; rbool; lra). lra.
    + replace (Rleb (py a) y) with true by (symmetry; rbool; lra). lra.
    + replace (Rleb (py b) y) with true by (symmetry; rbool; lra). lra.
    + lra.
Qed.
Lemma nodup_one {A} (l : list A) : NoDup l -> (forall x y, In x l -> In y l -> x = y) -> (length l <= 1)%nat.
Proof.
  intros N H. destruct l as [|x [|y l]]; cbn; try lia. exfalso. inversion_clear N as [|? ? N1 _]. apply N1.
  rewrite (H x y); [left|left|right; left]; reflexivity.
Qed.

Section Convex.
  Variable h : list Pt.
  Hypothesis C : convex_ccw h.

  Lemma hull_up_le a b c d y : In (a, b) (cyclic_edges h) -> In (c, d) (cyclic_edges h) ->
    up y (a, b) -> up y (c, d) \/ down y (c, d) -> xat c d y <= xat a b y.
  Proof.
    intros E1 E2 U1 U2. destruct (xat_sound c d y U2) as (v & V & S). specialize (S a b).
    pose proof (edge_in _ _ _ E2) as [Ic Id]. pose proof (cc_left h C a b E1 c Ic) as L1. pose proof (cc_left h C a b E1 d Id) as L2.
    unfold up in U1. cbn [fst snd] in U1. change (T ROps) with R in *. rewrite cross3_xat in S by (change (T ROps) with R; lra). change (T ROps) with R in *.
    assert (0 <= (py b - py a) * (xat a b y - xat c d y)).
    { rewrite S. apply Rplus_le_le_0_compat; apply Rmult_le_pos; lra. }
    destruct (Rle_lt_dec (xat c d y) (xat a b y)) as [|N]; auto.
    assert (0 < (py b - py a) * (xat c d y - xat a b y)) by (apply Rmult_lt_0_compat; lra). lra.
  Qed.
  Lemma up_lower a b c d y : In (a, b) (cyclic_edges h) -> In (c, d) (cyclic_edges h) ->
    up y (a, b) -> up y (c, d) -> cross3 a b c = 0.
  Proof.
    intros E1 E2 U1 U2. pose proof (hull_up_le a b c d y E1 E2 U1 (or_introl U2)) as L1. pose proof (hull_up_le c d a b y E2 E1 U2 (or_introl U1)) as L2.
    assert (E : xat c d y = xat a b y) by lra. unfold up in *. cbn [fst snd] in *. change (T ROps) with R in *.
    pose proof (cross3_affine a b c d y) as S. change (T ROps) with R in *. rewrite cross3_xat in S by (change (T ROps) with R; lra). 
    specialize (S ltac:(lra)). rewrite E in S. change (T ROps) with R in *. replace (xat a b y - xat a b y) with 0 in S by lra. rewrite Rmult_0_r in S.
    pose proof (edge_in _ _ _ E2) as [Ic Id]. pose proof (cc_left h C a b E1 c Ic) as K1. pose proof (cc_left h C a b E1 d Id) as K2.
    pose proof (ratio_up _ _ _ U2) as V. set (v := (y - py c) / (py d - py c)) in *. 
    assert (0 <= v * cross3 a b d) by (apply Rmult_le_pos; lra).
    destruct (Rle_lt_or_eq_dec _ _ K1) as [K|K]; auto. 
    assert (0 < (1 - v) * cross3 a b c) by (apply Rmult_lt_0_compat; lra). lra.
  Qed.
  Lemma up_same_below a b c d y : In (a, b) (cyclic_edges h) -> In (c, d) (cyclic_edges h) ->
    up y (a, b) -> up y (c, d) -> py a <= py c -> (a, b) = (c, d).
  Proof.
    intros E1 E2 U1 U2 L. pose proof (up_lower a b c d y E1 E2 U1 U2) as Z1. pose proof (up_lower c d a b y E2 E1 U2 U1) as Z2.
    pose proof (edge_in _ _ _ E1) as [Ia Ib]. pose proof (edge_in _ _ _ E2) as [Ic Id].
    unfold up in *. cbn [fst snd] in *.
    assert (a = c \/ py a < py c) as [->|L'].
    { destruct (Rle_lt_or_eq_dec _ _ L) as [|Q]; [right; auto|left]. unfold cross3 in Z1. apply pt_ext; [|exact Q].
      change (T ROps) with R in *. rewrite Q in *. assert (K : (py b - py c) * (px c - px a) = 0) by lra. apply Rmult_integral in K.
      change (@eq R (px a) (px c)). destruct K; lra. }
    - f_equal. apply (edge_fun h c); auto. apply (cc_distinct h C).
    - exfalso. destruct (edge_into h c Ic) as (z & Ez). pose proof (cc_turn h C z c d Ez E2) as S.
      pose proof (cc_left h C z c Ez a Ia) as A. pose proof (cc_left h C z c Ez b Ib) as B.
      unfold cross3 in *. destruct a as [ax ay], b as [bx by_], c as [cx cy], d as [dx dy], z as [zx zy]. cbn [px py] in *.
      change (T ROps) with R in *.
      set (t := (cy - ay) / (by_ - ay)). assert (T1 : cy - ay = t * (by_ - ay)) by (unfold t; field; lra).
      assert (T2 : cx - ax = t * (bx - ax)).
      { apply Rmult_eq_reg_l with (by_ - ay); [|lra]. replace ((by_ - ay) * (t * (bx - ax))) with ((cy - ay) * (bx - ax)) by (rewrite T1; ring). lra. }
      assert (T3 : 0 < t < 1).
      { split; [apply Rdiv_lt_0_compat; lra|]. apply Rmult_lt_reg_r with (by_ - ay); [lra|]. rewrite <- T1. lra. }
      set (f := (cx - zx) * (ay - zy) - (cy - zy) * (ax - zx)) in *. set (g := (cx - zx) * (by_ - zy) - (cy - zy) * (bx - zx)) in *.
      assert (FG : (1 - t) * f + t * g = 0).
      { assert (CX : cx = ax + t * (bx - ax)) by lra. assert (CY : cy = ay + t * (by_ - ay)) by lra. unfold f, g. rewrite CX, CY. ring. }
      assert (F0 : f = 0).
      { destruct (Rle_lt_or_eq_dec _ _ A) as [K|K]; [|lra]. assert (0 < (1 - t) * f) by (apply Rmult_lt_0_compat; lra).
        assert (0 <= t * g) by (apply Rmult_le_pos; lra). lra. }
      (* all of z, d lie on the line through c and a *)
      assert (K1 : (cx - zx) * (ay - cy) = (cy - zy) * (ax - cx)) by (unfold f in F0; lra).
      assert (K2 : (dx - cx) * (ay - cy) = (dy - cy) * (ax - cx)) by lra.
      assert (S' : 0 < (cx - zx) * (dy - cy) - (cy - zy) * (dx - cx)) by lra.
      assert (ZZ : ((cx - zx) * (dy - cy) - (cy - zy) * (dx - cx)) * (ay - cy) = 0).
      { replace (((cx - zx) * (dy - cy) - (cy - zy) * (dx - cx)) * (ay - cy)) with ((cx - zx) * (ay - cy) * (dy - cy) - (cy - zy) * ((dx - cx) * (ay - cy))) by ring.
        rewrite K1, K2. ring. }
      apply Rmult_integral in ZZ. destruct ZZ; lra.
  Qed.
  Lemma up_count y : (length (filter (upb y) (cyclic_edges h)) <= 1)%nat.
  Proof.
    apply nodup_one; [apply NoDup_filter, edges_nodup, (cc_distinct h C)|].
    intros [a b] [c d] H1 H2. apply filter_In in H1 as [H1 U1]. apply filter_In in H2 as [H2 U2]. apply upb_iff in U1, U2.
    destruct (Rle_lt_dec (py a) (py c)) as [L|L]; [apply (up_same_below a b c d y); auto|symmetry; apply (up_same_below c d a b y); auto].
    left. exact L.
  Qed.
  Lemma spans : forall y, (exists v, In v h /\ py v <= y) -> (exists w, In w h /\ y < py w) -> filter (upb y) (cyclic_edges h) <> [].
  Proof.
    intros y (v & Iv & Hv) (w & Iw & Hw) Z.
    assert (Z' : filter (downb y) (cyclic_edges h) = []).
    { pose proof (up_down_count h y) as K. rewrite Z in K. destruct (filter (downb y) (cyclic_edges h)); [auto|discriminate]. }
    assert (K : forall a b, In (a, b) (cyclic_edges h) -> Rltb y (py a) = Rltb y (py b)).
    { intros a b E. assert (U : upb y (a, b) = false).
      { destruct (upb y (a, b)) eqn:U; auto. exfalso. assert (In (a, b) []) as [] by (rewrite <- Z; apply filter_In; auto). }
      assert (D : downb y (a, b) = false).
      { destruct (downb y (a, b)) eqn:D; auto. exfalso. assert (In (a, b) []) as [] by (rewrite <- Z'; apply filter_In; auto). }
      unfold upb, downb in *. cbn [fst snd] in *. change (T ROps) with R in *.
      destruct (Rltb y (py a)) eqn:A, (Rltb y (py b)) eqn:B; auto; exfalso; rewrite ?andb_true_r in *; rbool; lra. }
    assert (G : forall u, In u h -> Rltb y (py u) = Rltb y (py (hd u h))).
    { clear - K. destruct h as [|a r]; [intros u []|]. cbn [hd]. rewrite cyclic_as in K.
      assert (G : forall r a, (forall x b, In (x, b) (consecutive (a :: r)) -> Rltb y (py x) = Rltb y (py b)) -> forall u, In u (a :: r) -> Rltb y (py u) = Rltb y (py a)).
      { clear. induction r as [|b r IH]; intros a K u H; [destruct H as [->|[]]; auto|]. destruct H as [->|H]; auto. rewrite (IH b) by (auto; intros; apply K; right; auto).
        symmetry. apply K. left. reflexivity. }
      intros u Hu. apply (G (r ++ [a]) a K). cbn. destruct Hu; auto. right. apply in_app_iff. auto. }
    pose proof (G v Iv) as G1. pose proof (G w Iw) as G2. assert (hd v h = hd w h) as Q by (destruct h; [destruct Iv|reflexivity]).
    rewrite Q in G1. rewrite <- G2 in G1. change (T ROps) with R in *.
    replace (Rltb y (py w)) with true in G1 by (symmetry; rbool; lra). rbool. lra.
  Qed.
  Lemma h_ne : h <> [].
  Proof. intros Z. pose proof (cc_size h C) as S. rewrite Z in S. cbn in S. lia. Qed.

  Lemma three_vectors (ux uy vx vy wx wy : R) : 0 < ux * vy - uy * vx -> 0 < ux * wy - uy * wx -> 0 < vx * wy - vy * wx ->
    (0 <= uy /\ vy <= 0 -> wy < 0) /\ (uy <= 0 /\ 0 <= vy -> 0 < wy).
  Proof.
    intros UV UW VW.
    (* w * (u x v) = - (v x w) u + (u x w) v *)
    assert (K : wy * (ux * vy - uy * vx) = - (vx * wy - vy * wx) * uy + (ux * wy - uy * wx) * vy) by ring.
    set (A := ux * vy - uy * vx) in *. set (B := ux * wy - uy * wx) in *. set (D := vx * wy - vy * wx) in *.
    split; intros [H1 H2].
    - assert (P1 : 0 <= D * uy) by (apply Rmult_le_pos; lra). assert (P2 : 0 <= B * - vy) by (apply Rmult_le_pos; lra).
      destruct (Rlt_le_dec wy 0) as [|N]; auto. exfalso. assert (P3 : 0 <= wy * A) by (apply Rmult_le_pos; lra).
      assert (Z1 : D * uy = 0) by lra. assert (Z2 : B * vy = 0) by lra.
      apply Rmult_integral in Z1, Z2. assert (uy = 0) by (destruct Z1; lra). assert (vy = 0) by (destruct Z2; lra).
      unfold A in UV. subst uy vy. lra.
    - assert (P1 : 0 <= D * - uy) by (apply Rmult_le_pos; lra). assert (P2 : 0 <= B * vy) by (apply Rmult_le_pos; lra).
      destruct (Rlt_le_dec 0 wy) as [|N]; auto. exfalso. assert (P3 : 0 <= - wy * A) by (apply Rmult_le_pos; lra).
      assert (Z1 : D * uy = 0) by lra. assert (Z2 : B * vy = 0) by lra.
      apply Rmult_integral in Z1, Z2. assert (uy = 0) by (destruct Z1; lra). assert (vy = 0) by (destruct Z2; lra).
      unfold A in UV. subst uy vy. lra.
  Qed.

  Theorem inside_complete p : (forall a b, In (a, b) (cyclic_edges h) -> 0 < cross3 a b p) -> poly_inside h p = true.
  Proof.
    intros H. rewrite inside_parity.
    rewrite (filter_split _ (upb (py p)) (downb (py p))); [|intros [a b]; apply up_not_down|intros [a b]; apply crosses_neither].
    assert (NE : filter (upb (py p)) (cyclic_edges h) <> []).
    { apply spans.
      - destruct (lowest h h_ne) as (m & Im & Hm). exists m. split; auto.
        destruct (edge_into h m Im) as (z & Ez). destruct (edge_out h m Im) as (d & Ed).
        pose proof (H z m Ez) as A. pose proof (H m d Ed) as B. pose proof (cc_turn h C z m d Ez Ed) as D.
        pose proof (Hm z (proj1 (edge_in _ _ _ Ez))) as L1. pose proof (Hm d (proj2 (edge_in _ _ _ Ed))) as L2.
        unfold cross3 in *. change (T ROps) with R in *.
        destruct (three_vectors (px m - px z) (py m - py z) (px d - px m) (py d - py m) (px p - px m) (py p - py m)) as [_ K]; lra.
      - destruct (highest h h_ne) as (m & Im & Hm). exists m. split; auto.
        destruct (edge_into h m Im) as (z & Ez). destruct (edge_out h m Im) as (d & Ed).
        pose proof (H z m Ez) as A. pose proof (H m d Ed) as B. pose proof (cc_turn h C z m d Ez Ed) as D.
        pose proof (Hm z (proj1 (edge_in _ _ _ Ez))) as L1. pose proof (Hm d (proj2 (edge_in _ _ _ Ed))) as L2.
        unfold cross3 in *. change (T ROps) with R in *.
        destruct (three_vectors (px m - px z) (py m - py z) (px d - px m) (py d - py m) (px p - px m) (py p - py m)) as [K _]; lra. }
    pose proof (up_count (py p)) as U1. pose proof (up_down_count h (py p)) as UD.
    assert (IU : forall e, In e (filter (upb (py p)) (cyclic_edges h)) -> In e (cyclic_edges h) /\ up (py p) e).
    { intros e He. apply filter_In in He as [A B]. apply upb_iff in B. auto. }
    assert (ID : forall e, In e (filter (downb (py p)) (cyclic_edges h)) -> In e (cyclic_edges h) /\ down (py p) e).
    { intros e He. apply filter_In in He as [A B]. apply downb_iff in B. auto. }
    destruct (filter (upb (py p)) (cyclic_edges h)) as [|[a b] [|? ?]]; [congruence| |cbn in U1; lia].
    destruct (filter (downb (py p)) (cyclic_edges h)) as [|[c d] [|? ?]]; [discriminate| |discriminate].
    destruct (IU (a, b) (or_introl eq_refl)) as [E1 W1]. destruct (ID (c, d) (or_introl eq_refl)) as [E2 W2].
    cbn [filter].
    assert (X1 : crosses p a b = true).
    { apply crosses_up; auto. pose proof (H a b E1) as K. destruct p as [x y]. unfold up in W1. cbn [fst snd px py] in *. change (T ROps) with R in *.
      rewrite cross3_xat in K by (change (T ROps) with R; lra). change (T ROps) with R in *.
      destruct (Rlt_le_dec x (xat a b y)) as [|N]; auto. assert (0 <= (py b - py a) * (x - xat a b y)) by (apply Rmult_le_pos; lra). lra. }
    assert (X2 : crosses p c d = false).
    { destruct (crosses p c d) eqn:X2; auto. exfalso. apply crosses_down in X2; auto. pose proof (H c d E2) as K. destruct p as [x y].
      unfold down in W2. cbn [fst snd px py] in *. change (T ROps) with R in *.
      rewrite cross3_xat in K by (change (T ROps) with R; lra). change (T ROps) with R in *.
      assert (0 < (py c - py d) * (xat c d y - x)) by (apply Rmult_lt_0_compat; lra). lra. }
    rewrite X1, X2. reflexivity.
  Qed.
  Theorem inside_sound p : poly_inside h p = true -> forall a b, In (a, b) (cyclic_edges h) -> 0 <= cross3 a b p.
  Proof.
    rewrite inside_parity.
    rewrite (filter_split _ (upb (py p)) (downb (py p))); [|intros [a b]; apply up_not_down|intros [a b]; apply crosses_neither].
    pose proof (up_count (py p)) as U1. pose proof (up_down_count h (py p)) as UD.
    assert (IU : forall e, In e (filter (upb (py p)) (cyclic_edges h)) -> In e (cyclic_edges h) /\ up (py p) e).
    { intros e He. apply filter_In in He as [A B]. apply upb_iff in B. auto. }
    assert (ID : forall e, In e (filter (downb (py p)) (cyclic_edges h)) -> In e (cyclic_edges h) /\ down (py p) e).
    { intros e He. apply filter_In in He as [A B]. apply downb_iff in B. auto. }
    destruct (filter (upb (py p)) (cyclic_edges h)) as [|[a b] [|? ?]]; [|  |cbn in U1; lia].
    { destruct (filter (downb (py p)) (cyclic_edges h)); [|discriminate]. discriminate. }
    destruct (filter (downb (py p)) (cyclic_edges h)) as [|[c d] [|? ?]]; [discriminate| |discriminate].
    destruct (IU (a, b) (or_introl eq_refl)) as [E1 W1]. destruct (ID (c, d) (or_introl eq_refl)) as [E2 W2]. clear IU ID.
    pose proof (hull_up_le a b c d (py p) E1 E2 W1 (or_intror W2)) as LE.
    cbn [filter]. destruct (crosses p a b) eqn:X1, (crosses p c d) eqn:X2; try discriminate.
    - intros _ s t E3. apply crosses_up in X1; auto.
      assert (X3 : xat c d (py p) <= px p).
      { destruct (Rle_lt_dec (xat c d (py p)) (px p)) as [|N]; auto. apply (crosses_down p c d W2) in N. congruence. }
      destruct (xat_sound a b (py p) (or_introl W1)) as (v & V & S). destruct (xat_sound c d (py p) (or_intror W2)) as (v' & V' & S').
      specialize (S s t). specialize (S' s t).
      assert (Q1 : 0 <= cross3 s t (P (xat a b (py p)) (py p) : Pt)).
      { rewrite S. pose proof (edge_in _ _ _ E1) as [Ia Ib]. apply Rplus_le_le_0_compat; apply Rmult_le_pos; try lra; apply (cc_left h C); auto. }
      assert (Q2 : 0 <= cross3 s t (P (xat c d (py p)) (py p) : Pt)).
      { rewrite S'. pose proof (edge_in _ _ _ E2) as [Ia Ib]. apply Rplus_le_le_0_compat; apply Rmult_le_pos; try lra; apply (cc_left h C); auto. }
      clear S S' LE. destruct p as [x y]. cbn [px py] in *. change (T ROps) with R in *. set (l := xat c d y) in *. set (r := xat a b y) in *.
      assert (K : (r - l) * cross3 s t (P x y : Pt) = (r - x) * cross3 s t (P l y : Pt) + (x - l) * cross3 s t (P r y : Pt)).
      { unfold cross3. cbn [px py]. change (T ROps) with R. ring. }
      assert (0 <= (r - l) * cross3 s t (P x y : Pt)) by (rewrite K; apply Rplus_le_le_0_compat; apply Rmult_le_pos; lra).
      apply Rmult_le_reg_l with (r - l); lra.
    - intros _. exfalso. apply crosses_down in X2; auto. assert (X3 : px p < xat a b (py p)) by lra. apply (crosses_up p a b W1) in X3. congruence.
  Qed.
End Convex.
Lemma is_hull_convex pts h : is_hull pts h -> (3 <= length h)%nat -> convex_ccw h.
Proof.
  intros H L. split; auto.
  - apply H.
  - intros a b E v Hv. apply (hull_encloses pts h H a b E). apply (hull_vertices pts h H v Hv).
  - apply (hull_strict pts h H L).
Qed.
