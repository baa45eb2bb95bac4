(** * VoronoiExact: Voronoi diagrams computed with exact arithmetic. *)
From Verif Require Import Num NumR Geom GeomSpec GeomProofs Voronoi VoronoiSpec VoronoiProofs VoronoiProofs2 VoronoiProofs3.
From Coq Require Import ZArith QArith Qabs Qround Qreals Reals Lra Lia Bool List.
Import ListNotations.
Local Open Scope R_scope.

(** [N] computes exactly: its numbers are real numbers, and the four operations, the absolute value, the comparisons and
    the literals are those of the real numbers.  (Roots and distances may be approximate.) *)
Record exact (N : NumOps) (val : N -> R) : Prop := {
  x_add a b : val (Num.add a b) = val a + val b;
  x_sub a b : val (Num.sub a b) = val a - val b;
  x_mul a b : val (Num.mul a b) = val a * val b;
  x_div a b : val b <> 0 -> val (Num.div a b) = val a / val b;
  x_abs a : val (Num.abs a) = Rabs (val a);
  x_ltb a b : Num.ltb a b = true <-> val a < val b;
  x_eqb a b : Num.eqb a b = true <-> val a = val b;
  x_lit m e : val (Num.lit m e) = Rlit m e;
  x_int z : val (Num.of_Z z) = IZR z }.
Lemma exact_R : exact ROps (fun x => x).
Proof.
  constructor; try reflexivity; intros.
  - exact (Rltb_true a b).
  - exact (Reqb_true a b).
Qed.

(** rational arithmetic: exact in the sense above; square roots are rounded to nine digits, and what the sweep does not use is left out *)
Definition Qsq (q : Q) : Q := Qred (Qmake (Z.sqrt (Qnum q * 1000000000000000000 / Zpos (Qden q))) 1000000000).
Definition Qlit (m e : Z) : Q :=
  match e with Z0 => inject_Z m | Zpos p => inject_Z (m * Z.pow_pos 10 p) | Zneg p => Qred (inject_Z m / inject_Z (Z.pow_pos 10 p)) end.
Definition Qltb (a b : Q) : bool := negb (Qle_bool b a).
Definition QOps : NumOps := {|
  Num.T := Q; Num.of_Z := inject_Z; Num.lit := Qlit;
  Num.add := fun a b => Qred (a + b); Num.sub := fun a b => Qred (a - b); Num.mul := fun a b => Qred (a * b); Num.div := fun a b => Qred (a / b);
  Num.opp := Qopp; Num.abs := Qabs.Qabs; Num.ltb := Qltb; Num.leb := Qle_bool; Num.eqb := Qeq_bool;
  Num.floor := fun q => inject_Z (Qround.Qfloor q); Num.trunc := fun q => Z.quot (Qnum q) (Zpos (Qden q));
  Num.sqrt := Qsq; Num.hypot := fun a b => Qsq (Qred (a * a + b * b));
  Num.sin := fun _ => 0%Q; Num.cos := fun _ => 0%Q; Num.tan := fun _ => 0%Q; Num.acos := fun _ => 0%Q; Num.atan2 := fun _ _ => 0%Q; Num.pi := 0%Q;
  Num.fmod := fun _ _ => 0%Q; Num.fmt := fun _ _ => DNan |}.
Lemma Q2R_inj z : Q2R (inject_Z z) = IZR z.
Proof. unfold Q2R, inject_Z. cbn. unfold Rdiv. rewrite Rinv_1. ring. Qed.
Lemma Q2R_red q : Q2R (Qred q) = Q2R q.
Proof. apply Qreals.Qeq_eqR. apply Qred_correct. Qed.
Lemma Q2R_neq0 q : Q2R q <> 0 -> ~ (q == 0)%Q.
Proof. intros H K. apply H. rewrite (Qreals.Qeq_eqR _ _ K). unfold Q2R. cbn. ring. Qed.
Lemma exact_Q : exact QOps Q2R.
Proof.
  constructor; cbn [QOps Num.T Num.add Num.sub Num.mul Num.div Num.abs Num.ltb Num.eqb Num.lit Num.of_Z].
  - intros. rewrite Q2R_red. apply Qreals.Q2R_plus.
  - intros. rewrite Q2R_red. apply Qreals.Q2R_minus.
  - intros. rewrite Q2R_red. apply Qreals.Q2R_mult.
  - intros a b H. rewrite Q2R_red. apply Qreals.Q2R_div. now apply Q2R_neq0.
  - intros a. apply Qabs.Qabs_case; intros H; apply Qreals.Qle_Rle in H; replace (Q2R 0) with 0 in H by (unfold Q2R; cbn; ring).
    + rewrite Rabs_pos_eq; lra.
    + rewrite Qreals.Q2R_opp, Rabs_left1; lra.
  - intros a b. unfold Qltb. rewrite negb_true_iff. split; intros H.
    + apply Qreals.Qlt_Rlt. apply Qnot_le_lt. intros K. apply Qle_bool_iff in K. congruence.
    + apply Qreals.Rlt_Qlt in H. destruct (Qle_bool b a) eqn:K; [|reflexivity]. apply Qle_bool_iff in K. exfalso. eapply Qlt_not_le; eauto.
  - intros a b. rewrite Qeq_bool_iff. split; [apply Qreals.Qeq_eqR|apply Qreals.eqR_Qeq].
  - intros m e. unfold Qlit, Rlit. destruct e; [apply Q2R_inj|apply Q2R_inj|]. rewrite Q2R_red, Qreals.Q2R_div, !Q2R_inj; [reflexivity|].
    intros K. apply Qreals.Qeq_eqR in K. rewrite (Q2R_inj (Z.pow_pos 10 p)) in K. change 0%Q with (inject_Z 0) in K. rewrite (Q2R_inj 0) in K. apply eq_IZR in K. assert (0 < Z.pow_pos 10 p)%Z by (apply (Z.pow_pos_nonneg 10 (Zpos p)); lia). lia.
  - intros. apply Q2R_inj.
Qed.

Section Exact.
  Variable N : NumOps.
  Variable val : N -> R.
  Hypothesis X : exact N val.
  Definition real (p : pt N) : Pt := P (val (px p)) (val (py p)) : Pt.
  Ltac inv_bind H := let a := fresh "x" in let E := fresh "E" in apply bind_ok in H; destruct H as (a & E & H).

  Lemma div_exact (a b q : N) : pydiv a b = Ok q -> val b <> 0 /\ val q = val a / val b.
  Proof.
    unfold pydiv. destruct (Num.eqb b _) eqn:E; [discriminate|]. intros [= <-].
    assert (val b <> 0). { intros K. assert (Num.eqb b (Num.of_Z 0) = true) by (apply (x_eqb _ _ X); now rewrite (x_int _ _ X)). congruence. }
    split; [assumption|]. now apply (x_div _ _ X).
  Qed.
  Lemma ltb_false (a b : N) : Num.ltb a b = false -> val b <= val a.
  Proof. intros H. apply Rnot_lt_le. intros K. apply (x_ltb _ _ X) in K. congruence. Qed.
  Lemma euclid_sq_eq (z p q : Pt) : euclid z p = euclid z q <-> (px z - px p)² + (py z - py p)² = (px z - px q)² + (py z - py q)².
  Proof.
    unfold euclid. split; intros H; [|now rewrite H]. apply R_sqrt.sqrt_inj in H; auto; apply Rplus_le_le_0_compat; apply Rle_0_sqr.
  Qed.
  (** the line of a new edge is the perpendicular bisector of its two sites, which differ *)
  Lemma new_edge_exact (s1 s2 : vsite N) e : new_edge s1 s2 = Ok e -> exists k, k <> 0 /\
    val (vx s2) - val (vx s1) = k * val (ea e) /\ val (vy s2) - val (vy s1) = k * val (eb e) /\
    k * val (ec e) = val (vx s1) * (k * val (ea e)) + val (vy s1) * (k * val (eb e)) + ((k * val (ea e)) * (k * val (ea e)) + (k * val (eb e)) * (k * val (eb e))) / 2 /\
    (val (ea e) = 1 \/ val (eb e) = 1).
  Proof.
    unfold new_edge. assert (One : val (Num.lit 10 (-1)) = 1) by (rewrite (x_lit _ _ X); unfold Rlit; cbn; lra).
    assert (Half : forall t : N, val (Num.div t (Num.of_Z 2)) = val t / 2).
    { intros t. rewrite (x_div _ _ X); rewrite (x_int _ _ X); [reflexivity|lra]. }
    destruct (Num.ltb _ _) eqn:B; intros H; inv_bind H; inv_bind H; injection H as <-; cbn [ea eb ec];
      apply div_exact in E; apply div_exact in E0; destruct E as (K & E); destruct E0 as (_ & E0); rewrite E, E0, One;
      repeat first [rewrite Half | rewrite (x_add _ _ X) | rewrite (x_mul _ _ X) | rewrite (x_sub _ _ X)]; rewrite (x_sub _ _ X) in K.
    - exists (val (vx s2) - val (vx s1)). split; [exact K|]. split; [ring|]. split; [field; exact K|]. split; [field; exact K|now left].
    - exists (val (vy s2) - val (vy s1)). split; [exact K|]. split; [field; exact K|]. split; [ring|]. split; [field; exact K|now right].
  Qed.
  Lemma bisector_exact (s1 s2 : vsite N) e : new_edge s1 s2 = Ok e ->
    real (site_pt s1) <> real (site_pt s2) /\ (forall z : Pt, val (ea e) * px z + val (eb e) * py z = val (ec e) <-> euclid z (real (site_pt s1)) = euclid z (real (site_pt s2))).
  Proof.
    intros H. destruct (new_edge_exact _ _ _ H) as (k & K & A & B & C & D). unfold real, site_pt. cbn [px py]. split.
    - intros Q. injection Q as Q1 Q2. assert (Z1 : k * val (ea e) = 0) by lra. assert (Z2 : k * val (eb e) = 0) by lra. destruct D as [D|D]; rewrite D in *; lra.
    - intros z. rewrite euclid_sq_eq. cbn [px py]. unfold Rsqr.
      replace (val (vx s2)) with (val (vx s1) + k * val (ea e)) by lra. replace (val (vy s2)) with (val (vy s1) + k * val (eb e)) by lra.
      set (x1 := val (vx s1)) in *. set (y1 := val (vy s1)) in *. set (a := val (ea e)) in *. set (b := val (eb e)) in *. set (c := val (ec e)) in *.
      change (T ROps) with R in *. clearbody x1 y1 a b c. clear - K C. split; intros Q.
      + assert (Q2 : k * (a * px z + b * py z) = k * c) by (now rewrite Q). nra.
      + apply Rmult_eq_reg_l with k; [|exact K]. nra.
  Qed.
  Lemma vfeq_zero (a : N) : val a = 0 -> vfeq a (Num.lit 0 0) = true.
  Proof.
    intros Z. unfold vfeq. apply orb_true_iff. left. apply (x_ltb _ _ X).
    assert (val (pymax (Num.abs a) (Num.abs (Num.lit 0 0))) = 0).
    { unfold pymax. destruct (Num.ltb _ _); rewrite (x_abs _ _ X); [rewrite (x_lit _ _ X); unfold Rlit; apply Rabs_R0|rewrite Z; apply Rabs_R0]. }
    rewrite H. unfold veps. rewrite (x_lit _ _ X). unfold Rlit. cbn. lra.
  Qed.
  Lemma crossed_exact c D E H ch p : cinv (N:=N) c D E H ch -> crossed E p -> exists a b d : vsite N, In a D /\ In b D /\ In d D /\
    real (site_pt a) <> real (site_pt b) /\ real (site_pt b) <> real (site_pt d) /\ real (site_pt a) <> real (site_pt d) /\
    euclid (real p) (real (site_pt a)) = euclid (real p) (real (site_pt b)) /\ euclid (real p) (real (site_pt b)) = euclid (real p) (real (site_pt d)).
  Proof.
    intros C (k1 & k2 & r1 & r2 & I1 & I2 & M & Cr).
    destruct (i_made _ _ _ _ _ C _ I1) as (e1 & N1 & Q1). destruct (i_made _ _ _ _ _ C _ I2) as (e2 & N2 & Q2).
    destruct (i_sites _ _ _ _ _ C _ I1) as (S11 & S12). destruct (i_sites _ _ _ _ _ C _ I2) as (S21 & S22).
    pose proof (bisector_exact _ _ _ N1) as (D1 & B1). pose proof (bisector_exact _ _ _ N2) as (D2 & B2).
    destruct (new_edge_exact _ _ _ N1) as (u & U & A1 & A2 & _). destruct (new_edge_exact _ _ _ N2) as (w & W & A3 & A4 & _).
    assert (Cr' : crossing (ecore e1) (ecore e2) p) by (rewrite Q1, Q2; exact Cr). clear Cr Q1 Q2. unfold crossing, ecore in Cr'. destruct Cr' as (F & X1 & X2).
    apply div_exact in X1. apply div_exact in X2. destruct X1 as (DN & X1). destruct X2 as (_ & X2).
    rewrite !(x_sub _ _ X), !(x_mul _ _ X) in X1, X2. rewrite !(x_sub _ _ X), !(x_mul _ _ X) in DN.
    assert (L1 : euclid (real p) (real (site_pt (ks1 k1))) = euclid (real p) (real (site_pt (ks2 k1)))).
    { apply B1. unfold real. cbn [px py]. rewrite X1, X2. field. exact DN. }
    assert (L2 : euclid (real p) (real (site_pt (ks1 k2))) = euclid (real p) (real (site_pt (ks2 k2)))).
    { apply B2. unfold real. cbn [px py]. rewrite X1, X2. field. exact DN. }
    assert (ND : real (site_pt (kleft r1 k1)) <> real (site_pt (kright r2 k2))).
    { intros Q. assert (Z : val (Num.sub (Num.mul (ea e1) (eb e2)) (Num.mul (eb e1) (ea e2))) = 0).
      { rewrite !(x_sub _ _ X), !(x_mul _ _ X). unfold real, site_pt in Q. cbn [px py] in Q. injection Q as Qx Qy.
        assert (Mx : val (vx (kright r1 k1)) = val (vx (kleft r2 k2))) by now rewrite M.
        assert (My : val (vy (kright r1 k1)) = val (vy (kleft r2 k2))) by now rewrite M.
        assert (G : (u * val (ea e1)) * (w * val (eb e2)) = (u * val (eb e1)) * (w * val (ea e2))).
        { rewrite <- A1, <- A2, <- A3, <- A4. destruct r1, r2; cbn [kleft kright] in *; change (T ROps) with R in *; rewrite ?Qx, ?Qy, ?Mx, ?My; first [ring | rewrite <- Qx, <- Qy, <- Mx, <- My; ring | rewrite <- Mx, <- My; ring]. }
        apply Rmult_eq_reg_l with (u * w); [|now apply Rmult_integral_contrapositive]. rewrite Rmult_0_r. clear - G. lra. }
      apply vfeq_zero in Z. congruence. }
    exists (kleft r1 k1), (kright r1 k1), (kright r2 k2).
    split; [destruct r1; auto|]. split; [destruct r1; auto|]. split; [destruct r2; auto|].
    split; [destruct r1; cbn; auto|]. split; [rewrite M; destruct r2; cbn; auto|]. split; [exact ND|].
    split; [destruct r1; cbn; auto|]. rewrite M. destruct r2; cbn; auto.
  Qed.
End Exact.
