(** * GeomProofs8: distance from a point to an arc. *)
From Verif Require Import Num NumR Geom GeomR GeomSpec GeomSpec2 GeomProofs GeomProofs2 GeomProofs3 GeomProofs4 GeomProofs5.
From Coq Require Import ZArith Reals Lra Lia Bool List Psatz.
Import ListNotations.
Local Open Scope R_scope.

(** [polar c a p sg f]: seen from [c], [p] is turned from [a] by [f], counted in the direction [sg] (1 or -1). *)
Definition polar (c a p : Pt) (sg f : R) : Prop :=
  (px a - px c) * (px p - px c) + (py a - py c) * (py p - py c) = euclid a c * euclid p c * cos f /\
  sg * ((px a - px c) * (py p - py c) - (py a - py c) * (px p - px c)) = euclid a c * euclid p c * sin f.

Lemma euclid_sqr' a b : euclid a b * euclid a b = (px a - px b) * (px a - px b) + (py a - py b) * (py a - py b).
Proof. apply euclid_sqr. Qed.

Lemma polar_turn c a p sg f t : sg * sg = 1 -> polar c a p sg f ->
  euclid p (turned c (sg * t) a) * euclid p (turned c (sg * t) a) =
  euclid p c * euclid p c + euclid a c * euclid a c - 2 * (euclid a c * euclid p c) * cos (t - f).
Proof.
  intros Hs [C S]. rewrite (euclid_sqr' p (turned _ _ _)), (euclid_sqr' p c), (euclid_sqr' a c), cos_minus.
  assert (K : cos (sg * t) = cos t /\ sin (sg * t) = sg * sin t).
  { assert (Q : sg = 1 \/ sg = -1). { assert (Z : (sg - 1) * (sg + 1) = 0) by lra. apply Rmult_integral in Z as [Z|Z]; [left|right]; lra. }
    destruct Q as [-> | ->].
    - rewrite Rmult_1_l. split; [reflexivity|ring].
    - replace (-1 * t) with (- t) by ring. rewrite cos_neg, sin_neg. split; [reflexivity|ring]. }
  destruct K as [K1 K2]. unfold turned. cbn [px py]. rewrite K1, K2.
  transitivity ((px p - px c) * (px p - px c) + (py p - py c) * (py p - py c) + (cos t * cos t + sg * sg * (sin t * sin t)) * ((px a - px c) * (px a - px c) + (py a - py c) * (py a - py c))
    - 2 * (cos t * (euclid a c * euclid p c * cos f) + sin t * (euclid a c * euclid p c * sin f))).
  - rewrite <- C, <- S. ring.
  - rewrite Hs. pose proof (sin2_cos2 t) as Q. unfold Rsqr in Q. replace (cos t * cos t + 1 * (sin t * sin t)) with 1 by lra. ring.
Qed.

Lemma polar_period c a p sg f g : cos f = cos g -> sin f = sin g -> polar c a p sg f -> polar c a p sg g.
Proof. unfold polar. intros -> ->. auto. Qed.

Lemma polar_exists c a p : exists f, f = Ratan2 (cross (psub a c) (psub p c)) (dot (psub a c) (psub p c)) /\ - PI < f <= PI /\ polar c a p 1 f.
Proof.
  eexists. split; [reflexivity|]. split; [apply atan2_range|].
  pose proof (atan2_polar (cross (psub a c) (psub p c)) (dot (psub a c) (psub p c))) as [C S]. rewrite hypot_dc in C, S.
  assert (L : forall q : Pt, (plen (psub q c) : R) = euclid q c).
  { intros q. rewrite euclid_hypot. unfold plen, psub. cbn [px py]. rnum. reflexivity. }
  rewrite !L in C, S. unfold polar. rewrite C, S. unfold dot, cross, psub. cbn [px py]. rnum. split; ring.
Qed.

Lemma polar_flip c a p f : polar c a p 1 f -> polar c a p (-1) (- f).
Proof. intros [C S]. unfold polar. rewrite cos_neg, sin_neg. split; [exact C|]. lra. Qed.

(** Representative in [0, 2 PI). *)
Lemma polar_norm c a p sg f : polar c a p sg f -> exists g, 0 <= g < 2 * PI /\ polar c a p sg g /\ cos f = cos g /\ sin f = sin g.
Proof.
  intros H. pose proof (normalize_range f PI) as B. pose proof (normalize_congr f PI) as G.
  exists (normalize_angle (N:=ROps) f PI). split; [lra|].
  pose proof (congruent_cos _ _ G) as C. pose proof (congruent_sin _ _ G) as S. split; [|split; congruence].
  eapply polar_period; [| |exact H]; congruence.
Qed.

Lemma near_sqr a b : 0 <= a -> 0 <= b -> a * a <= b * b -> a <= b.
Proof. intros. nra. Qed.

Section D.
  Variables (a : Arc_) (p : Pt) (sg f : R).
  Hypothesis W : wf_arc a.
  Hypothesis Hsg : sg = 1 \/ sg = -1.
  Let s := Rabs (sweep a).
  Hypothesis Hs : sweep a = sg * s.
  Hypothesis Pol : polar (center a) (ap1 a) p sg f.
  Let rho := euclid p (center a).
  Let r := radius a.

  Lemma sg2 : sg * sg = 1. Proof. destruct Hsg as [-> | ->]; lra. Qed.
  Lemma rad : euclid (ap1 a) (center a) = r. Proof. apply W. Qed.
  Lemma rpos : 0 < r. Proof. apply W. Qed.
  Lemma rho0 : 0 <= rho. Proof. apply euclid_pos. Qed.

  Lemma arc_sqr u : euclid p (turned (center a) (u * sweep a) (ap1 a)) * euclid p (turned (center a) (u * sweep a) (ap1 a)) =
    rho * rho + r * r - 2 * (r * rho) * cos (u * s - f).
  Proof.
    rewrite Hs. replace (u * (sg * s)) with (sg * (u * s)) by ring. rewrite (polar_turn _ _ _ _ f _ sg2 Pol), rad. reflexivity.
  Qed.
  Lemma first_sqr : euclid (ap1 a) p * euclid (ap1 a) p = rho * rho + r * r - 2 * (r * rho) * cos f.
  Proof. pose proof (arc_sqr 0) as Q. rewrite Rmult_0_l, turned_0, Rmult_0_l, Rminus_0_l, cos_neg in Q. rewrite (euclid_sym (ap1 a)). exact Q. Qed.
  Lemma last_sqr : euclid (ap2 a) p * euclid (ap2 a) p = rho * rho + r * r - 2 * (r * rho) * cos (s - f).
  Proof.
    pose proof (arc_sqr 1) as Q. rewrite !Rmult_1_l in Q. destruct W as (_ & _ & W3). rewrite (euclid_sym (ap2 a)), W3. exact Q.
  Qed.

  Lemma in_cone : 0 <= f <= s -> nearest a p (Rabs (rho - r)).
  Proof.
    intros Hf. pose proof rho0. pose proof rpos. split.
    - destruct (Req_dec s 0) as [Z|Z].
      + exists (ap1 a). split; [exists 0; split; [lra|]; rewrite Rmult_0_l, turned_0; reflexivity|].
        apply euclid_unique; [apply Rabs_pos|]. rewrite <- (euclid_sqr' p (ap1 a)), (euclid_sym p), first_sqr.
        assert (f = 0) by lra. subst f. rewrite cos_0. unfold Rabs. destruct Rcase_abs; ring.
      + exists (turned (center a) (f / s * sweep a) (ap1 a)). split.
        * exists (f / s). split; [|reflexivity]. assert (0 < s) by (pose proof (Rabs_pos (sweep a)); unfold s in *; lra).
          split; [apply Rmult_le_pos; [lra|left; apply Rinv_0_lt_compat; lra]|].
          apply Rmult_le_reg_r with s; [lra|]. unfold Rdiv. rewrite Rmult_assoc, Rinv_l; lra.
        * apply euclid_unique; [apply Rabs_pos|]. rewrite <- (euclid_sqr' p (turned _ _ _)), arc_sqr.
          replace (f / s * s - f) with 0 by (field; auto). rewrite cos_0. unfold Rabs. destruct Rcase_abs; ring.
    - intros q (u & Hu & ->). apply near_sqr; [apply Rabs_pos|apply euclid_pos|]. rewrite arc_sqr.
      pose proof (COS_bound (u * s - f)) as [_ B]. replace (Rabs (rho - r) * Rabs (rho - r)) with (rho * rho + r * r - 2 * (r * rho)) by (unfold Rabs; destruct Rcase_abs; ring).
      assert (0 <= r * rho) by (apply Rmult_le_pos; lra). nra.
  Qed.

  Lemma off_cone : s <= f <= 2 * PI -> nearest a p (Rmin (euclid (ap1 a) p) (euclid (ap2 a) p)).
  Proof.
    intros Hf. pose proof rho0. pose proof rpos. pose proof (Rabs_pos (sweep a)) as S0. fold s in S0.
    destruct W as (_ & _ & W3). split.
    - unfold Rmin. destruct Rle_dec.
      + exists (ap1 a). split; [exists 0; split; [lra|]; rewrite Rmult_0_l, turned_0; reflexivity|apply euclid_sym].
      + exists (ap2 a). split; [exists 1; split; [lra|]; rewrite Rmult_1_l; exact W3|apply euclid_sym].
    - intros q (u & Hu & ->).
      assert (Rr : 0 <= r * rho) by (apply Rmult_le_pos; lra).
      assert (US : 0 <= u * s <= s) by nra.
      destruct (Rle_dec (f - u * s) PI) as [L|L].
      + assert (K : cos (f - u * s) <= cos (f - s)) by (apply cos_decr_1; lra).
        apply Rle_trans with (euclid (ap2 a) p); [apply Rmin_r|]. apply near_sqr; try apply euclid_pos.
        rewrite last_sqr, arc_sqr. replace (s - f) with (- (f - s)) by ring. replace (u * s - f) with (- (f - u * s)) by ring. rewrite !cos_neg. nra.
      + assert (K : cos (f - u * s) <= cos f) by (apply cos_incr_1; lra).
        apply Rle_trans with (euclid (ap1 a) p); [apply Rmin_l|]. apply near_sqr; try apply euclid_pos.
        rewrite first_sqr, arc_sqr. replace (u * s - f) with (- (f - u * s)) by ring. rewrite cos_neg. nra.
  Qed.
End D.

Lemma nearest_unique a p d e : nearest a p d -> nearest a p e -> d = e.
Proof. intros [(q & Q1 & Q2) A] [(q' & Q1' & Q2') B]. apply A in Q1'. apply B in Q1. lra. Qed.

(** Signs of sines. *)
Lemma sin_nonneg_low f : 0 <= f < 2 * PI -> 0 <= sin f -> f <= PI.
Proof. intros H S. destruct (Rle_dec f PI); auto. assert (sin f < 0) by (apply sin_lt_0; lra). lra. Qed.
Lemma sin_nonpos_high f : 0 <= f < 2 * PI -> sin f <= 0 -> f = 0 \/ PI <= f.
Proof. intros H S. destruct (Rle_dec PI f); auto. destruct (Req_dec f 0); auto. assert (0 < sin f) by (apply sin_gt_0; lra). lra. Qed.

Section Dist.
  Context {E : Epsilon ROps}.
  Hypothesis He : 0 < EPS.
  Variables (a : Arc_) (p : Pt).
  Hypothesis W : wf_arc a.
  Let s := Rabs (sweep a).

  Definition inside_test : res bool :=
    let aa : R := Rabs (sweep a) in
       if feq (aa : ROps) Num.pi then
         let w := which_side (Ln (ap1 a) (ap2 a)) p false in
         Ok ((Z.eqb w 1 && (Num.ltb (sweep a) (Num.of_Z (n:=ROps) 0))) || (Z.eqb w (-1) && (Num.ltb (Num.of_Z (n:=ROps) 0) (sweep a))))
       else if Num.ltb Num.pi (aa : ROps) then
         let phi := ccw_angle2 (center a) (ap1 a) p in
         let phi := if Num.ltb (sweep a) (Num.of_Z (n:=ROps) 0) then Num.sub TAU phi else phi in
         Ok (Num.ltb (Num.of_Z (n:=ROps) 0) (Num.sub (Num.abs (sweep a)) (Num.abs phi)))
       else
         let v1 := psub (ap1 a) (center a) in
         let v2 := psub (ap2 a) (center a) in
         let v3 := psub p (center a) in
         let det := cross v1 v2 in
         if Num.eqb det (Num.of_Z (n:=ROps) 0) then Raise ZeroDivisionError else
         Ok ((Num.leb (Num.of_Z (n:=ROps) 0) (Num.div (cross v1 v3) det)) && (Num.leb (Num.of_Z (n:=ROps) 0) (Num.div (cross v3 v2) det))).
  Lemma adist_test segment : adist a p segment = if Num.ltb (radius a) EPS || peq (ap1 a) (ap2 a) then Ok (pdist (ap1 a) p) else
    rbind inside_test (fun inside => if inside then Ok (Num.abs (Num.sub (pdist (center a) p) (radius a)))
         else if segment then Ok (Num.opp (Num.of_Z (n:=ROps) 1)) else Ok (pymin (pdist (ap1 a) p) (pdist (ap2 a) p))).
  Proof. reflexivity. Qed.

  Definition sgn : R := if Rlt_dec (sweep a) 0 then -1 else 1.
  Lemma sgn_cases : sgn = 1 \/ sgn = -1. Proof. unfold sgn. destruct Rlt_dec; auto. Qed.
  Lemma sgn_sweep : sweep a = sgn * s.
  Proof. unfold sgn, s, Rabs. destruct Rlt_dec, Rcase_abs; lra. Qed.

  Hypothesis S0 : 0 < s < 2 * PI.
  Hypothesis Half : s = PI \/ EPS <= Rabs (s - PI).
  Definition says (b : bool) : Prop :=
    (b = true -> exists f, 0 <= f <= s /\ polar (center a) (ap1 a) p sgn f) /\
    (b = false -> exists f, s <= f <= 2 * PI /\ polar (center a) (ap1 a) p sgn f).

  Lemma pol0 : exists f, 0 <= f < 2 * PI /\ polar (center a) (ap1 a) p sgn f /\ (p = center a -> f = 0).
  Proof.
    destruct (polar_exists (center a) (ap1 a) p) as (f & Hf & Rf & Pf).
    assert (Z : p = center a -> f = 0).
    { intros Hp. rewrite Hp in Hf. rewrite Hf. unfold Ratan2, cross, dot, psub. cbn [px py]. rnum.
      replace ((px (ap1 a) - px (center a)) * (px (center a) - px (center a)) + (py (ap1 a) - py (center a)) * (py (center a) - py (center a))) with 0 by ring.
      replace ((px (ap1 a) - px (center a)) * (py (center a) - py (center a)) - (px (center a) - px (center a)) * (py (ap1 a) - py (center a))) with 0 by ring.
      destruct (Rlt_dec 0 0); [lra|]. destruct (Rlt_dec 0 0); [lra|]. reflexivity. }
    assert (Q : polar (center a) (ap1 a) p sgn (sgn * f)).
    { destruct sgn_cases as [-> | ->]; [rewrite Rmult_1_l; exact Pf|]. replace (-1 * f) with (- f) by ring. apply polar_flip, Pf. }
    destruct (Req_dec f 0) as [F0|F0].
    - exists 0. pose proof PI_RGT_0. split; [lra|]. split; [|auto]. subst f. rewrite F0, Rmult_0_r in Q. exact Q.
    - destruct (polar_norm _ _ _ _ _ Q) as (g & G1 & G2 & _). exists g. split; auto. split; auto. intros Hp. contradiction (F0 (Z Hp)).
  Qed.

  Lemma minor_test : s < PI -> EPS <= PI - s -> exists b, inside_test = Ok b /\ says b.
  Proof.
    intros Sp Ep. destruct pol0 as (f & Rf & Pf & Zf). unfold inside_test.
    assert (F1 : feq (s : ROps) Num.pi = false).
    { unfold feq. rnum. apply Rltb_false. fold s. rewrite <- Rabs_Ropp, Rabs_pos_eq; lra. }
    assert (F2 : Num.ltb Num.pi (s : ROps) = false) by (rnum; apply Rltb_false; lra).
    fold s. rewrite F1, F2. cbv zeta.
    destruct W as (Hr & We & W3). destruct Pf as [Pc Ps]. rewrite We in Pc, Ps.
    set (r := radius a) in *. set (rho := euclid p (center a)) in *.
    assert (R0 : 0 <= rho) by apply euclid_pos.
    set (ux := px (ap1 a) - px (center a)) in *. set (uy := py (ap1 a) - py (center a)) in *.
    set (vx := px p - px (center a)) in *. set (vy := py p - py (center a)) in *.
    assert (UU : ux * ux + uy * uy = r * r). { pose proof (euclid_sqr' (ap1 a) (center a)) as Q. rewrite We in Q. unfold ux, uy. lra. }
    assert (SS : sgn * sin (sweep a) = sin s).
    { rewrite sgn_sweep. destruct sgn_cases as [-> | ->]; [rewrite !Rmult_1_l; auto|]. replace (-1 * s) with (- s) by ring. rewrite sin_neg. lra. }
    assert (CC : cos (sweep a) = cos s).
    { rewrite sgn_sweep. destruct sgn_cases as [-> | ->]; [rewrite !Rmult_1_l; auto|]. replace (-1 * s) with (- s) by ring. apply cos_neg. }
    assert (SP : 0 < sin s) by (apply sin_gt_0; lra).
    assert (G2 : sgn * sgn = 1) by (destruct sgn_cases as [-> | ->]; lra).
    assert (D : (cross (psub (ap1 a) (center a)) (psub (ap2 a) (center a)) : R) = sgn * (r * r * sin s)).
    { rewrite W3. unfold cross, psub, turned. cbn [px py]. rnum. fold ux uy. rewrite <- UU. 
      transitivity ((ux * ux + uy * uy) * sin (sweep a)); [ring|]. rewrite <- SS. transitivity ((sgn * sgn) * ((ux * ux + uy * uy) * sin (sweep a))); [rewrite G2; ring|ring]. }
    assert (X1 : (cross (psub (ap1 a) (center a)) (psub p (center a)) : R) = sgn * (r * rho * sin f)).
    { rewrite <- Ps. unfold cross, psub. cbn [px py]. rnum. fold ux uy vx vy. transitivity ((sgn * sgn) * (ux * vy - vx * uy)); [rewrite G2; ring|ring]. }
    assert (X2 : (cross (psub p (center a)) (psub (ap2 a) (center a)) : R) = sgn * (r * rho * sin (s - f))).
    { rewrite W3, sin_minus. unfold cross, psub, turned. cbn [px py]. rnum. fold ux uy vx vy.
      transitivity (sgn * (sin s * (r * rho * cos f) - cos s * (r * rho * sin f))); [|ring]. rewrite <- Pc, <- Ps, <- SS, <- CC.
      transitivity ((sgn * sgn) * (sin (sweep a) * (ux * vx + uy * vy) - cos (sweep a) * (ux * vy - uy * vx))); [rewrite G2; ring|ring]. }
    assert (DN : 0 < r * r * sin s) by (repeat apply Rmult_lt_0_compat; lra).
    match goal with |- context [Num.eqb ?d (Num.of_Z (n:=ROps) 0)] => assert (DZ : Num.eqb (d : ROps) (Num.of_Z (n:=ROps) 0) = false) end.
    { rnum. apply Reqb_false. rewrite D. destruct sgn_cases as [-> | ->]; lra. }
    rewrite DZ. eexists. split; [reflexivity|].
    assert (Y1 : forall x, sgn * x / (sgn * (r * r * sin s)) = x / (r * r * sin s)).
    { intros x. field. split; [lra|]. destruct sgn_cases as [-> | ->]; lra. }
    assert (YI : 0 < / (r * r * sin s)) by (apply Rinv_0_lt_compat; lra).
    rnum. rewrite D, X1, X2, !Y1. split.
    - intros H. apply andb_true_iff in H as [H1 H2]. rbool.
      destruct (Req_dec rho 0) as [Z|Z].
      + assert (p = center a) by (apply euclid_zero; exact Z). rewrite Zf in * by auto. exists 0. split; [lra|]. unfold polar. fold ux uy vx vy. rewrite We. split; assumption.
      + assert (0 < r * rho) by (apply Rmult_lt_0_compat; lra).
        assert (0 <= sin f). { apply Rmult_le_reg_l with (r * rho); [lra|]. rewrite Rmult_0_r. apply Rmult_le_reg_r with (/ (r * r * sin s)); [lra|]. unfold Rdiv in H1. lra. }
        assert (0 <= sin (s - f)). { apply Rmult_le_reg_l with (r * rho); [lra|]. rewrite Rmult_0_r. apply Rmult_le_reg_r with (/ (r * r * sin s)); [lra|]. unfold Rdiv in H2. lra. }
        assert (f <= PI) by (apply sin_nonneg_low; auto).
        assert (f <= s). { destruct (Rle_dec f s); auto. assert (0 < sin (f - s)) by (apply sin_gt_0; lra). replace (s - f) with (- (f - s)) in * by ring. rewrite sin_neg in *. lra. }
        exists f. split; [lra|]. unfold polar. fold ux uy vx vy. rewrite We. split; assumption.
    - intros H. exists f. split; [|unfold polar; fold ux uy vx vy; rewrite We; split; assumption].
      split; [|lra]. destruct (Rle_dec s f); auto. exfalso.
      assert (0 <= sin f) by (apply sin_ge_0; lra). assert (0 <= sin (s - f)) by (apply sin_ge_0; lra).
      assert (0 <= r * rho) by (apply Rmult_le_pos; lra).
      apply andb_false_iff in H as [H|H]; rbool; [assert (0 <= r * rho * sin f / (r * r * sin s))|assert (0 <= r * rho * sin (s - f) / (r * r * sin s))]; try lra;
        apply Rmult_le_pos; try lra; apply Rmult_le_pos; lra.
  Qed.

  Lemma half_test : s = PI -> exists b, inside_test = Ok b /\ says b.
  Proof.
    intros Sp. destruct pol0 as (f & Rf & Pf & Zf). unfold inside_test.
    assert (F1 : feq (s : ROps) Num.pi = true).
    { unfold feq. rnum. apply Rltb_true. fold s. rewrite Sp, Rminus_diag_eq, Rabs_R0; auto. }
    fold s. rewrite F1. cbv zeta. eexists. split; [reflexivity|].
    destruct W as (Hr & We & W3). pose proof Pf as [Pc Ps]. rewrite We in Pc, Ps.
    set (r := radius a) in *. set (rho := euclid p (center a)) in *.
    assert (R0 : 0 <= rho) by apply euclid_pos.
    assert (CC : cos (sweep a) = -1).
    { rewrite sgn_sweep, Sp. destruct sgn_cases as [-> | ->]; [rewrite !Rmult_1_l; apply cos_PI|]. replace (-1 * PI) with (- PI) by ring. rewrite cos_neg. apply cos_PI. }
    assert (SZ : sin (sweep a) = 0).
    { rewrite sgn_sweep, Sp. destruct sgn_cases as [-> | ->]; [rewrite !Rmult_1_l; apply sin_PI|]. replace (-1 * PI) with (- PI) by ring. rewrite sin_neg, sin_PI. lra. }
    assert (X : (cross (vec (Ln (ap1 a) (ap2 a))) (psub p (p1 (Ln (ap1 a) (ap2 a)))) : R) = -2 * ((px (ap1 a) - px (center a)) * (py p - py (center a)) - (py (ap1 a) - py (center a)) * (px p - px (center a)))).
    { rewrite W3. unfold vec, cross, psub, turned. cbn [px py p1 p2]. rnum. rewrite CC, SZ. ring. }
    unfold which_side. cbn [andb]. rnum. rewrite X.
    set (x := (px (ap1 a) - px (center a)) * (py p - py (center a)) - (py (ap1 a) - py (center a)) * (px p - px (center a))) in *.
    assert (Rr : 0 <= r * rho) by (apply Rmult_le_pos; lra).
    assert (KP : 0 < sgn * x -> 0 < f < PI).
    { intros Q. rewrite Ps in Q. assert (0 < sin f) by nra. assert (f <= PI) by (apply sin_nonneg_low; lra).
      destruct (Req_dec f 0) as [Z|Z]; [rewrite Z, sin_0 in *; lra|]. destruct (Req_dec f PI) as [Z'|Z']; [rewrite Z', sin_PI in *; lra|]. lra. }
    assert (KN : sgn * x < 0 -> PI < f).
    { intros Q. rewrite Ps in Q. assert (sin f < 0) by nra. destruct (sin_nonpos_high f) as [Z|Z]; try lra; [rewrite Z, sin_0 in *; lra|].
      destruct (Req_dec f PI) as [Z'|Z']; [rewrite Z', sin_PI in *; lra|]. lra. }
    assert (KZ : sgn * x = 0 -> f = 0 \/ f = PI).
    { intros Q. rewrite Ps in Q. destruct (Req_dec rho 0) as [Z|Z].
      - left. apply Zf, euclid_zero, Z.
      - assert (0 < r * rho) by (apply Rmult_lt_0_compat; lra). assert (Z' : sin f = 0) by (apply Rmult_integral in Q as [Q|Q]; lra).
        destruct (sin_nonpos_high f) as [Z2|Z2]; try lra; auto. right. pose proof (sin_nonneg_low f). lra. }
    assert (P2 : f = 0 -> polar (center a) (ap1 a) p sgn (2 * PI)).
    { intros Z. eapply polar_period; [| |exact Pf]; rewrite Z; [rewrite cos_0, cos_2PI|rewrite sin_0, sin_2PI]; reflexivity. }
    assert (SG : sgn = 1 /\ 0 < sweep a \/ sgn = -1 /\ sweep a < 0).
    { pose proof sgn_sweep as Q. destruct sgn_cases as [G|G]; rewrite G in *; [left|right]; split; auto; lra. }
    destruct SG as [[G1 G2]|[G1 G2]]; rewrite G1 in *.
    - assert (T1 : Rltb (sweep a) 0 = false) by (apply Rltb_false; lra). assert (T2 : Rltb 0 (sweep a) = true) by (apply Rltb_true; lra).
      rewrite T1, T2, andb_false_r, andb_true_r. cbn [orb]. destruct (Rleb 0 (-2 * x)) eqn:L; rbool; cbn [Z.eqb]; split; try discriminate; intros _.
      + destruct (Req_dec x 0) as [Z|Z]; [destruct (KZ ltac:(lra)) as [Z2|Z2]|].
        * exists (2 * PI). split; [pose proof PI_RGT_0; lra|]. rewrite G1. auto.
        * exists f. split; [lra|]. rewrite G1. exact Pf.
        * exists f. split; [|rewrite G1; exact Pf]. assert (PI < f) by (apply KN; lra). lra.
      + exists f. split; [|rewrite G1; exact Pf]. assert (0 < f < PI) by (apply KP; lra). lra.
    - assert (T1 : Rltb (sweep a) 0 = true) by (apply Rltb_true; lra). assert (T2 : Rltb 0 (sweep a) = false) by (apply Rltb_false; lra).
      rewrite T1, T2, andb_false_r, andb_true_r, orb_false_r. destruct (Rleb 0 (-2 * x)) eqn:L; rbool; cbn [Z.eqb Pos.eqb]; split; try discriminate; intros _.
      + destruct (Req_dec x 0) as [Z|Z]; [destruct (KZ ltac:(lra)) as [Z2|Z2]|].
        * exists f. split; [lra|rewrite G1; exact Pf].
        * exists f. split; [lra|rewrite G1; exact Pf].
        * exists f. split; [|rewrite G1; exact Pf]. assert (0 < f < PI) by (apply KP; lra). lra.
      + exists f. split; [|rewrite G1; exact Pf]. assert (PI < f) by (apply KN; lra). lra.
  Qed.

  Lemma major_test : PI < s -> EPS <= s - PI -> exists b, inside_test = Ok b /\ (EPS <= euclid p (ap1 a) -> says b).
  Proof.
    intros Sp Ep. unfold inside_test.
    assert (F1 : feq (s : ROps) Num.pi = false).
    { unfold feq. rnum. apply Rltb_false. fold s. rewrite Rabs_pos_eq; lra. }
    assert (F2 : Num.ltb Num.pi (s : ROps) = true) by (rnum; apply Rltb_true; lra).
    fold s. rewrite F1, F2. cbv zeta. eexists. split; [reflexivity|]. intros Far.
    destruct (polar_exists (center a) (ap1 a) p) as (f & Hf & Rf & Pf).
    assert (A2 : (angle2 (center a) (ap1 a) p : R) = f).
    { unfold angle2. assert (F : peq (psub (ap1 a) (center a)) (psub p (center a)) = false).
      { apply peq_false; auto. rewrite euclid_sym in Far. replace (euclid (psub (ap1 a) (center a)) (psub p (center a))) with (euclid (ap1 a) p); auto.
        destruct (center a), (ap1 a), p. unfold euclid, Rsqr. gunf. f_equal. ring. }
      rewrite F. rnum. symmetry. exact Hf. }
    unfold ccw_angle2. rewrite A2. unfold TAU. rnum. fold s.
    pose proof (normalize_range f PI) as B. pose proof (normalize_congr f PI) as G.
    set (g := normalize_angle (N:=ROps) f PI) in *.
    pose proof (congruent_cos _ _ G) as GC. pose proof (congruent_sin _ _ G) as GS.
    assert (Pg : polar (center a) (ap1 a) p 1 g) by (eapply polar_period; [| |exact Pf]; congruence).
    unfold says, sgn. pose proof PI_RGT_0. destruct (Rlt_dec (sweep a) 0) as [L|L].
    - assert (T1 : Rltb (sweep a) 0 = true) by (apply Rltb_true; lra). rewrite T1, (Rabs_pos_eq (PI * 2 - g)) by lra.
      assert (Q : polar (center a) (ap1 a) p (-1) (PI * 2 - g)).
      { eapply polar_period; [| |apply polar_flip; exact Pg].
        - rewrite <- (cos_period_Z (- g) 1). f_equal. ring.
        - rewrite <- (sin_period_Z (- g) 1). f_equal. ring. }
      split; intros T; rbool; exists (PI * 2 - g); (split; [lra|exact Q]).
    - assert (T1 : Rltb (sweep a) 0 = false) by (apply Rltb_false; lra). rewrite T1, (Rabs_pos_eq g) by lra.
      split; intros T; rbool; exists g; (split; [lra|exact Pg]).
  Qed.

  Lemma test_says : exists b, inside_test = Ok b /\ (EPS <= euclid p (ap1 a) \/ s <= PI -> says b).
  Proof.
    destruct Half as [H|H]; [destruct half_test as (b & A & B); auto; exists b; auto|].
    destruct (Rle_dec s PI) as [L|L].
    - rewrite <- Rabs_Ropp, Rabs_pos_eq in H by lra. destruct minor_test as (b & A & B); try lra. exists b; auto.
    - rewrite Rabs_pos_eq in H by lra. destruct major_test as (b & A & B); try lra. exists b. split; auto. intros [Q|Q]; [auto|lra].
  Qed.

  Hypothesis Hr : EPS <= radius a.
  Hypothesis Hd : EPS <= euclid (ap1 a) (ap2 a).
  Lemma adist_guard segment : adist a p segment = rbind inside_test (fun inside => if inside then Ok (Num.abs (Num.sub (pdist (center a) p) (radius a)))
         else if segment then Ok (Num.opp (Num.of_Z (n:=ROps) 1)) else Ok (pymin (pdist (ap1 a) p) (pdist (ap2 a) p))).
  Proof.
    rewrite adist_test. assert (Q1 : Num.ltb (radius a) EPS = false) by (rnum; apply Rltb_false; exact Hr).
    assert (Q2 : peq (ap1 a) (ap2 a) = false) by (apply peq_false; auto). rewrite Q1, Q2. reflexivity.
  Qed.
  Lemma out_true : (Num.abs (Num.sub (pdist (center a) p) (radius a)) : R) = Rabs (euclid p (center a) - radius a).
  Proof. rewrite dist_euclid, euclid_sym. reflexivity. Qed.
  Lemma out_false : (pymin (pdist (ap1 a) p) (pdist (ap2 a) p) : R) = Rmin (euclid (ap1 a) p) (euclid (ap2 a) p).
  Proof. rewrite pymin_R. f_equal; apply dist_euclid. Qed.

  Lemma nearest_exists : exists d, nearest a p d.
  Proof.
    destruct pol0 as (f & Rf & Pf & _). destruct (Rle_dec f s) as [L|L].
    - eexists. apply (in_cone a p sgn f W sgn_cases sgn_sweep Pf). fold s. lra.
    - eexists. apply (off_cone a p sgn f W sgn_cases sgn_sweep Pf). fold s. lra.
  Qed.

  Theorem arc_distance : exists d t, adist a p false = Ok d /\ nearest a p t /\ Rabs (d - t) < EPS /\ (EPS <= euclid p (ap1 a) \/ s <= PI -> d = t).
  Proof.
    destruct test_says as (b & A & B). rewrite adist_guard, A. cbn [rbind].
    destruct (Rle_dec EPS (euclid p (ap1 a))) as [F|F].
    - specialize (B (or_introl F)). destruct B as [B1 B2]. destruct b.
      + destruct (B1 eq_refl) as (f & Rf & Pf). pose proof (in_cone a p sgn f W sgn_cases sgn_sweep Pf Rf) as Q.
        eexists _, _. split; [reflexivity|]. rewrite out_true. split; [exact Q|]. split; [rewrite Rminus_diag_eq, Rabs_R0; auto|auto].
      + destruct (B2 eq_refl) as (f & Rf & Pf). pose proof (off_cone a p sgn f W sgn_cases sgn_sweep Pf Rf) as Q.
        eexists _, _. split; [reflexivity|]. rewrite out_false. split; [exact Q|]. split; [rewrite Rminus_diag_eq, Rabs_R0; auto|auto].
    - destruct nearest_exists as (t & Ht). 
      assert (Tb : 0 <= t < EPS).
      { destruct Ht as [(q & Q1 & Q2) Q3]. split; [rewrite <- Q2; apply euclid_pos|]. apply Rle_lt_trans with (euclid p (ap1 a)); [|lra].
        apply Q3. exists 0. split; [lra|]. rewrite Rmult_0_l, turned_0. reflexivity. }
      assert (K : exists d, (if b then Ok (Num.abs (Num.sub (pdist (center a) p) (radius a))) else Ok (pymin (pdist (ap1 a) p) (pdist (ap2 a) p))) = @Ok ROps d /\ 0 <= d < EPS
        /\ (b = true -> d = Rabs (euclid p (center a) - radius a)) /\ (b = false -> d = Rmin (euclid (ap1 a) p) (euclid (ap2 a) p))).
      { destruct b; eexists; (split; [reflexivity|]); [rewrite out_true|rewrite out_false]; (split; [|split; [auto|auto]]); try discriminate.
        - split; [apply Rabs_pos|]. apply Rle_lt_trans with (euclid p (ap1 a)); [|lra]. destruct W as (_ & We & _).
          pose proof (euclid_triangle p (ap1 a) (center a)). pose proof (euclid_triangle (ap1 a) p (center a)). rewrite (euclid_sym (ap1 a) p) in *. unfold Rabs. destruct Rcase_abs; lra.
        - split; [apply Rmin_glb; apply euclid_pos|]. apply Rle_lt_trans with (euclid (ap1 a) p); [apply Rmin_l|]. rewrite euclid_sym. lra. }
      destruct K as (d & Kd & Kr & K1 & K2). exists d, t. split; [exact Kd|]. split; [exact Ht|]. split; [unfold Rabs; destruct Rcase_abs; lra|].
      intros H. specialize (B H). destruct B as [B1 B2]. destruct b.
      + destruct (B1 eq_refl) as (f & Rf & Pf). pose proof (in_cone a p sgn f W sgn_cases sgn_sweep Pf Rf) as Q. rewrite (K1 eq_refl). apply (nearest_unique _ _ _ _ Q Ht).
      + destruct (B2 eq_refl) as (f & Rf & Pf). pose proof (off_cone a p sgn f W sgn_cases sgn_sweep Pf Rf) as Q. rewrite (K2 eq_refl). apply (nearest_unique _ _ _ _ Q Ht).
  Qed.

  Lemma radial_polar u : radially a u p -> 0 < euclid p (center a) /\ polar (center a) (ap1 a) p sgn (u * s).
  Proof.
    intros (k & Hk & ->). destruct W as (Hr0 & We & _).
    assert (UU : (px (ap1 a) - px (center a)) * (px (ap1 a) - px (center a)) + (py (ap1 a) - py (center a)) * (py (ap1 a) - py (center a)) = radius a * radius a).
    { pose proof (euclid_sqr' (ap1 a) (center a)) as Q. rewrite We in Q. lra. }
    assert (D : euclid (at_param (Ln (center a) (turned (center a) (u * sweep a) (ap1 a))) k) (center a) = k * radius a).
    { apply euclid_unique; [apply Rmult_le_pos; lra|]. unfold at_param, turned. cbn [px py p1 p2].
      set (ux := px (ap1 a) - px (center a)) in *. set (uy := py (ap1 a) - py (center a)) in *.
      pose proof (sin2_cos2 (u * sweep a)) as Q. unfold Rsqr in Q.
      transitivity (k * k * (sin (u * sweep a) * sin (u * sweep a) + cos (u * sweep a) * cos (u * sweep a)) * (ux * ux + uy * uy)); [rewrite Q, UU; ring|ring]. }
    split; [rewrite D; apply Rmult_lt_0_compat; lra|]. unfold polar. rewrite D, We.
    assert (CS : cos (u * s) = cos (u * sweep a) /\ sin (u * s) = sgn * sin (u * sweep a)).
    { rewrite sgn_sweep. destruct sgn_cases as [-> | ->]; [rewrite !Rmult_1_l; auto|]. replace (u * (-1 * s)) with (- (u * s)) by ring. rewrite cos_neg, sin_neg. split; [auto|ring]. }
    destruct CS as [-> ->]. unfold at_param, turned. cbn [px py p1 p2].
    set (ux := px (ap1 a) - px (center a)) in *. set (uy := py (ap1 a) - py (center a)) in *.
    split.
    - transitivity (k * cos (u * sweep a) * (ux * ux + uy * uy)); [ring|rewrite UU; ring].
    - transitivity (k * sgn * sin (u * sweep a) * (ux * ux + uy * uy)); [ring|rewrite UU; ring].
  Qed.
  Lemma polar_same f g : 0 < euclid p (center a) -> polar (center a) (ap1 a) p sgn f -> polar (center a) (ap1 a) p sgn g ->
    0 <= f <= 2 * PI -> 0 < g < 2 * PI -> f = g.
  Proof.
    intros Hp [C1 S1] [C2 S2] Rf Rg. destruct W as (Hr0 & We & _). rewrite We in *.
    assert (0 < radius a * euclid p (center a)) by (apply Rmult_lt_0_compat; lra).
    assert (C : cos f = cos g) by (apply Rmult_eq_reg_l with (radius a * euclid p (center a)); lra).
    assert (S : sin f = sin g) by (apply Rmult_eq_reg_l with (radius a * euclid p (center a)); lra).
    assert (Q : f - PI = g - PI \/ f = 0).
    { destruct (Req_dec f 0) as [Z|Z]; auto. left. apply angle_unique; try lra.
      - rewrite !cos_minus, C, S. reflexivity.
      - rewrite !sin_minus, C, S. reflexivity. }
    destruct Q as [Q|Q]; [lra|]. exfalso. subst f. rewrite cos_0 in C. 
    assert (Z : sin (g / 2) = 0). { pose proof (cos_2a_sin (g / 2)) as K. replace (2 * (g / 2)) with g in K by lra. nra. }
    assert (0 < sin (g / 2)) by (apply sin_gt_0; lra). lra.
  Qed.

  Theorem over_arc u : 0 < u < 1 -> radially a u p -> (EPS <= euclid p (ap1 a) \/ s <= PI) -> exists d, adist a p true = Ok d /\ nearest a p d.
  Proof.
    intros Hu Hp Far. destruct (radial_polar u Hp) as [P0 Pu]. destruct test_says as (b & A & B). destruct (B Far) as [B1 B2].
    rewrite adist_guard, A. cbn [rbind]. destruct b.
    - destruct (B1 eq_refl) as (f & Rf & Pf). eexists. split; [reflexivity|]. rewrite out_true. apply (in_cone a p sgn f W sgn_cases sgn_sweep Pf Rf).
    - exfalso. destruct (B2 eq_refl) as (f & Rf & Pf). assert (f = u * s) by (apply polar_same; auto; nra). nra.
  Qed.
  Theorem beside_arc u : 1 < u -> u * s < 2 * PI -> radially a u p -> (EPS <= euclid p (ap1 a) \/ s <= PI) -> adist a p true = Ok (-1).
  Proof.
    intros Hu Hu2 Hp Far. destruct (radial_polar u Hp) as [P0 Pu]. destruct test_says as (b & A & B). destruct (B Far) as [B1 B2].
    rewrite adist_guard, A. cbn [rbind]. destruct b; [|reflexivity].
    exfalso. destruct (B1 eq_refl) as (f & Rf & Pf). assert (f = u * s) by (apply polar_same; auto; nra). nra.
  Qed.
End Dist.
