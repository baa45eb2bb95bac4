(** * ClipperProofs: the raw offset outline, over R. *)
From Verif Require Import Num NumR Geom GeomR GeomSpec GeomProofs GeomProofs2 GeomProofs5 PolySpec PolyProofs ClipperOffset ClipperSpec.
From Coq Require Import ZArith Reals Lra Lia Bool List Psatz.
Import ListNotations.
Local Open Scope R_scope.

Lemma half_lit : Rlit 5 (-1) = 1 / 2.
Proof. unfold Rlit; cbn; lra. Qed.
Lemma one_lit : Rlit 10 (-1) = 1.
Proof. unfold Rlit; cbn; lra. Qed.
Lemma pyround_eq (x : R) : pyround (N:=ROps) x = if Rltb x 0 then - IZR (Zfloor (1 / 2 - x)) else IZR (Zfloor (x + 1 / 2)).
Proof. rewrite <- half_lit. reflexivity. Qed.
Lemma pyround_near (x : R) : Rabs (pyround (N:=ROps) x - x) <= 1 / 2.
Proof.
  rewrite pyround_eq.
  destruct (Rltb x 0).
  - pose proof (Zfloor_spec (1 / 2 - x)). apply Rabs_le. lra.
  - pose proof (Zfloor_spec (x + 1 / 2)). apply Rabs_le. lra.
Qed.
Lemma pyround_int (x : R) : exists z, pyround (N:=ROps) x = IZR z.
Proof.
  rewrite pyround_eq. destruct (Rltb x 0); [|eauto].
  exists (- Zfloor (1 / 2 - x))%Z. rewrite opp_IZR. reflexivity.
Qed.
Lemma roundpt_near (x y : R) : near (1 / 2) (P x y) (roundpt (N:=ROps) x y).
Proof. split; cbn [px py roundpt]; apply pyround_near. Qed.
Lemma roundpt_grid (x y : R) : on_grid (roundpt (N:=ROps) x y).
Proof.
  destruct (pyround_int x) as [i Hi], (pyround_int y) as [j Hj]. exists i, j. unfold roundpt. rewrite Hi, Hj. reflexivity.
Qed.

Lemma sqrt2_sqr : R_sqrt.sqrt 2 * R_sqrt.sqrt 2 = 2.
Proof. apply sqrt_sqrt. lra. Qed.
Lemma sqrt2_pos : 0 < R_sqrt.sqrt 2.
Proof. apply sqrt_lt_R0. lra. Qed.
Lemma sqr_le a b : 0 <= b -> a * a <= b * b -> a <= b.
Proof. intros Hb H. destruct (Rle_lt_dec a b) as [A|A]; [exact A|]. exfalso. nra. Qed.

Lemma abs_le_inv x a : Rabs x <= a -> - a <= x <= a.
Proof. unfold Rabs. destruct (Rcase_abs x); lra. Qed.
Lemma near_along (n p q m : Pt) : unit_vec n -> near (1 / 2) m q -> Rabs (along n p q - along n p m) <= half_cell.
Proof.
  unfold unit_vec, near, along, half_cell. destruct n as [nx ny], p as [a b], q as [c d], m as [u v]. cbn [px py]. toR.
  intros Hn [Hx Hy].
  replace (nx * (c - a) + ny * (d - b) - (nx * (u - a) + ny * (v - b))) with (nx * (c - u) + ny * (d - v)) by ring.
  pose proof sqrt2_sqr. pose proof sqrt2_pos.
  pose proof (Rabs_triang (nx * (c - u)) (ny * (d - v))) as Tr. rewrite !Rabs_mult in Tr.
  assert (A : Rabs nx + Rabs ny <= R_sqrt.sqrt 2).
  { apply sqr_le; [lra|]. pose proof (Rsqr_abs nx) as S1. pose proof (Rsqr_abs ny) as S2. unfold Rsqr in *.
    pose proof (Rle_0_sqr (Rabs nx - Rabs ny)) as S3. unfold Rsqr in S3. nra. }
  pose proof (Rabs_pos nx). pose proof (Rabs_pos ny).
  assert (Rabs nx * Rabs (c - u) <= Rabs nx * (1 / 2)) by (apply Rmult_le_compat_l; assumption).
  assert (Rabs ny * Rabs (d - v) <= Rabs ny * (1 / 2)) by (apply Rmult_le_compat_l; assumption).
  lra.
Qed.
Lemma near_euclid (p q : Pt) : near (1 / 2) p q -> euclid p q <= half_cell.
Proof.
  unfold near, euclid, half_cell. destruct p as [a b], q as [c d]. cbn [px py]. toR. intros [Hx Hy].
  apply abs_le_inv in Hx. apply abs_le_inv in Hy.
  pose proof sqrt2_sqr as S2. pose proof sqrt2_pos as S0.
  apply sqr_le; [lra|]. rewrite sqrt_sqrt by (apply Rplus_le_le_0_compat; apply Rle_0_sqr). unfold Rsqr.
  replace (R_sqrt.sqrt 2 / 2 * (R_sqrt.sqrt 2 / 2)) with (1 / 2) by lra. clear S2 S0.
  assert ((a - c) * (a - c) <= 1 / 4) by nra. assert ((b - d) * (b - d) <= 1 / 4) by nra. lra.
Qed.
Lemma euclid_vec (p m : Pt) (k : R) : 0 <= k -> (px m - px p) * (px m - px p) + (py m - py p) * (py m - py p) <= k * k -> euclid p m <= k.
Proof.
  unfold euclid. destruct p as [a b], m as [c d]. cbn [px py]. toR. intros Hk H.
  apply sqr_le; [lra|]. rewrite sqrt_sqrt by (apply Rplus_le_le_0_compat; apply Rle_0_sqr); unfold Rsqr; change (T ROps) with R in *; lra.
Qed.
Lemma near_reach (p m q : Pt) (k : R) : euclid p m <= k -> near (1 / 2) m q -> euclid p q <= k + half_cell.
Proof. intros H N. apply near_euclid in N. pose proof (euclid_triangle p m q). lra. Qed.

(** ** normals *)
Lemma euclid_hypot (p q : Pt) : Rhypot (px q - px p) (py q - py p) = euclid p q.
Proof. unfold Rhypot, euclid, Rsqr. f_equal. toR. ring. Qed.
Lemma unit_normal_out (p q : Pt) : p <> q -> unit_normal p q = outward p q.
Proof.
  intros H. unfold unit_normal, outward.
  destruct ((px q =? px p)%num && (py q =? py p)%num) eqn:E.
  - exfalso. apply H. apply andb_prop in E as [A B]. cbn in A, B. apply Reqb_true in A, B. destruct p, q; cbn in *; subst; reflexivity.
  - change (P ((py q - py p) * (Rlit 10 (-1) / Rhypot (px q - px p) (py q - py p))) (- ((px q - px p) * (Rlit 10 (-1) / Rhypot (px q - px p) (py q - py p))))
      = P ((py q - py p) / euclid p q) (- ((px q - px p) / euclid p q)) :> Pt).
    rewrite one_lit, euclid_hypot. f_equal; toR; unfold Rdiv; ring.
Qed.
Lemma euclid_sq (p q : Pt) : euclid p q * euclid p q = (px p - px q) * (px p - px q) + (py p - py q) * (py p - py q).
Proof. unfold euclid. rewrite sqrt_sqrt by (apply Rplus_le_le_0_compat; apply Rle_0_sqr); unfold Rsqr; change (T ROps) with R in *; lra. Qed.
Lemma euclid_ne (p q : Pt) : p <> q -> 0 < euclid p q.
Proof.
  intros H. pose proof (euclid_pos p q) as G. destruct (Rle_lt_or_eq_dec _ _ G) as [A|A]; [exact A|].
  exfalso. apply H. apply euclid_zero. symmetry. exact A.
Qed.
Lemma outward_unit (p q : Pt) : p <> q -> unit_vec (outward p q).
Proof.
  intros H. pose proof (euclid_ne _ _ H) as E. pose proof (euclid_sq p q) as S. unfold unit_vec, outward. cbn [px py].
  remember (euclid p q) as d. destruct p as [a b], q as [c e]. cbn [px py] in *. toR.
  transitivity (((e - b) * (e - b) + (c - a) * (c - a)) / (d * d)); [field; lra|].
  replace ((e - b) * (e - b) + (c - a) * (c - a)) with (d * d) by (rewrite S; ring). field. lra.
Qed.
Lemma along_right (p q x : Pt) : p <> q -> along (outward p q) p x = to_the_right p q x /\ along (outward p q) q x = to_the_right p q x.
Proof.
  intros H. pose proof (euclid_ne _ _ H) as E. unfold along, outward, to_the_right. cbn [px py].
  remember (euclid p q) as d. destruct p as [a b], q as [c e], x as [u v]. cbn [px py] in *. toR. split; field; lra.
Qed.

(** ** one corner *)
Section Corner.
  Variables (p nk nj : Pt) (delta : R).
  Hypothesis (Hk : unit_vec nk) (Hj : unit_vec nj).

  Definition crs (a b : Pt) : R := px a * py b - px b * py a.
  Definition dt (a b : Pt) : R := px a * px b + py a * py b.
  Lemma unit_crs : crs nk nj * crs nk nj + dt nk nj * dt nk nj = 1.
  Proof.
    unfold unit_vec, crs, dt in *. destruct nk as [a b], nj as [c d]. cbn [px py] in *. toR.
    transitivity ((a * a + b * b) * (c * c + d * d)); [ring|]. rewrite Hk, Hj. ring.
  Qed.
  Lemma get_sin_crs : get_sin nk nj = crs nk nj.
  Proof.
    pose proof unit_crs as U. assert (A : -1 <= crs nk nj <= 1) by (split; nra). clear U.
    transitivity (if Rltb (Rlit 10 (-1)) (crs nk nj) then Rlit 10 (-1) else if Rltb (crs nk nj) (- Rlit 10 (-1)) then - Rlit 10 (-1) else crs nk nj); [reflexivity|].
    rewrite one_lit.
    destruct (Rltb 1 (crs nk nj)) eqn:E1; [apply Rltb_true in E1; lra|].
    destruct (Rltb (crs nk nj) (- (1))) eqn:E2; [apply Rltb_true in E2; lra|]. reflexivity.
  Qed.
  (** the angle between the normals *)
  Definition ang : R := Ratan2 (crs nk nj) (dt nk nj).
  Lemma ang_spec : cos ang = dt nk nj /\ sin ang = crs nk nj.
  Proof.
    pose proof (atan2_polar (crs nk nj) (dt nk nj)) as [C S]. pose proof unit_crs as U.
    assert (Hh : Rhypot (dt nk nj) (crs nk nj) = 1).
    { unfold Rhypot. replace (dt nk nj * dt nk nj + crs nk nj * crs nk nj) with 1 by lra. apply sqrt_1. }
    rewrite Hh in *. fold ang in C, S. lra.
  Qed.
  Definition half_tan : R := tan (ang / 4).
  Lemma quarter : - (PI / 4) < ang / 4 <= PI / 4.
  Proof. pose proof (atan2_range (crs nk nj) (dt nk nj)) as A. fold ang in A. lra. Qed.
  Lemma quarter_cos : 0 < cos (ang / 4).
  Proof. pose proof quarter. pose proof PI_RGT_0. apply cos_gt_0; lra. Qed.
  Lemma half_tan_le : half_tan * half_tan <= 1.
  Proof.
    unfold half_tan. pose proof quarter as Q. pose proof PI_RGT_0 as P0. pose proof quarter_cos as C.
    unfold tan. set (t := ang / 4) in *.
    assert (A : 0 <= cos (2 * t)) by (apply cos_ge_0; lra).
    rewrite cos_2a in A.
    replace (sin t / cos t * (sin t / cos t)) with ((sin t * sin t) / (cos t * cos t)) by (field; lra).
    apply Rmult_le_reg_r with (cos t * cos t); [nra|]. unfold Rdiv. rewrite Rmult_assoc, Rinv_l; nra.
  Qed.
  Definition sq1 : Pt := P (px p + delta * (px nk - py nk * half_tan)) (py p + delta * (py nk + px nk * half_tan)).
  Definition sq2 : Pt := P (px p + delta * (px nj + py nj * half_tan)) (py p + delta * (py nj - px nj * half_tan)).
  Lemma do_square_eq : do_square (N:=ROps) delta (get_sin nk nj) p nk nj = [roundpt (px sq1) (py sq1); roundpt (px sq2) (py sq2)].
  Proof. unfold do_square. rewrite get_sin_crs. reflexivity. Qed.
  Lemma sq1_along : along nk p sq1 = delta.
  Proof.
    unfold along, sq1, unit_vec in *. cbn [px py]. generalize half_tan as h. intros h. destruct nk as [a b], p as [u v]. cbn [px py] in *. toR.
    transitivity (delta * (a * a + b * b)); [ring|]. rewrite Hk. ring.
  Qed.
  Lemma sq2_along : along nj p sq2 = delta.
  Proof.
    unfold along, sq2, unit_vec in *. cbn [px py]. generalize half_tan as h. intros h. destruct nj as [a b], p as [u v]. cbn [px py] in *. toR.
    transitivity (delta * (a * a + b * b)); [ring|]. rewrite Hj. ring.
  Qed.
  Lemma sq_reach : euclid p sq1 <= R_sqrt.sqrt 2 * Rabs delta /\ euclid p sq2 <= R_sqrt.sqrt 2 * Rabs delta.
  Proof.
    pose proof sqrt2_sqr as S2. pose proof sqrt2_pos as S2p. pose proof (Rabs_pos delta) as Ad.
    assert (Da : Rabs delta * Rabs delta = delta * delta) by (rewrite <- Rabs_mult; apply Rabs_pos_eq; nra).
    pose proof half_tan_le as L. 
    assert (K : R_sqrt.sqrt 2 * Rabs delta * (R_sqrt.sqrt 2 * Rabs delta) = 2 * (delta * delta)).
    { transitivity ((R_sqrt.sqrt 2 * R_sqrt.sqrt 2) * (Rabs delta * Rabs delta)); [ring|]. rewrite S2, Da. reflexivity. }
    assert (G : delta * delta * (1 + half_tan * half_tan) <= 2 * (delta * delta)) by nra.
    split; (apply euclid_vec; [apply Rmult_le_pos; lra|]); rewrite K; (eapply Rle_trans; [|exact G]); apply Req_le;
      unfold sq1, sq2, unit_vec in *; cbn [px py]; generalize half_tan as h; intros h.
    - destruct nk as [a b], p as [u v]. cbn [px py] in *. toR.
      transitivity (delta * delta * ((a * a + b * b) * (1 + h * h))); [ring|]. rewrite Hk. ring.
    - destruct nj as [a b], p as [u v]. cbn [px py] in *. toR.
      transitivity (delta * delta * ((a * a + b * b) * (1 + h * h))); [ring|]. rewrite Hj. ring.
  Qed.
  (** the bisector of the two normals *)
  Definition bis : Pt := P (px nk * cos (ang / 2) - py nk * sin (ang / 2)) (py nk * cos (ang / 2) + px nk * sin (ang / 2)).
  Lemma bis_unit : unit_vec bis.
  Proof.
    unfold bis, unit_vec in *. cbn [px py]. pose proof (sin2_cos2 (ang / 2)) as Q. unfold Rsqr in Q.
    remember (cos (ang / 2)) as c. remember (sin (ang / 2)) as s. destruct nk as [a b]. cbn [px py] in *. toR.
    transitivity ((a * a + b * b) * (s * s + c * c)); [ring|]. rewrite Hk, Q. ring.
  Qed.
  Lemma bis_nk : dt bis nk = cos (ang / 2).
  Proof.
    unfold bis, dt, unit_vec in *. cbn [px py].
    remember (cos (ang / 2)) as c. remember (sin (ang / 2)) as s. destruct nk as [a b]. cbn [px py] in *. toR.
    transitivity ((a * a + b * b) * c); [ring|]. rewrite Hk. ring.
  Qed.
  Lemma nj_turned : px nj = px nk * cos ang - py nk * sin ang /\ py nj = py nk * cos ang + px nk * sin ang.
  Proof.
    destruct ang_spec as [C S]. rewrite C, S. unfold dt, crs, unit_vec in *. destruct nk as [a b], nj as [c d]. cbn [px py] in *. toR.
    split.
    - transitivity ((a * a + b * b) * c); [rewrite Hk; ring|ring].
    - transitivity ((a * a + b * b) * d); [rewrite Hk; ring|ring].
  Qed.
  Lemma ang_halves : cos ang = cos (ang / 2) * cos (ang / 2) - sin (ang / 2) * sin (ang / 2) /\ sin ang = 2 * sin (ang / 2) * cos (ang / 2).
  Proof.
    split.
    - rewrite <- cos_2a. f_equal. field.
    - rewrite <- sin_2a. f_equal. field.
  Qed.
  Lemma bis_nj : dt bis nj = cos (ang / 2).
  Proof.
    destruct nj_turned as [X Y]. destruct ang_halves as [C S]. pose proof (sin2_cos2 (ang / 2)) as Q. unfold Rsqr in Q.
    unfold dt. rewrite X, Y, C, S. unfold bis, unit_vec in *. cbn [px py].
    remember (cos (ang / 2)) as c. remember (sin (ang / 2)) as s. destruct nk as [a b]. cbn [px py] in *. toR.
    transitivity ((a * a + b * b) * c * (s * s + c * c)); [ring|]. rewrite Hk, Q. ring.
  Qed.
  Lemma half_tan_sum : cos (ang / 2) + half_tan * sin (ang / 2) = 1.
  Proof.
    unfold half_tan, tan. pose proof quarter_cos as C. set (t := ang / 4) in *.
    replace (ang / 2) with (2 * t) by (unfold t; field). rewrite sin_2a, cos_2a.
    pose proof (sin2_cos2 t) as Q. unfold Rsqr in Q.
    transitivity (sin t * sin t + cos t * cos t); [field; lra|lra].
  Qed.
  Lemma sq_cut : along bis p sq1 = delta /\ along bis p sq2 = delta.
  Proof.
    pose proof half_tan_sum as Hs. destruct nj_turned as [X Y]. destruct ang_halves as [C S].
    pose proof (sin2_cos2 (ang / 2)) as Q. unfold Rsqr in Q.
    unfold along, sq1, sq2, bis, unit_vec in *. cbn [px py]. rewrite X, Y, C, S.
    remember (cos (ang / 2)) as c. remember (sin (ang / 2)) as s. generalize half_tan, Hs. intros h Hs'. clear Hs X Y C S.
    destruct nk as [a b], p as [u v]. cbn [px py] in *. toR. split.
    - transitivity (delta * ((a * a + b * b) * (c + h * s))); [ring|]. rewrite Hk, Hs'. ring.
    - transitivity (delta * ((a * a + b * b) * (s * s + c * c) * (c + h * s))); [ring|]. rewrite Hk, Hs', Q. ring.
  Qed.
  Lemma cos_half_ge : 0 <= cos (ang / 2).
  Proof. pose proof quarter. apply cos_ge_0; lra. Qed.

  (** miter *)
  Definition rr : R := 1 + dt nk nj.
  Definition mt : Pt := P (px p + (px nk + px nj) * (delta / rr)) (py p + (py nk + py nj) * (delta / rr)).
  Lemma mt_along : rr <> 0 -> along nk p mt = delta /\ along nj p mt = delta.
  Proof.
    intros Hr. unfold along, mt. cbn [px py]. unfold unit_vec in *.
    assert (A : forall z : Pt, px z * px z + py z * py z = 1 -> True) by auto. clear A.
    assert (E : delta / rr * rr = delta) by (field; exact Hr). set (q := delta / rr) in *. unfold rr, dt in E. clearbody q.
    destruct nk as [a b], nj as [c d], p as [u v]. cbn [px py] in *. toR. split.
    - transitivity (q * ((a * a + b * b) + (a * c + b * d))); [ring|]. rewrite Hk. lra.
    - transitivity (q * ((c * c + d * d) + (a * c + b * d))); [ring|]. rewrite Hj. lra.
  Qed.
  Lemma mt_dist : 0 < rr -> euclid p mt * euclid p mt = 2 / rr * (delta * delta).
  Proof.
    intros Hr. rewrite euclid_sq. unfold mt. cbn [px py].
    assert (E : delta / rr * rr = delta) by (field; lra). 
    transitivity ((delta / rr) * (delta / rr) * (2 * rr)); [|field; lra].
    set (q := delta / rr) in *. clearbody q. unfold rr, dt. unfold unit_vec in *. destruct nk as [a b], nj as [c d], p as [u v]. cbn [px py] in *. toR.
    transitivity (q * q * ((a * a + b * b) + (c * c + d * d) + 2 * (a * c + b * d))); [ring|]. rewrite Hk, Hj. ring.
  Qed.
  Lemma mt_unique (m : Pt) : crs nk nj <> 0 -> along nk p m = delta -> along nj p m = delta -> rr <> 0 -> m = mt.
  Proof.
    intros Hc A B Hr. pose proof (mt_along Hr) as [A' B']. revert A B A' B'. generalize mt. intros w. unfold along, crs in *.
    destruct nk as [a b], nj as [c d], p as [u v], m as [x y], w as [x' y']. cbn [px py] in *. toR. intros.
    assert (E1 : a * (x - x') + b * (y - y') = 0) by lra. assert (E2 : c * (x - x') + d * (y - y') = 0) by lra.
    f_equal.
    - assert (G : (a * d - c * b) * (x - x') = 0) by (transitivity (d * (a * (x - x') + b * (y - y')) - b * (c * (x - x') + d * (y - y'))); [ring|rewrite E1, E2; ring]).
      apply Rmult_integral in G as [G|G]; [contradiction|lra].
    - assert (G : (a * d - c * b) * (y - y') = 0) by (transitivity (a * (c * (x - x') + d * (y - y')) - c * (a * (x - x') + b * (y - y'))); [ring|rewrite E1, E2; ring]).
      apply Rmult_integral in G as [G|G]; [contradiction|lra].
  Qed.
End Corner.
