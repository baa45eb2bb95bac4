(** * PropsClipper: polygon offsetting (C170-C174), over R.  Specification: [ClipperSpec], [PolySpec]. *)
From Verif Require Import Num NumR Geom GeomR GeomSpec GeomProofs GeomProofs2 GeomProofs5 Polygon PolySpec PolyProofs PolyProofs5 PropsGeom ClipperOffset ClipperSpec ClipperProofs.
From Coq Require Import ZArith Reals Lra Lia Bool List Psatz Permutation.
Import ListNotations.
Local Open Scope R_scope.

(** ** C170: the outline *)
Definition reach (jt : jointype) (limit : R) : R := match jt with JMiter => Rmax 2 limit | _ => R_sqrt.sqrt 2 end.
Lemma sqrt2_le2 : 1 <= R_sqrt.sqrt 2 <= 2.
Proof. pose proof sqrt2_sqr. pose proof sqrt2_pos. split; nra. Qed.
Lemma reach_sqrt2 jt limit : R_sqrt.sqrt 2 <= reach jt limit.
Proof. pose proof sqrt2_le2. pose proof (Rmax_l 2 limit). destruct jt; cbn [reach]; lra. Qed.
Lemma miter_limit_eq (limit : R) : miter_limit (N:=ROps) limit = if Rltb 2 limit then 2 / (limit * limit) else 1 / 2.
Proof. rewrite <- half_lit. reflexivity. Qed.
Lemma miter_limit_pos (limit : R) : 0 < miter_limit (N:=ROps) limit.
Proof.
  rewrite miter_limit_eq. destruct (Rltb 2 limit) eqn:E; [|lra]. apply Rltb_true in E. apply Rdiv_lt_0_compat; nra.
Qed.
Lemma miter_bound (limit r : R) : miter_limit (N:=ROps) limit <= r -> 2 / r <= Rmax 2 limit * Rmax 2 limit.
Proof.
  intros H. pose proof (miter_limit_pos limit) as M.
  assert (G : 2 <= r * (Rmax 2 limit * Rmax 2 limit)).
  { rewrite miter_limit_eq in H. destruct (Rltb 2 limit) eqn:E.
    - apply Rltb_true in E. rewrite Rmax_right by lra.
      assert (K : 2 = 2 / (limit * limit) * (limit * limit)) by (field; nra). rewrite K at 1.
      apply Rmult_le_compat_r; nra.
    - apply Rltb_false in E. rewrite Rmax_left by lra. lra. }
  apply Rmult_le_reg_l with r; [lra|]. replace (r * (2 / r)) with 2 by (field; lra). exact G.
Qed.

Definition offp := offset_point (N:=ROps).
Lemma offset_point_eq jt (delta ml : R) (p nk nj : Pt) : unit_vec nk -> unit_vec nj ->
  offp jt delta ml p nk nj =
  if Rltb (crs nk nj * delta) 0 then
    Ok [roundpt (px p + px nk * delta) (py p + py nk * delta); p; roundpt (px p + px nj * delta) (py p + py nj * delta)]
  else match jt with
  | JMiter => if Rleb ml (rr nk nj) then (if Reqb (rr nk nj) 0 then Raise ZeroDivisionError else Ok [roundpt (px (mt p nk nj delta)) (py (mt p nk nj delta))])
              else Ok [roundpt (px (sq1 p nk nj delta)) (py (sq1 p nk nj delta)); roundpt (px (sq2 p nk nj delta)) (py (sq2 p nk nj delta))]
  | JSquare => Ok [roundpt (px (sq1 p nk nj delta)) (py (sq1 p nk nj delta)); roundpt (px (sq2 p nk nj delta)) (py (sq2 p nk nj delta))]
  | JRound => Raise TypeError
  end.
Proof.
  intros Hk Hj. unfold offp, offset_point. rewrite (do_square_eq p nk nj delta Hk Hj), (get_sin_crs nk nj Hk Hj).
  change ((crs nk nj * delta <? #0)%num) with (Rltb (crs nk nj * delta) 0).
  destruct (Rltb (crs nk nj * delta) 0); [reflexivity|]. destruct jt; try reflexivity.
  replace (lit 10 (-1) + (px nj * px nk + py nj * py nk))%num with (rr nk nj : ROps).
  2: { change (rr nk nj = Rlit 10 (-1) + (px nj * px nk + py nj * py nk)). rewrite one_lit. unfold rr, dt. toR. ring. }
  change ((rr nk nj >=? ml)%num) with (Rleb ml (rr nk nj)). destruct (Rleb ml (rr nk nj)); [|reflexivity].
  unfold do_miter, pydiv. change (((rr nk nj : ROps) =? #0)%num) with (Reqb (rr nk nj) 0).
  destruct (Reqb (rr nk nj) 0); reflexivity.
Qed.
Lemma Rabs_d2 x : Rabs x * Rabs x = x * x.
Proof. rewrite <- Rabs_mult. apply Rabs_pos_eq. nra. Qed.

Record corner_ok (jt : jointype) (delta limit : R) (p nk nj : Pt) (qs : list Pt) : Prop := {
  co_first : exists a r, qs = a :: r /\ Rabs (along nk p a - delta) <= half_cell;
  co_last : exists l z, qs = l ++ [z] /\ Rabs (along nj p z - delta) <= half_cell;
  co_reach : forall q, In q qs -> euclid p q <= reach jt limit * Rabs delta + half_cell;
  co_grid : forall q, In q qs -> q = p \/ on_grid q }.
Lemma unit_reach (n p : Pt) (delta : R) : unit_vec n -> euclid p (P (px p + px n * delta) (py p + py n * delta)) <= Rabs delta.
Proof.
  intros H. apply euclid_vec; [apply Rabs_pos|]. rewrite Rabs_d2. cbn [px py]. unfold unit_vec in H. destruct n as [a b], p as [u v]. cbn [px py] in *. toR.
  apply Req_le. transitivity ((a * a + b * b) * (delta * delta)); [ring|]. rewrite H. ring.
Qed.
Lemma unit_along (n p : Pt) (delta : R) : unit_vec n -> along n p (P (px p + px n * delta) (py p + py n * delta)) = delta.
Proof.
  intros H. unfold along. cbn [px py]. unfold unit_vec in H. destruct n as [a b], p as [u v]. cbn [px py] in *. toR.
  transitivity ((a * a + b * b) * delta); [ring|]. rewrite H. ring.
Qed.
Lemma half_cell_pos : 0 < half_cell.
Proof. unfold half_cell. pose proof sqrt2_pos. lra. Qed.
Lemma euclid_self (p : Pt) : euclid p p = 0.
Proof. unfold euclid. rewrite !Rminus_eq_0, Rsqr_0, Rplus_0_l, sqrt_0. reflexivity. Qed.
Lemma round_along (n p m : Pt) (delta : R) : unit_vec n -> along n p m = delta -> Rabs (along n p (roundpt (px m) (py m)) - delta) <= half_cell.
Proof. intros H <-. apply near_along; [exact H|]. destruct m. apply roundpt_near. Qed.
Lemma round_reach (p m : Pt) (k : R) : euclid p m <= k -> euclid p (roundpt (px m) (py m)) <= k + half_cell.
Proof. intros H. apply (near_reach p m); [exact H|]. destruct m. apply roundpt_near. Qed.
Lemma corner_spec jt (delta limit : R) (p nk nj : Pt) qs : unit_vec nk -> unit_vec nj ->
  offp jt delta (miter_limit (N:=ROps) limit) p nk nj = Ok qs -> corner_ok jt delta limit p nk nj qs.
Proof.
  intros Hk Hj. rewrite offset_point_eq by assumption. pose proof (reach_sqrt2 jt limit) as R2. pose proof (Rabs_pos delta) as Ad. pose proof sqrt2_le2 as S2. pose proof half_cell_pos as Hc.
  assert (Sq : corner_ok jt delta limit p nk nj [roundpt (px (sq1 p nk nj delta)) (py (sq1 p nk nj delta)); roundpt (px (sq2 p nk nj delta)) (py (sq2 p nk nj delta))]).
  { pose proof (sq_reach p nk nj delta Hk Hj) as [R1 R1'].
    assert (B : R_sqrt.sqrt 2 * Rabs delta <= reach jt limit * Rabs delta) by (apply Rmult_le_compat_r; lra).
    split.
    - do 2 eexists. split; [reflexivity|]. apply round_along; [exact Hk|]. apply sq1_along, Hk.
    - exists [roundpt (px (sq1 p nk nj delta)) (py (sq1 p nk nj delta))]. eexists. split; [reflexivity|]. apply round_along; [exact Hj|]. apply sq2_along, Hj.
    - intros q [<-|[<-|[]]]; (eapply Rle_trans; [apply round_reach; eassumption|lra]).
    - intros q [<-|[<-|[]]]; right; apply roundpt_grid. }
  destruct (Rltb (crs nk nj * delta) 0).
  - intros [= <-]. set (m1 := P (px p + px nk * delta) (py p + py nk * delta) : Pt). set (m2 := P (px p + px nj * delta) (py p + py nj * delta) : Pt).
    assert (B : Rabs delta <= reach jt limit * Rabs delta) by nra.
    split.
    + do 2 eexists. split; [reflexivity|]. apply (round_along nk p m1); [exact Hk|]. apply unit_along, Hk.
    + exists [roundpt (px m1) (py m1); p]. eexists. split; [reflexivity|]. apply (round_along nj p m2); [exact Hj|]. apply unit_along, Hj.
    + intros q [<-|[<-|[<-|[]]]].
      * eapply Rle_trans; [apply (round_reach p m1), unit_reach, Hk|lra].
      * rewrite euclid_self. nra.
      * eapply Rle_trans; [apply (round_reach p m2), unit_reach, Hj|lra].
    + intros q [<-|[<-|[<-|[]]]]; [right; apply roundpt_grid|left; reflexivity|right; apply roundpt_grid].
  - destruct jt; [intros [= <-]; exact Sq|discriminate|].
    destruct (Rleb (miter_limit (N:=ROps) limit) (rr nk nj)) eqn:L; [|intros [= <-]; exact Sq].
    apply Rleb_true in L. pose proof (miter_limit_pos limit) as M. set (ml := miter_limit (N:=ROps) limit) in *.
    assert (Hr : 0 < rr nk nj) by (eapply Rlt_le_trans; [exact M|exact L]).
    destruct (Reqb (rr nk nj) 0) eqn:Z; [discriminate|]. intros [= <-]. clear Sq.
    destruct (mt_along p nk nj delta Hk Hj) as [A B]; [lra|].
    split.
    + do 2 eexists. split; [reflexivity|]. apply (round_along nk p (mt p nk nj delta)); assumption.
    + exists [], (roundpt (px (mt p nk nj delta)) (py (mt p nk nj delta))). split; [reflexivity|]. apply (round_along nj p (mt p nk nj delta)); assumption.
    + intros q [<-|[]]. apply (round_reach p (mt p nk nj delta)). cbn [reach]. pose proof (Rmax_l 2 limit) as Ml.
      apply sqr_le; [apply Rmult_le_pos; lra|]. rewrite (mt_dist p nk nj delta Hk Hj Hr).
      apply Rle_trans with (Rmax 2 limit * Rmax 2 limit * (delta * delta)).
      * apply Rmult_le_compat_r; [nra|]. apply miter_bound, L.
      * rewrite <- (Rabs_d2 delta). apply Req_le. ring.
    + intros q [<-|[]]; right; apply roundpt_grid.
Qed.

(** the corners in a row *)
Definition close_to (delta : R) (n p x : Pt) : Prop := Rabs (along n p x - delta) <= half_cell.
Lemma corners_spec jt (delta limit : R) : forall (l : list (Pt * Pt)) nk out, l <> [] -> unit_vec nk -> (forall p n, In (p, n) l -> unit_vec n) ->
  corners (N:=ROps) jt delta (miter_limit (N:=ROps) limit) nk l = Ok out ->
  let far p q := euclid p q <= reach jt limit * Rabs delta + half_cell in
  (exists a r p0 n0 l0, out = a :: r /\ l = (p0, n0) :: l0 /\ close_to delta nk p0 a /\ far p0 a) /\
  (exists r z lz pz nz, out = r ++ [z] /\ l = lz ++ [(pz, nz)] /\ close_to delta nz pz z /\ far pz z) /\
  (forall p n q m, In ((p, n), (q, m)) (consecutive l) -> exists x y, In (x, y) (consecutive out) /\ close_to delta n p x /\ close_to delta n q y /\ far p x /\ far q y) /\
  (forall q, In q out -> exists p n, In (p, n) l /\ far p q /\ (q = p \/ on_grid q)).
Proof.
  induction l as [|[p nj] l IH]; [congruence|]. intros nk out _ Hk Hl H far. cbn [corners] in H.
  destruct (offset_point jt delta (miter_limit limit) p nk nj) as [qs|e] eqn:Eq; [|discriminate]. cbn [rbind] in H.
  destruct (corners jt delta (miter_limit limit) nj l) as [rest|e] eqn:Er; [|discriminate]. cbn [rbind] in H. injection H as <-.
  assert (Hj : unit_vec nj) by (apply (Hl p nj); left; reflexivity).
  pose proof (corner_spec jt delta limit p nk nj qs Hk Hj Eq) as [(a & ra & -> & Ca) (lz & z & Ez & Cz) Cr Cg].
  destruct l as [|[p1 n1] l].
  - cbn [corners] in Er. injection Er as <-. rewrite app_nil_r. repeat apply conj.
    + exists a, ra, p, nj, []. repeat apply conj; auto. apply Cr. left. reflexivity.
    + exists lz, z, [], p, nj. rewrite Ez. repeat apply conj; auto. apply Cr. rewrite Ez. apply in_or_app. right. left. reflexivity.
    + intros p' n q m [].
    + intros q Hq. exists p, nj. repeat apply conj; [left; reflexivity|apply Cr, Hq|apply Cg, Hq].
  - destruct (IH nj rest) as (F & L & Cn & Al); [discriminate|exact Hj|intros; apply (Hl p0 n); right; assumption|exact Er|]. clear IH.
    destruct F as (b & rb & p0 & n0 & l0 & -> & El & Cb & Fb). injection El as <- <- <-. fold (far p1 b) in Fb.
    destruct L as (r' & z' & lz' & pz' & nz' & Er' & El' & Cz' & Fz'). repeat apply conj.
    + exists a. do 4 eexists. repeat apply conj; [reflexivity|reflexivity|exact Ca|]. apply Cr. left. reflexivity.
    + exists ((a :: ra) ++ r'), z', ((p, nj) :: lz'), pz', nz'. rewrite Er', <- app_assoc, El'. repeat apply conj; [reflexivity|reflexivity|exact Cz'|exact Fz'].
    + intros p' n q m Hin. unfold consecutive in Hin. cbn [tl combine In] in Hin. destruct Hin as [E|Hin].
      * injection E as <- <- <- <-. exists z, b. rewrite Ez, <- app_assoc. cbn [app]. repeat apply conj; [|exact Cz|exact Cb| |exact Fb].
        -- rewrite consecutive_join. apply in_or_app. right. left. reflexivity.
        -- apply Cr. rewrite Ez. apply in_or_app. right. left. reflexivity.
      * destruct (Cn p' n q m Hin) as (x & y & Hxy & K). exists x, y. split; [|exact K].
        rewrite consecutive_join. apply in_or_app. right. exact Hxy.
    + intros q Hq. apply in_app_or in Hq as [Hq|Hq].
      * exists p, nj. repeat apply conj; [left; reflexivity|apply Cr, Hq|apply Cg, Hq].
      * destruct (Al q Hq) as (p' & n' & Hin & K). exists p', n'. split; [right; exact Hin|exact K].
Qed.
Lemma normals_pairs (first : Pt) : forall l p q, In (p, q) (consecutive l) ->
  exists m, In ((p, unit_normal p q), (q, m)) (consecutive (combine l (normals (N:=ROps) first l))).
Proof.
  induction l as [|a l IH]; [intros ? ? []|]. intros p q H. destruct l as [|b l]; [destruct H|]. unfold consecutive in H. cbn [tl combine In] in H. destruct H as [E|H].
  - injection E as <- <-. cbn [normals combine]. unfold consecutive. cbn [tl]. eexists. left. reflexivity.
  - destruct (IH p q H) as [m Hm]. exists m.
    change (combine (a :: b :: l) (normals first (a :: b :: l))) with ((a, unit_normal a b) :: combine (b :: l) (normals first (b :: l))).
    change ((a, unit_normal a b) :: combine (b :: l) (normals first (b :: l))) with ([(a, unit_normal a b)] ++ combine (b :: l) (normals first (b :: l))).
    cbn [normals combine] in *. rewrite consecutive_join. apply in_or_app. right. exact Hm.
Qed.
Lemma normals_in (first : Pt) : forall l p n, In (p, n) (combine l (normals (N:=ROps) first l)) -> exists q, n = unit_normal p q /\ (In (p, q) (consecutive l) \/ (q = first /\ exists r, l = r ++ [p])).
Proof.
  induction l as [|a l IH]; [intros ? ? []|]. intros p n H. cbn [normals combine In] in H. destruct H as [E|H].
  - injection E as <- <-. destruct l as [|b l].
    + exists first. split; [reflexivity|]. right. split; [reflexivity|]. exists []. reflexivity.
    + exists b. split; [reflexivity|]. left. left. reflexivity.
  - destruct (IH p n H) as (q & -> & [K|(-> & r & ->)]).
    + exists q. split; [reflexivity|]. left. destruct l as [|b l]; [destruct K|]. right. exact K.
    + exists first. split; [reflexivity|]. right. split; [reflexivity|]. exists (a :: r). reflexivity.
Qed.
Lemma normals_last (first : Pt) : forall l p, normals (N:=ROps) first (l ++ [p]) = normals (N:=ROps) first (l ++ [p]) -> exists k, normals (N:=ROps) first (l ++ [p]) = k ++ [unit_normal p first] /\ length k = length l.
Proof.
  intros l p _. induction l as [|a l (k & E & Hl)]; [exists []; split; reflexivity|].
  exists (unit_normal a (match l ++ [p] with [] => first | q :: _ => q end) :: k). cbn [app normals]. rewrite E. split; [reflexivity|]. cbn. f_equal. exact Hl.
Qed.
Lemma combine_last {A B} (l : list A) (k : list B) a b : length k = length l -> combine (l ++ [a]) (k ++ [b]) = combine l k ++ [(a, b)].
Proof. revert k. induction l as [|x l IH]; intros [|y k] H; try discriminate; [reflexivity|]. cbn. f_equal. apply IH. cbn in H. lia. Qed.
Lemma points_equal_true (p q : Pt) : points_equal p q = true <-> p = q.
Proof.
  unfold points_equal. rewrite andb_true_iff. cbn. rewrite !Reqb_true. destruct p, q; cbn. split; [intros [-> ->]; reflexivity|intros [= -> ->]; auto].
Qed.
Lemma points_equal_false (p q : Pt) : points_equal p q = false <-> p <> q.
Proof. rewrite <- not_true_iff_false, points_equal_true. reflexivity. Qed.

Lemma consecutive_cyclic (l : list Pt) a b : In (a, b) (consecutive l) -> In (a, b) (cyclic_edges l).
Proof.
  destruct l as [|x l]; [intros []|]. destruct (@exists_last _ (x :: l)) as (m & z & E); [discriminate|]. rewrite E.
  destruct m as [|y m]; [intros []|]. rewrite cyclic_last by discriminate. intros H. apply in_or_app. left. exact H.
Qed.
Lemma cyclic_closing (a : Pt) r x l z : a :: r = l ++ [z] -> x = a -> In (z, x) (cyclic_edges (a :: r)).
Proof.
  intros E ->. rewrite E. destruct l as [|b l].
  - cbn in E. injection E as E1 E2. subst a. cbn. left. reflexivity.
  - injection E as <- E. rewrite cyclic_last by discriminate. apply in_or_app. right. left. reflexivity.
Qed.
Lemma cyclic_cases (l : list Pt) z p q : l <> [] -> In (p, q) (cyclic_edges (l ++ [z])) -> In (p, q) (consecutive (l ++ [z])) \/ (p = z /\ q = hd z l).
Proof.
  intros Hl H. rewrite cyclic_last in H by exact Hl. apply in_app_or in H as [H|[E|[]]]; [left; exact H|right]. injection E as <- <-. auto.
Qed.
Lemma outline_corners jt (delta limit : R) (l : list Pt) z : l <> [] -> no_repeats (cyclic_edges (l ++ [z])) ->
  (3 <= length (l ++ [z]))%nat ->
  outline (N:=ROps) jt delta limit (l ++ [z]) =
  rbind (corners (N:=ROps) jt delta (miter_limit (N:=ROps) limit) (outward z (hd z l)) (combine (l ++ [z]) (normals (N:=ROps) (hd z l) (l ++ [z])))) (fun out => Ok (Some out)).
Proof.
  intros Hl Hn H3. destruct l as [|p l]; [congruence|]. cbn [hd]. unfold outline. cbn [app] in *.
  assert (Hz : z <> p). { apply Hn. apply (cyclic_closing p (l ++ [z]) p (p :: l) z); reflexivity. }
  replace (Nat.ltb (length (p :: l ++ [z])) 3) with false by (symmetry; apply Nat.ltb_ge; exact H3). cbn [andb].
  destruct (l ++ [z]) as [|b k] eqn:E; [destruct l; discriminate|]. rewrite <- E.
  assert (La : last (p :: l ++ [z]) p = z) by (change (p :: l ++ [z]) with ((p :: l) ++ [z]); apply last_last). rewrite La.
  assert (Pe : points_equal p z = false) by (apply points_equal_false; congruence). rewrite Pe.
  destruct (normals_last p (p :: l) z eq_refl) as (kk & En & _). change ((p :: l) ++ [z]) with (p :: l ++ [z]) in En. rewrite En, last_last.
  rewrite unit_normal_out by exact Hz. reflexivity.
Qed.

(** Every side of the polygon has a parallel side of the outline: its ends lie, up to the rounding to the grid, at the distance
    [delta] to the right of the side, and no further from the ends of the side than the join allows. *)
Theorem C170_sides jt (delta limit : R) (pts out : list Pt) : (3 <= length pts)%nat -> no_repeats (cyclic_edges pts) ->
  outline (N:=ROps) jt delta limit pts = Ok (Some out) ->
  forall p q, In (p, q) (cyclic_edges pts) ->
  exists x y, In (x, y) (cyclic_edges out) /\
    Rabs (to_the_right p q x - delta) <= half_cell /\ Rabs (to_the_right p q y - delta) <= half_cell /\
    euclid p x <= reach jt limit * Rabs delta + half_cell /\ euclid q y <= reach jt limit * Rabs delta + half_cell.
Proof.
  intros H3 Hn Ho p q Hpq. destruct (@exists_last _ pts) as (l & z & E); [intros ->; cbn in H3; lia|]. subst pts.
  assert (Hl : l <> []) by (intros ->; cbn in H3; lia).
  rewrite (outline_corners jt delta limit l z Hl Hn H3) in Ho.
  destruct (corners jt delta (miter_limit limit) (outward z (hd z l)) (combine (l ++ [z]) (normals (hd z l) (l ++ [z])))) as [o|e] eqn:Ec; [|discriminate].
  cbn [rbind] in Ho. injection Ho as ->.
  assert (Hz : z <> hd z l). { apply Hn. rewrite cyclic_last by exact Hl. apply in_or_app. right. left. reflexivity. }
  set (first := hd z l) in *.
  assert (Hu : forall a n, In (a, n) (combine (l ++ [z]) (normals (N:=ROps) first (l ++ [z]))) -> unit_vec n).
  { intros a n Hin. destruct (normals_in first (l ++ [z]) a n Hin) as (b & -> & [K|(-> & r & Er)]).
    - assert (a <> b) by (apply Hn, consecutive_cyclic, K). rewrite unit_normal_out by assumption. apply outward_unit. assumption.
    - apply app_inj_tail in Er as [_ ->]. rewrite unit_normal_out by exact Hz. apply outward_unit. exact Hz. }
  destruct (corners_spec jt delta limit (combine (l ++ [z]) (normals (N:=ROps) first (l ++ [z]))) (outward z first) out) as (F & L & Cn & _); [destruct l; discriminate|apply outward_unit; exact Hz|exact Hu|exact Ec|].
  destruct (cyclic_cases l z p q Hl Hpq) as [K|[-> ->]].
  - assert (Hd : p <> q) by (apply Hn, consecutive_cyclic, K).
    destruct (normals_pairs first _ p q K) as [m Hm]. destruct (Cn _ _ _ _ Hm) as (x & y & Hxy & Cx & Cy & Fx & Fy).
    rewrite unit_normal_out in Cx, Cy by exact Hd. unfold close_to in Cx, Cy.
    destruct (along_right p q x Hd) as [A1 _]. destruct (along_right p q y Hd) as [_ A2]. rewrite A1 in Cx. rewrite A2 in Cy.
    exists x, y. repeat apply conj; try assumption. apply consecutive_cyclic, Hxy.
  - fold first. destruct F as (a & ra & p0 & n0 & l0 & -> & El & Ca & Fa). destruct L as (rz & y & lz & pz & nz & Eo & El' & Cz & Fz).
    assert (P0 : p0 = first). { unfold first. destruct l as [|b l']; [congruence|]. cbn [app normals combine] in El. injection El as <- _ _. reflexivity. }
    destruct (normals_last first l z eq_refl) as (k & Ek & Hk). rewrite Ek, (combine_last l k z) in El' by exact Hk.
    apply app_inj_tail in El' as [_ El']. injection El' as <- <-. subst p0.
    unfold close_to in *. rewrite unit_normal_out in Cz by exact Hz.
    destruct (along_right z first a Hz) as [_ A1]. destruct (along_right z first y Hz) as [A2 _]. rewrite A1 in Ca. rewrite A2 in Cz.
    exists y, a. repeat apply conj; try assumption. apply (cyclic_closing a ra a rz y Eo eq_refl).
Qed.
(** Nothing else: every point of the outline is a vertex or a point of the grid, and near a vertex. *)
Theorem C170_reach jt (delta limit : R) (pts out : list Pt) : (3 <= length pts)%nat -> no_repeats (cyclic_edges pts) ->
  outline (N:=ROps) jt delta limit pts = Ok (Some out) ->
  forall q, In q out -> exists p, In p pts /\ euclid p q <= reach jt limit * Rabs delta + half_cell /\ (q = p \/ on_grid q).
Proof.
  intros H3 Hn Ho. destruct (@exists_last _ pts) as (l & z & E); [intros ->; cbn in H3; lia|]. subst pts.
  assert (Hl : l <> []) by (intros ->; cbn in H3; lia).
  rewrite (outline_corners jt delta limit l z Hl Hn H3) in Ho.
  destruct (corners jt delta (miter_limit limit) (outward z (hd z l)) (combine (l ++ [z]) (normals (hd z l) (l ++ [z])))) as [o|e] eqn:Ec; [|discriminate].
  cbn [rbind] in Ho. injection Ho as ->.
  assert (Hz : z <> hd z l). { apply Hn. rewrite cyclic_last by exact Hl. apply in_or_app. right. left. reflexivity. }
  set (first := hd z l) in *.
  assert (Hu : forall a n, In (a, n) (combine (l ++ [z]) (normals (N:=ROps) first (l ++ [z]))) -> unit_vec n).
  { intros a n Hin. destruct (normals_in first (l ++ [z]) a n Hin) as (b & -> & [K|(-> & r & Er)]).
    - assert (a <> b) by (apply Hn, consecutive_cyclic, K). rewrite unit_normal_out by assumption. apply outward_unit. assumption.
    - apply app_inj_tail in Er as [_ ->]. rewrite unit_normal_out by exact Hz. apply outward_unit. exact Hz. }
  destruct (corners_spec jt delta limit (combine (l ++ [z]) (normals (N:=ROps) first (l ++ [z]))) (outward z first) out) as (_ & _ & _ & Al); [destruct l; discriminate|apply outward_unit; exact Hz|exact Hu|exact Ec|].
  intros q Hq. destruct (Al q Hq) as (p & n & Hin & K). exists p. split; [|exact K]. eapply in_combine_l, Hin.
Qed.
(** A corner that turns outward, joined by a square: two points; the cut is square to the bisector of the sides and at the distance [delta]. *)
Theorem C170_square (delta ml : R) (p a b : Pt) : a <> p -> p <> b ->
  0 <= (px p - px a) * (py b - py p) - (py p - py a) * (px b - px p) -> 0 <= delta ->
  exists x y w, offset_point (N:=ROps) JSquare delta ml p (outward a p) (outward p b) = Ok [x; y] /\
    unit_vec w /\ px w * px (outward a p) + py w * py (outward a p) = px w * px (outward p b) + py w * py (outward p b) /\
    0 <= px w * px (outward p b) + py w * py (outward p b) /\
    Rabs (along w p x - delta) <= half_cell /\ Rabs (along w p y - delta) <= half_cell.
Proof.
  intros Ha Hb Hturn Hd. pose proof (outward_unit a p Ha) as Uk. pose proof (outward_unit p b Hb) as Uj.
  pose proof (offset_point_eq JSquare delta ml p _ _ Uk Uj) as E. unfold offp in E. rewrite E. clear E.
  assert (C : 0 <= crs (outward a p) (outward p b)).
  { unfold crs, outward. cbn [px py]. pose proof (euclid_ne _ _ Ha). pose proof (euclid_ne _ _ Hb).
    remember (euclid a p) as d1. remember (euclid p b) as d2. destruct a as [a1 a2], p as [p1 p2], b as [b1 b2]. cbn [px py] in *. toR.
    match goal with |- 0 <= ?t => replace t with (((p1 - a1) * (b2 - p2) - (p2 - a2) * (b1 - p1)) / (d1 * d2)) by (field; lra) end.
    apply Rmult_le_pos; [exact Hturn|]. apply Rlt_le, Rinv_0_lt_compat. nra. }
  replace (Rltb (crs (outward a p) (outward p b) * delta) 0) with false by (symmetry; apply Rltb_false; nra).
  do 2 eexists. exists (bis (outward a p) (outward p b)). split; [reflexivity|].
  destruct (sq_cut p (outward a p) (outward p b) delta Uk Uj) as [S1 S2].
  pose proof (bis_nk (outward a p) (outward p b) Uk) as B1. pose proof (bis_nj (outward a p) (outward p b) Uk Uj) as B2. unfold dt in B1, B2.
  repeat apply conj.
  - apply bis_unit; assumption.
  - rewrite B1, B2. reflexivity.
  - rewrite B2. apply cos_half_ge; assumption.
  - apply (round_along _ p (sq1 p (outward a p) (outward p b) delta)); [apply bis_unit; assumption|exact S1].
  - apply (round_along _ p (sq2 p (outward a p) (outward p b) delta)); [apply bis_unit; assumption|exact S2].
Qed.
(** A corner that turns away from the offset: a point on each of the offset lines, and the vertex between them. *)
Theorem C170_reflex jt (delta ml : R) (p a b : Pt) : a <> p -> p <> b ->
  ((px p - px a) * (py b - py p) - (py p - py a) * (px b - px p)) * delta < 0 ->
  exists x y, offset_point (N:=ROps) jt delta ml p (outward a p) (outward p b) = Ok [x; p; y] /\
    Rabs (to_the_right a p x - delta) <= half_cell /\ Rabs (to_the_right p b y - delta) <= half_cell /\
    euclid p x <= Rabs delta + half_cell /\ euclid p y <= Rabs delta + half_cell.
Proof.
  intros Ha Hb Hturn. pose proof (outward_unit a p Ha) as Uk. pose proof (outward_unit p b Hb) as Uj.
  pose proof (offset_point_eq jt delta ml p _ _ Uk Uj) as E. unfold offp in E. rewrite E. clear E.
  assert (C : crs (outward a p) (outward p b) * delta < 0).
  { unfold crs, outward. cbn [px py]. pose proof (euclid_ne _ _ Ha) as D1. pose proof (euclid_ne _ _ Hb) as D2.
    remember (euclid a p) as d1. remember (euclid p b) as d2. clear Heqd1 Heqd2 Uk Uj. destruct a as [a1 a2], p as [p1 p2], b as [b1 b2]. cbn [px py] in *. toR.
    match goal with |- ?t < 0 => replace t with (((p1 - a1) * (b2 - p2) - (p2 - a2) * (b1 - p1)) * delta / (d1 * d2)) by (field; lra) end.
    apply Ropp_lt_cancel. rewrite Ropp_0. unfold Rdiv. rewrite Ropp_mult_distr_l. apply Rmult_lt_0_compat; [lra|]. apply Rinv_0_lt_compat, Rmult_lt_0_compat; assumption. }
  replace (Rltb (crs (outward a p) (outward p b) * delta) 0) with true by (symmetry; apply Rltb_true; exact C).
  do 2 eexists. split; [reflexivity|].
  set (m1 := P (px p + px (outward a p) * delta) (py p + py (outward a p) * delta) : Pt). set (m2 := P (px p + px (outward p b) * delta) (py p + py (outward p b) * delta) : Pt).
  repeat apply conj.
  - destruct (along_right a p (roundpt (px m1) (py m1)) Ha) as [_ A]. change (px p + px (outward a p) * delta)%R with (px m1). change (py p + py (outward a p) * delta)%R with (py m1).
    rewrite <- A. apply (round_along _ p m1); [exact Uk|]. apply unit_along, Uk.
  - destruct (along_right p b (roundpt (px m2) (py m2)) Hb) as [A _]. change (px p + px (outward p b) * delta)%R with (px m2). change (py p + py (outward p b) * delta)%R with (py m2).
    rewrite <- A. apply (round_along _ p m2); [exact Uj|]. apply unit_along, Uj.
  - apply (round_reach p m1), unit_reach, Uk.
  - apply (round_reach p m2), unit_reach, Uj.
Qed.
Lemma miter_cmp (lim d r e : R) : 0 < d -> 2 < lim -> 0 < r -> 0 <= e -> e * e * r = 2 * (d * d) ->
  (e <= lim * d -> 2 / (lim * lim) <= r) /\ (lim * d < e -> r < 2 / (lim * lim)).
Proof.
  intros Hd Hl Hr He K. assert (Hdd : 0 < d * d) by nra. assert (Hll : 0 < lim * lim) by nra.
  assert (E : 2 / (lim * lim) * (lim * lim * (d * d)) = e * e * r) by (rewrite K; field; lra).
  assert (F : r * (lim * lim * (d * d)) = lim * d * (lim * d) * r) by ring.
  split; intros H.
  - apply Rmult_le_reg_r with (lim * lim * (d * d)); [nra|]. rewrite E, F. apply Rmult_le_compat_r; [lra|]. apply Rmult_le_compat; lra.
  - apply Rmult_lt_reg_r with (lim * lim * (d * d)); [nra|]. rewrite E, F. apply Rmult_lt_compat_r; [lra|]. assert (0 < lim * d) by nra. nra.
Qed.
(** A corner that turns outward, joined by a miter: the point where the two offset lines meet if it is within [limit] times
    the offset, otherwise the corner is cut by a square. *)
Theorem C170_miter (delta limit : R) (p a b m : Pt) : a <> p -> p <> b ->
  0 < (px p - px a) * (py b - py p) - (py p - py a) * (px b - px p) -> 0 < delta -> 2 < limit ->
  to_the_right a p m = delta -> to_the_right p b m = delta ->
  (euclid p m <= limit * delta -> exists x, offset_point (N:=ROps) JMiter delta (miter_limit (N:=ROps) limit) p (outward a p) (outward p b) = Ok [x] /\ near (1 / 2) m x) /\
  (limit * delta < euclid p m -> offset_point (N:=ROps) JMiter delta (miter_limit (N:=ROps) limit) p (outward a p) (outward p b) =
     offset_point (N:=ROps) JSquare delta (miter_limit (N:=ROps) limit) p (outward a p) (outward p b)).
Proof.
  intros Ha Hb Hturn Hd Hlim Ma Mb. pose proof (outward_unit a p Ha) as Uk. pose proof (outward_unit p b Hb) as Uj.
  destruct (along_right a p m Ha) as [_ A1]. destruct (along_right p b m Hb) as [A2 _]. rewrite <- A1 in Ma. rewrite <- A2 in Mb. clear A1 A2.
  assert (C : 0 < crs (outward a p) (outward p b)).
  { unfold crs, outward. cbn [px py]. pose proof (euclid_ne _ _ Ha). pose proof (euclid_ne _ _ Hb).
    remember (euclid a p) as d1. remember (euclid p b) as d2. destruct a as [a1 a2], p as [p1 p2], b as [b1 b2]. cbn [px py] in *. toR.
    match goal with |- 0 < ?t => replace t with (((p1 - a1) * (b2 - p2) - (p2 - a2) * (b1 - p1)) / (d1 * d2)) by (field; lra) end.
    apply Rdiv_lt_0_compat; [exact Hturn|]. nra. }
  set (nk := outward a p) in *. set (nj := outward p b) in *.
  pose proof (unit_crs nk nj Uk Uj) as Uc. assert (Hr : 0 < rr nk nj).
  { unfold rr. revert Uc C. generalize (crs nk nj) (dt nk nj). clear. intros u v H1 H2. destruct (Rlt_dec 0 (1 + v)) as [H|H]; [exact H|]. exfalso.
    assert (0 < u * u) by (apply Rmult_lt_0_compat; exact H2). assert (K : 0 <= (- v - 1) * (- v - 1)) by (apply Rle_0_sqr). lra. }
  assert (Em : m = mt p nk nj delta) by (apply mt_unique; auto; lra).
  pose proof (mt_dist p nk nj delta Uk Uj Hr) as D. rewrite <- Em in D. pose proof (euclid_pos p m) as Ep.
  pose proof (offset_point_eq JMiter delta (miter_limit (N:=ROps) limit) p nk nj Uk Uj) as E1. unfold offp in E1. rewrite E1. clear E1.
  pose proof (offset_point_eq JSquare delta (miter_limit (N:=ROps) limit) p nk nj Uk Uj) as E2. unfold offp in E2. rewrite E2. clear E2.
  replace (Rltb (crs nk nj * delta) 0) with false by (symmetry; apply Rltb_false; apply Rlt_le, Rmult_lt_0_compat; assumption).
  assert (Ml : miter_limit (N:=ROps) limit = 2 / (limit * limit)).
  { rewrite miter_limit_eq. replace (Rltb 2 limit) with true by (symmetry; apply Rltb_true; exact Hlim). reflexivity. }
  assert (K : euclid p m * euclid p m * rr nk nj = 2 * (delta * delta)) by (rewrite D; field; lra).
  destruct (miter_cmp limit delta (rr nk nj) (euclid p m) Hd Hlim Hr Ep K) as [L1 L2].
  split; intros Hm.
  - apply L1 in Hm. rewrite Ml. replace (Rleb (2 / (limit * limit)) (rr nk nj)) with true by (symmetry; apply Rleb_true; exact Hm).
    destruct (Reqb (rr nk nj) 0) eqn:Z; [apply Reqb_true in Z; lra|]. rewrite <- Em.
    eexists. split; [reflexivity|]. destruct m. apply roundpt_near.
  - apply L2 in Hm. rewrite Ml. destruct (Rleb (2 / (limit * limit)) (rr nk nj)) eqn:Z; [apply Rleb_true in Z; lra|]. reflexivity.
Qed.

(** ** C172: area and orientation *)
Definition crp (e : Pt * Pt) : R := let '(a, b) := e in px a * py b - px b * py a.
Lemma area_loop_sum : forall (l : list Pt) (a : R) (p : Pt),
  area_loop (N:=ROps) a p l = a + sum_over crp (consecutive (p :: l)) + (px (last l p) * py (last l p) - px p * py p).
Proof.
  induction l as [|q l IH]; intros a p.
  - cbn. toR. ring.
  - cbn [area_loop]. rewrite IH. 
    replace (last (q :: l) p) with (last l q) by (destruct l; [reflexivity|]; cbn [last]; clear; generalize p0 at 1 2; intros; induction l in p1 |- *; [reflexivity|]; cbn; destruct l; auto).
    change (consecutive (p :: q :: l)) with ((p, q) :: consecutive (q :: l)). unfold sum_over. cbn [fold_right crp]. unfold area_term.
    generalize (last l q) as z. intros z. destruct p as [a1 a2], q as [b1 b2]. cbn. toR. ring.
Qed.
Lemma sum_close (f : Pt * Pt -> R) (z : Pt) : forall l p, sum_over f (consecutive (p :: l ++ [z])) = sum_over f (consecutive (p :: l)) + f (last l p, z).
Proof.
  induction l as [|q l IH]; intros p.
  - unfold sum_over. cbn. ring.
  - change (consecutive (p :: (q :: l) ++ [z])) with ((p, q) :: consecutive (q :: l ++ [z])). change (consecutive (p :: q :: l)) with ((p, q) :: consecutive (q :: l)).
    unfold sum_over in *. cbn [fold_right]. rewrite IH.
    replace (last (q :: l) p) with (last l q) by (destruct l; [reflexivity|]; cbn [last]; clear; generalize p0 at 1 2; intros; induction l in p1 |- *; [reflexivity|]; cbn; destruct l; auto). ring.
Qed.
Theorem C172_area (l : list Pt) : l <> [] -> cl_area (N:=ROps) l = Ok (signed_area l).
Proof.
  destruct l as [|p r]; [congruence|]. intros _. unfold cl_area. f_equal.
  change (area_loop (N:=ROps) (area_term (last (p :: r) p) p) p r / 2 = signed_area (p :: r)).
  unfold signed_area. f_equal. rewrite area_loop_sum.
  transitivity (sum_over crp (cyclic_edges (p :: r))); [|reflexivity]. rewrite cyclic_as, sum_close.
  replace (last (p :: r) p) with (last r p) by (destruct r; reflexivity).
  generalize (sum_over crp (consecutive (p :: r))) as s. generalize (last r p) as z. intros z s. unfold area_term, crp. destruct p as [a b], z as [c d]. cbn. toR. ring.
Qed.
Theorem C172_empty : cl_area (N:=ROps) [] = Raise IndexError.
Proof. reflexivity. Qed.
Theorem C172_orientation (l : list Pt) b : orientation (N:=ROps) l = Ok b -> (b = true <-> 0 < signed_area l).
Proof.
  intros H. unfold orientation in H. destruct l as [|p r]; [discriminate|]. rewrite C172_area in H by discriminate. cbn in H. injection H as <-.
  apply Rltb_true.
Qed.
Theorem C172_reversed (l : list Pt) : l <> [] -> cl_area (N:=ROps) (rev l) = Ok (- signed_area l).
Proof.
  intros H. rewrite C172_area.
  - f_equal. apply signed_area_rev.
  - intros E. apply H. rewrite <- (rev_involutive l), E. reflexivity.
Qed.
Theorem C172_example : cl_area (N:=ROps) [P 0 0; P 4 0; P 0 3]%R = Ok 6 /\ orientation (N:=ROps) [P 0 0; P 4 0; P 0 3]%R = Ok true.
Proof.
  assert (S : signed_area [P 0 0; P 4 0; P 0 3]%R = 6) by (unfold signed_area, sum_over; cbn; lra).
  assert (E : cl_area (N:=ROps) [P 0 0; P 4 0; P 0 3]%R = Ok 6) by (rewrite C172_area by discriminate; rewrite S; reflexivity).
  split; [exact E|]. unfold orientation. rewrite E. cbn. f_equal. apply Rltb_true. lra.
Qed.

(** ** C171: to the grid and back *)
Lemma Ztrunc_spec (x : R) : Rabs (IZR (Ztrunc x) - x) < 1 /\ Rabs (IZR (Ztrunc x)) <= Rabs x.
Proof.
  unfold Ztrunc. destruct (Rlt_dec x 0) as [H|H].
  - pose proof (Zfloor_spec (- x)) as F. rewrite opp_IZR. assert (0 <= IZR (Zfloor (- x))).
    { apply IZR_le. assert (-1 < Zfloor (- x))%Z; [|lia]. apply lt_IZR. lra. }
    split; [apply Rabs_def1; lra|]. rewrite (Rabs_left x) by lra. rewrite Rabs_Ropp, Rabs_pos_eq by lra. lra.
  - pose proof (Zfloor_spec x) as F. assert (0 <= IZR (Zfloor x)).
    { apply IZR_le. assert (-1 < Zfloor x)%Z; [|lia]. apply lt_IZR. lra. }
    split; [apply Rabs_def1; lra|]. rewrite !Rabs_pos_eq by lra. lra.
Qed.
(** The point of the grid that stands for a vertex: whole coordinates, less than one unit off, never further from the axes. *)
Definition grid_of (mult : R) (p g : Pt) : Prop :=
  on_grid g /\ Rabs (px g - px p * mult) < 1 /\ Rabs (py g - py p * mult) < 1 /\
  Rabs (px g) <= Rabs (px p * mult) /\ Rabs (py g) <= Rabs (py p * mult).
Theorem C171_to_grid (mult : R) (poly : list Pt) : Forall2 (grid_of mult) poly (poly2clipper (N:=ROps) mult poly).
Proof.
  induction poly as [|p l IH]; cbn [poly2clipper map]; constructor; [|exact IH].
  destruct (Ztrunc_spec (px p * mult)) as [X1 X2]. destruct (Ztrunc_spec (py p * mult)) as [Y1 Y2].
  split; [do 2 eexists; reflexivity|]. repeat split; assumption.
Qed.
Lemma clipper2poly_eq (mult : R) (l : list Pt) : exists c, clipper2poly (E:=eps6) (N:=ROps) mult l = map (fun p => P (px p / mult) (py p / mult)) l ++ c /\
  (c = [] \/ exists p r, l = p :: r /\ c = [P (px p / mult) (py p / mult)]).
Proof.
  unfold clipper2poly. change (fun p : pt ROps => P (px p / mult)%num (py p / mult)%num) with (fun p : Pt => P (px p / mult) (py p / mult) : Pt).
  destruct l as [|a [|b [|c l]]]; try (exists []; split; [reflexivity|left; reflexivity]).
  cbn [map]. match goal with |- context [if ?t then _ else _] => destruct t end.
  - exists [P (px a / mult) (py a / mult)]. split; [reflexivity|]. right. do 2 eexists. split; reflexivity.
  - exists []. split; [rewrite app_nil_r; reflexivity|]. left. reflexivity.
Qed.
(** There and back moves a vertex by less than one unit of the grid in each coordinate, towards the axes; at most a copy of the
    first vertex is added. *)
Theorem C171_round_trip (mult : R) (poly : list Pt) : 0 < mult ->
  exists back c, clipper2poly (E:=eps6) (N:=ROps) mult (poly2clipper (N:=ROps) mult poly) = back ++ c /\ (c = [] \/ c = firstn 1 back) /\
    Forall2 (fun p q => Rabs (px q - px p) < 1 / mult /\ Rabs (py q - py p) < 1 / mult /\ Rabs (px q) <= Rabs (px p) /\ Rabs (py q) <= Rabs (py p)) poly back.
Proof.
  intros Hm. destruct (clipper2poly_eq mult (poly2clipper (N:=ROps) mult poly)) as (c & E & Hc). rewrite E.
  do 2 eexists. split; [reflexivity|]. split.
  - destruct Hc as [->|(p & r & -> & ->)]; [left; reflexivity|right; reflexivity].
  - pose proof (C171_to_grid mult poly) as G. clear E Hc. induction G as [|p g l l' (_ & X1 & Y1 & X2 & Y2) G IH]; cbn [map]; constructor; [|exact IH].
    assert (Hi : 0 < / mult) by (apply Rinv_0_lt_compat; exact Hm).
    assert (A1 : forall u v, Rabs (u - v * mult) < 1 -> Rabs (u / mult - v) < 1 / mult).
    { intros u v H. replace (u / mult - v) with ((u - v * mult) * / mult) by (field; lra). rewrite Rabs_mult, (Rabs_pos_eq (/ mult)) by lra.
      unfold Rdiv. apply Rmult_lt_compat_r; assumption. }
    assert (A2 : forall u v, Rabs u <= Rabs (v * mult) -> Rabs (u / mult) <= Rabs v).
    { intros u v H. replace v with (v * mult * / mult) by (field; lra). unfold Rdiv. rewrite (Rabs_mult u), (Rabs_mult (v * mult)).
      apply Rmult_le_compat_r; [apply Rabs_pos|exact H]. }
    cbn [px py]. repeat split; [apply A1|apply A1|apply A2|apply A2]; assumption.
Qed.
(** The polygons that come back are closed. *)
Theorem C171_closed (mult : R) (l : list Pt) : (3 <= length l)%nat ->
  exists a r z, clipper2poly (E:=eps6) (N:=ROps) mult l = a :: r ++ [z] /\ peq (E:=eps6) a z = true.
Proof.
  intros H. unfold clipper2poly. destruct l as [|a [|b [|c l]]]; cbn [length] in H; try lia. cbn [map].
  set (f := fun p : pt ROps => P (px p / mult)%num (py p / mult)%num). change (P (px a / mult)%num (py a / mult)%num) with (f a).
  change (P (px b / mult)%num (py b / mult)%num) with (f b). change (P (px c / mult)%num (py c / mult)%num) with (f c).
  destruct (peq (f a) (last (f a :: f b :: f c :: map f l) (f a))) eqn:Q; cbn [negb].
  - destruct (@exists_last _ (f b :: f c :: map f l)) as (m & z & Em); [discriminate|]. rewrite Em in *. exists (f a), m, z. split; [reflexivity|].
    change (f a :: m ++ [z]) with ((f a :: m) ++ [z]) in Q. rewrite last_last in Q. exact Q.
  - exists (f a), (f b :: f c :: map f l), (f a). split; [reflexivity|]. apply PolyProofs5.peq_self. unfold EPS, eps6; cbn; lra.
Qed.

(** ** C173: which polygons can be offset *)
Lemma strip_loop_same : forall count i (l : list Pt), (i + count <= length l)%nat -> (1 <= i)%nat ->
  (forall k, (i <= k < length l)%nat -> nth (k - 1) l pt0 <> nth k l pt0) -> strip_loop (N:=ROps) count i l = Ok l.
Proof.
  induction count as [|count IH]; intros i l H1 H2 Hd; [reflexivity|]. cbn [strip_loop].
  replace (Nat.leb (length l) i) with false by (symmetry; apply Nat.leb_gt; lia).
  assert (E : points_equal (nth (i - 1) l pt0) (nth i l pt0) = false) by (apply points_equal_false, Hd; lia). rewrite E.
  apply IH; [lia|lia|]. intros k Hk. apply Hd. lia.
Qed.
Lemma remove_nth_length {A} : forall (l : list A) i, (length (remove_nth i l) <= length l)%nat /\ ((i < length l)%nat -> S (length (remove_nth i l)) = length l).
Proof.
  induction l as [|a l IH]; intros [|i]; cbn [remove_nth length]; [lia|lia|lia|]. destruct (IH i) as [A1 A2]. split; [lia|]. intros H. rewrite A2; lia.
Qed.
Lemma strip_loop_short : forall count i (l : list Pt), (1 <= count)%nat -> (length l < i + count)%nat -> strip_loop (N:=ROps) count i l = Raise IndexError.
Proof.
  induction count as [|count IH]; intros i l H1 H2; [lia|]. cbn [strip_loop]. destruct (Nat.leb (length l) i) eqn:E; [reflexivity|]. apply Nat.leb_gt in E.
  apply IH; [lia|]. destruct (points_equal _ _); [|lia]. destruct (remove_nth_length l i). lia.
Qed.
Lemma strip_loop_dup : forall count i (l : list Pt) k, (i + count = length l)%nat -> (1 <= i <= k)%nat -> (S k < length l)%nat -> nth (k - 1) l pt0 = nth k l pt0 ->
  strip_loop (N:=ROps) count i l = Raise IndexError.
Proof.
  induction count as [|count IH]; intros i l k H1 H2 H3 Hd; [lia|]. cbn [strip_loop].
  replace (Nat.leb (length l) i) with false by (symmetry; apply Nat.leb_gt; lia).
  destruct (points_equal (nth (i - 1) l pt0) (nth i l pt0)) eqn:E.
  - apply strip_loop_short; [lia|]. destruct (remove_nth_length l i) as [_ K]. rewrite <- K in H1 by lia. lia.
  - apply points_equal_false in E. assert (i <> k) by congruence. apply (IH (S i) l k); [lia|lia|lia|exact Hd].
Qed.
Lemma consecutive_nth {A} (d : A) : forall (l : list A) k, (S k < length l)%nat -> In (nth k l d, nth (S k) l d) (consecutive l).
Proof.
  induction l as [|a l IH]; [cbn; lia|]. intros k H. destruct l as [|b l]; [cbn in H; lia|]. destruct k as [|k]; [left; reflexivity|].
  right. apply (IH k). cbn [length] in *. lia.
Qed.
Lemma strip_end_stop (p0 : Pt) (h : list Pt) z : h <> [] -> z <> p0 -> strip_end (N:=ROps) p0 (rev (h ++ [z])) = rev (h ++ [z]).
Proof.
  intros Hh Hz. rewrite rev_app_distr. cbn [rev app strip_end]. destruct (rev h) as [|y r] eqn:E.
  - exfalso. apply Hh. rewrite <- (rev_involutive h), E. reflexivity.
  - replace (points_equal z p0) with false by (symmetry; apply points_equal_false; exact Hz). reflexivity.
Qed.
(** The vertices a polygon stands for: it may be given open or closed. *)
Definition stands_for (g h : list Pt) : Prop := g = h \/ exists p r, h = p :: r /\ g = h ++ [p].
Lemma strip_dup_polygon (g h : list Pt) : stands_for g h -> (3 <= length h)%nat -> no_repeats (cyclic_edges h) -> strip_dup (N:=ROps) g = Ok h.
Proof.
  intros Hs H3 Hn. destruct (@exists_last _ h) as (l & z & E); [intros ->; cbn in H3; lia|].
  assert (Hl : l <> []) by (intros ->; rewrite E in H3; cbn in H3; lia).
  assert (Hz : z <> hd z l). { apply Hn. rewrite E, cyclic_last by exact Hl. apply in_or_app. right. left. reflexivity. }
  assert (Hc : forall k, (1 <= k < length h)%nat -> nth (k - 1) h pt0 <> nth k h pt0).
  { intros k Hk. apply Hn, consecutive_cyclic. replace k with (S (k - 1)) at 2 by lia. apply consecutive_nth. lia. }
  destruct h as [|p r]; [cbn in H3; lia|].
  assert (Hp : hd z l = p) by (destruct l; [congruence|]; cbn in E |- *; injection E; auto). rewrite Hp in Hz.
  destruct Hs as [->|(p' & r' & Eh & ->)].
  - unfold strip_dup. rewrite strip_loop_same; [|lia|lia|intros k Hk; apply Hc; lia]. cbn [rbind]. rewrite E, strip_end_stop by assumption. rewrite rev_involutive. reflexivity.
  - injection Eh as <- <-. unfold strip_dup. cbn [app]. change (p :: r ++ [p]) with ((p :: r) ++ [p]). rewrite app_length. cbn [length] in *.
    rewrite strip_loop_same; [|rewrite app_length; cbn [length]; lia|lia|].
    2: { rewrite app_length. cbn [length]. intros k Hk. destruct (Nat.eq_dec k (S (length r))) as [->|Hne].
      - rewrite (app_nth1 _ _ _ (n := S (length r) - 1)) by (cbn [length]; lia). rewrite app_nth2 by (cbn [length]; lia). cbn [length]. rewrite Nat.sub_diag.
        change (nth 0 [p] pt0) with p. rewrite E. replace (S (length r) - 1)%nat with (length l).
        + rewrite app_nth2 by lia. rewrite Nat.sub_diag. exact Hz.
        + apply (f_equal (@length _)) in E. rewrite app_length in E. cbn in E. lia.
      - rewrite !app_nth1 by (cbn [length]; lia). apply Hc. lia. }
    cbn [rbind]. f_equal. rewrite (rev_app_distr (p :: r)). cbn [rev app strip_end].
    destruct (rev r ++ [p]) as [|y k] eqn:Er; [destruct (rev r); discriminate|].
    replace (points_equal p p) with true by (symmetry; apply points_equal_true; reflexivity). rewrite <- Er.
    change (rev r ++ [p]) with (rev (p :: r)). rewrite E, strip_end_stop by assumption. apply rev_involutive.
Qed.
Lemma find_lowest_one (g h : list Pt) : stands_for g h -> (3 <= length h)%nat -> no_repeats (cyclic_edges h) ->
  exists b, find_lowest (N:=ROps) None [g] = Ok (Some (b, h), [h]).
Proof.
  intros Hs H3 Hn. cbn [find_lowest]. rewrite (strip_dup_polygon g h Hs H3 Hn). cbn [rbind].
  destruct h as [|a [|b [|c h]]]; cbn [length] in H3; try lia. eexists. reflexivity.
Qed.
Lemma outline_ok jt (delta limit : R) (h : list Pt) : (3 <= length h)%nat -> no_repeats (cyclic_edges h) -> jt <> JRound ->
  exists out, outline (N:=ROps) jt delta limit h = Ok (Some out).
Proof.
  intros H3 Hn Hj. destruct (@exists_last _ h) as (l & z & E); [intros ->; cbn in H3; lia|]. subst h.
  assert (Hl : l <> []) by (intros ->; cbn in H3; lia).
  rewrite (outline_corners jt delta limit l z Hl Hn H3).
  assert (Hz : z <> hd z l). { apply Hn. rewrite cyclic_last by exact Hl. apply in_or_app. right. left. reflexivity. }
  set (first := hd z l) in *.
  assert (Hu : forall a n, In (a, n) (combine (l ++ [z]) (normals (N:=ROps) first (l ++ [z]))) -> unit_vec n).
  { intros a n Hin. destruct (normals_in first (l ++ [z]) a n Hin) as (b & -> & [K|(-> & r & Er)]).
    - assert (a <> b) by (apply Hn, consecutive_cyclic, K). rewrite unit_normal_out by assumption. apply outward_unit. assumption.
    - apply app_inj_tail in Er as [_ ->]. rewrite unit_normal_out by exact Hz. apply outward_unit. exact Hz. }
  assert (G : forall k nk, unit_vec nk -> (forall a n, In (a, n) k -> unit_vec n) -> exists o, corners (N:=ROps) jt delta (miter_limit (N:=ROps) limit) nk k = Ok o).
  { induction k as [|[p nj] k IH]; intros nk Hk Hk'; [eexists; reflexivity|]. cbn [corners].
    assert (Uj : unit_vec nj) by (apply (Hk' p); left; reflexivity).
    assert (Q : exists qs, offset_point (N:=ROps) jt delta (miter_limit (N:=ROps) limit) p nk nj = Ok qs).
    { pose proof (offset_point_eq jt delta (miter_limit (N:=ROps) limit) p nk nj Hk Uj) as Eo. unfold offp in Eo. rewrite Eo.
      destruct (Rltb (crs nk nj * delta) 0); [eexists; reflexivity|]. destruct jt; [eexists; reflexivity|congruence|].
      destruct (Rleb (miter_limit (N:=ROps) limit) (rr nk nj)) eqn:L; [|eexists; reflexivity]. apply Rleb_true in L. pose proof (miter_limit_pos limit) as M.
      destruct (Reqb (rr nk nj) 0) eqn:Z; [|eexists; reflexivity]. exfalso. apply Reqb_true in Z. rewrite Z in L. exact (Rlt_irrefl _ (Rlt_le_trans _ _ _ M L)). }
    destruct Q as [qs ->]. cbn [rbind]. destruct (IH nj Uj) as [o ->]; [intros; apply (Hk' a); right; assumption|]. eexists. reflexivity. }
  destruct (G (combine (l ++ [z]) (normals (N:=ROps) first (l ++ [z]))) (outward z first)) as [o ->]; [apply outward_unit; exact Hz|exact Hu|]. eexists. reflexivity.
Qed.
Section Offsetting.
  Variable union : R -> list (list Pt) -> res (list (list Pt)).
  Variables (mult : R) (poly h : list Pt) (offset limit : R) (jt : jointype).
  (** the polygon on the grid *)
  Hypothesis (Hs : stands_for (poly2clipper (N:=ROps) mult poly) h) (H3 : (3 <= length h)%nat) (Hn : no_repeats (cyclic_edges h)).
  Let result := poly_offset (E:=eps6) (N:=ROps) union mult poly offset jt limit.
  (** A counterclockwise polygon without repeated vertices is offset by uniting its outline, with square and miter joins. *)
  Theorem C173_offset_partial : 0 <= signed_area h -> offset * mult <> 0 -> jt <> JRound ->
    exists out, outline (N:=ROps) jt (offset * mult) (limit * mult) h = Ok (Some out) /\
      result = rmap (map (clipper2poly (E:=eps6) (N:=ROps) mult)) (union (offset * mult) [out]).
  Proof.
    intros Ha Ho Hj. destruct (outline_ok jt (offset * mult) (limit * mult) h H3 Hn Hj) as [out Eo]. exists out. split; [exact Eo|].
    unfold result, poly_offset, offset_polygons_cl. destruct (find_lowest_one _ h Hs H3 Hn) as [b ->]. cbn [rbind].
    rewrite C172_area by (intros ->; cbn in H3; lia). cbn [rbind].
    replace ((signed_area h : ROps) <? lit 0 0)%num with false by (symmetry; apply Rltb_false; exact Ha).
    unfold offset_internal. replace (((offset * mult)%num =? #0)%num) with false by (symmetry; apply Reqb_false; exact Ho).
    f_equal. destruct jt; [|congruence|]; cbn [rbind outlines]; change (mul offset mult) with (offset * mult); change (mul limit mult) with (limit * mult); rewrite Eo; reflexivity.
  Qed.
  (** An offset of zero leaves the polygon on the grid as it is. *)
  Theorem C173_zero : 0 <= signed_area h -> offset = 0 -> result = Ok [clipper2poly (E:=eps6) (N:=ROps) mult h].
  Proof.
    intros Ha Ho. unfold result, poly_offset, offset_polygons_cl. destruct (find_lowest_one _ h Hs H3 Hn) as [b ->]. cbn [rbind].
    rewrite C172_area by (intros ->; cbn in H3; lia). cbn [rbind].
    replace ((signed_area h : ROps) <? lit 0 0)%num with false by (symmetry; apply Rltb_false; exact Ha).
    unfold offset_internal. replace (((offset * mult)%num =? #0)%num) with true; [reflexivity|].
    symmetry. apply Reqb_true. change (offset * mult = 0). rewrite Ho. ring.
  Qed.
  (** A clockwise polygon cannot be offset. *)
  Theorem C173_clockwise : signed_area h < 0 -> result = Raise TypeError.
  Proof.
    intros Ha. unfold result, poly_offset, offset_polygons_cl. destruct (find_lowest_one _ h Hs H3 Hn) as [b ->]. cbn [rbind].
    rewrite C172_area by (intros ->; cbn in H3; lia). cbn [rbind].
    replace ((signed_area h : ROps) <? lit 0 0)%num with true by (symmetry; apply Rltb_true; exact Ha). reflexivity.
  Qed.
End Offsetting.
(** Two consecutive vertices on the same point of the grid, not at the end: it fails. *)
Theorem C173_repeated union (mult : R) (poly : list Pt) (offset limit : R) jt a p b : b <> [] ->
  poly2clipper (N:=ROps) mult poly = a ++ p :: p :: b -> poly_offset (E:=eps6) (N:=ROps) union mult poly offset jt limit = Raise IndexError.
Proof.
  intros Hb E. unfold poly_offset, offset_polygons_cl. rewrite E. cbn [find_lowest].
  assert (S : strip_dup (N:=ROps) (a ++ p :: p :: b) = Raise IndexError).
  { unfold strip_dup. destruct (a ++ p :: p :: b) as [|q k] eqn:Ek; [destruct a; discriminate|]. rewrite <- Ek.
    rewrite (strip_loop_dup (length (a ++ p :: p :: b) - 1) 1 (a ++ p :: p :: b) (S (length a))); [reflexivity|..].
    - rewrite app_length. cbn [length]. lia.
    - lia.
    - rewrite app_length. cbn [length]. destruct b; [congruence|]. cbn [length]. lia.
    - rewrite !app_nth2 by lia. replace (S (length a) - 1 - length a)%nat with 0%nat by lia. replace (S (length a) - length a)%nat with 1%nat by lia. reflexivity. }
  rewrite S. reflexivity.
Qed.
(** Round joins fail at every corner that turns to the side of the offset, and at straight ones. *)
Lemma corners_mid jt (delta ml : R) : forall (l : list (Pt * Pt)) nk o a na p np, corners (N:=ROps) jt delta ml nk l = Ok o ->
  In ((a, na), (p, np)) (consecutive l) -> exists qs, offset_point (N:=ROps) jt delta ml p na np = Ok qs.
Proof.
  induction l as [|[q nq] l IH]; intros nk o a na p np H Hin; [destruct Hin|]. cbn [corners] in H.
  destruct (offset_point jt delta ml q nk nq) as [qs|e] eqn:E; [|discriminate]. cbn [rbind] in H.
  destruct (corners jt delta ml nq l) as [rest|e] eqn:Er; [|discriminate]. destruct l as [|[q' nq'] l]; [destruct Hin|].
  unfold consecutive in Hin. cbn [tl combine In] in Hin. destruct Hin as [Heq|Hin].
  - injection Heq as <- <- <- <-. cbn [corners] in Er. destruct (offset_point jt delta ml q' nq nq') as [qs'|e]; [eexists; reflexivity|discriminate].
  - eapply (IH nq rest); [exact Er|exact Hin].
Qed.
Lemma normals_triple (first : Pt) a p b l2 : forall l1,
  In ((a, unit_normal a p), (p, unit_normal p b)) (consecutive (combine (l1 ++ a :: p :: b :: l2) (normals (N:=ROps) first (l1 ++ a :: p :: b :: l2)))).
Proof.
  induction l1 as [|x l1 IH]; [left; reflexivity|]. cbn [app normals combine].
  destruct (l1 ++ a :: p :: b :: l2) as [|y k] eqn:E; [destruct l1; discriminate|]. cbn [normals combine] in *. right. exact IH.
Qed.
Theorem C173_round union (mult : R) (poly l1 l2 : list Pt) a p b (offset limit : R) : let h := l1 ++ a :: p :: b :: l2 in
  stands_for (poly2clipper (N:=ROps) mult poly) h -> no_repeats (cyclic_edges h) -> 0 <= signed_area h -> offset * mult <> 0 ->
  0 <= ((px p - px a) * (py b - py p) - (py p - py a) * (px b - px p)) * (offset * mult) ->
  exists e, poly_offset (E:=eps6) (N:=ROps) union mult poly offset JRound limit = Raise e.
Proof.
  intros h Hs Hn Ha Ho Ht. assert (H3 : (3 <= length h)%nat) by (unfold h; rewrite app_length; cbn [length]; lia).
  unfold poly_offset, offset_polygons_cl. destruct (find_lowest_one _ h Hs H3 Hn) as [bb ->]. cbn [rbind].
  rewrite C172_area by (intros E; rewrite E in H3; cbn in H3; lia). cbn [rbind].
  replace ((signed_area h : ROps) <? lit 0 0)%num with false by (symmetry; apply Rltb_false; exact Ha).
  unfold offset_internal. replace (((offset * mult)%num =? #0)%num) with false by (symmetry; apply Reqb_false; exact Ho).
  destruct (round_limit (offset * mult)%num (limit * mult)%num) as [z|e]; [|eexists; reflexivity]. cbn [rmap rbind outlines].
  change (mul offset mult) with (offset * mult). change (mul limit mult) with (limit * mult).
  destruct (outline JRound (offset * mult) (limit * mult) h) as [o|e] eqn:Eo; [|eexists; reflexivity]. exfalso.
  assert (Hc : forall u v, In (u, v) (consecutive h) -> u <> v) by (intros u v K; apply Hn, consecutive_cyclic, K).
  assert (Hap : a <> p). { apply Hc. unfold h. rewrite consecutive_join. apply in_or_app. right. left. reflexivity. }
  assert (Hpb : p <> b). { apply Hc. unfold h. change (a :: p :: b :: l2) with ([a] ++ p :: b :: l2). rewrite app_assoc, consecutive_join. apply in_or_app. right. left. reflexivity. }
  pose proof (normals_triple (hd p h) a p b l2 l1) as Hin. fold h in Hin.
  destruct (@exists_last _ h) as (l & zz & E); [intros E; rewrite E in H3; cbn in H3; lia|].
  assert (Hl : l <> []) by (intros ->; rewrite E in H3; cbn in H3; lia). rewrite E in Hin, Eo, Hn, H3.
  rewrite (outline_corners JRound _ _ l zz Hl Hn H3) in Eo.
  replace (hd p (l ++ [zz])) with (hd zz l) in Hin by (destruct l; [congruence|reflexivity]).
  destruct (corners JRound (offset * mult) (miter_limit (limit * mult)) (outward zz (hd zz l)) (combine (l ++ [zz]) (normals (hd zz l) (l ++ [zz])))) as [out|e] eqn:Ec; [|discriminate].
  destruct (corners_mid JRound _ _ _ _ _ _ _ _ _ Ec Hin) as [qs Hq]. rewrite !unit_normal_out in Hq by assumption.
  pose proof (offset_point_eq JRound (offset * mult) (miter_limit (N:=ROps) (limit * mult)) p (outward a p) (outward p b) (outward_unit a p Hap) (outward_unit p b Hpb)) as Eq. unfold offp in Eq.
  rewrite Eq in Hq. clear Eq.
  destruct (Rltb (crs (outward a p) (outward p b) * (offset * mult)) 0) eqn:L; [|discriminate]. apply Rltb_true in L. clear - L Ht Hap Hpb.
  revert L. apply Rle_not_lt. unfold crs, outward. cbn [px py]. pose proof (euclid_ne _ _ Hap) as D1. pose proof (euclid_ne _ _ Hpb) as D2.
  remember (euclid a p) as d1. remember (euclid p b) as d2. clear Heqd1 Heqd2. destruct a as [a1 a2], p as [p1 p2], b as [b1 b2]. cbn [px py] in *. toR.
  match goal with |- 0 <= ?t => replace t with (((p1 - a1) * (b2 - p2) - (p2 - a2) * (b1 - p1)) * (offset * mult) / (d1 * d2)) by (field; lra) end.
  apply Rmult_le_pos; [exact Ht|]. apply Rlt_le, Rinv_0_lt_compat. apply Rmult_lt_0_compat; assumption.
Qed.

(** examples *)
Lemma Ztrunc_IZR z : Ztrunc (IZR z) = z.
Proof.
  unfold Ztrunc. destruct (Rlt_dec (IZR z) 0).
  - rewrite (Zfloor_unique (- IZR z) (- z)); [lia|]. rewrite opp_IZR. lra.
  - apply Zfloor_unique. lra.
Qed.
Definition zpt (i j : Z) : Pt := P (IZR i) (IZR j).
Lemma poly2clipper_Z (m : Z) (l : list (Z * Z)) : poly2clipper (N:=ROps) (IZR m) (map (fun '(i, j) => zpt i j) l) = map (fun '(i, j) => zpt (i * m) (j * m)) l.
Proof.
  unfold poly2clipper. rewrite map_map. apply map_ext. intros [i j]. unfold zpt. cbn [px py].
  change (P (IZR (Ztrunc (IZR i * IZR m))) (IZR (Ztrunc (IZR j * IZR m))) = P (IZR (i * m)) (IZR (j * m)) :> Pt). rewrite <- !mult_IZR, !Ztrunc_IZR. reflexivity.
Qed.
Lemma zpt_ne i j k l : (i <> k \/ j <> l)%Z -> zpt i j <> zpt k l.
Proof. unfold zpt. intros H [= E1 E2]. apply eq_IZR in E1, E2. destruct H; congruence. Qed.
Ltac norep := intros ? ? Hin; cbn in Hin; repeat match type of Hin with _ \/ _ => destruct Hin as [Hin|Hin] end; try contradiction; injection Hin as <- <-; apply zpt_ne; lia.
Definition mil : R := IZR 1000000.
(** The triangle (0,0) (0,3) (4,0), clockwise, is refused whatever the offset and the joins, although it is a simple polygon. *)
Theorem C173_clockwise_refuted union (offset limit : R) jt :
  poly_offset (E:=eps6) (N:=ROps) union mil [P 0 0; P 0 3; P 4 0]%R offset jt limit = Raise TypeError.
Proof.
  pose proof (poly2clipper_Z 1000000 [(0, 0); (0, 3); (4, 0)]%Z) as G. cbn [map] in G.
  change (P 0 0)%R with (zpt 0 0). change (P 0 3)%R with (zpt 0 3). change (P 4 0)%R with (zpt 4 0).
  apply (C173_clockwise union mil _ [zpt (0 * 1000000) (0 * 1000000); zpt (0 * 1000000) (3 * 1000000); zpt (4 * 1000000) (0 * 1000000)]%Z).
  - left. exact G.
  - cbn. lia.
  - norep.
  - unfold signed_area, sum_over, zpt. cbn. lra.
Qed.
(** A vertex repeated in the middle, as a drawing may have. *)
Theorem C173_repeated_refuted union (offset limit : R) jt :
  poly_offset (E:=eps6) (N:=ROps) union mil [P 0 0; P 4 0; P 4 0; P 0 3]%R offset jt limit = Raise IndexError.
Proof.
  pose proof (poly2clipper_Z 1000000 [(0, 0); (4, 0); (4, 0); (0, 3)]%Z) as G. cbn [map] in G.
  apply (C173_repeated union mil _ offset limit jt [zpt (0 * 1000000) (0 * 1000000)]%Z (zpt (4 * 1000000) (0 * 1000000)) [zpt (0 * 1000000) (3 * 1000000)]%Z); [discriminate|]. exact G.
Qed.
(** A counterclockwise triangle is offset with square joins, and not with round ones. *)
Theorem C173_example union :
  (exists out, poly_offset (E:=eps6) (N:=ROps) union mil [P 0 0; P 4 0; P 0 3]%R 1 JSquare 0 = rmap (map (clipper2poly (E:=eps6) (N:=ROps) mil)) (union (1 * mil) [out]) /\
     exists x y, In (x, y) (cyclic_edges out) /\ Rabs (py x + mil) <= half_cell /\ Rabs (py y + mil) <= half_cell) /\
  exists e, poly_offset (E:=eps6) (N:=ROps) union mil [P 0 0; P 4 0; P 0 3]%R 1 JRound 0 = Raise e.
Proof.
  pose proof (poly2clipper_Z 1000000 [(0, 0); (4, 0); (0, 3)]%Z) as G. cbn [map] in G.
  set (h := [zpt (0 * 1000000) (0 * 1000000); zpt (4 * 1000000) (0 * 1000000); zpt (0 * 1000000) (3 * 1000000)]%Z) in *.
  assert (Hs : stands_for (poly2clipper (N:=ROps) mil [P 0 0; P 4 0; P 0 3]%R) h) by (left; exact G).
  assert (Hn : no_repeats (cyclic_edges h)) by norep.
  assert (Ha : 0 <= signed_area h) by (unfold signed_area, sum_over, h, zpt; cbn; lra).
  assert (Hm : 1 * mil <> 0) by (unfold mil; lra).
  split.
  - destruct (C173_offset_partial union mil _ h 1 0 JSquare Hs) as (out & Eo & Er); try assumption; [cbn; lia|discriminate|].
    exists out. split; [exact Er|].
    destruct (C170_sides JSquare (1 * mil) (0 * mil) h out) with (p := zpt 0 0) (q := zpt 4000000 0) as (x & y & Hin & Hx & Hy & _); [cbn; lia|exact Hn|exact Eo|left; reflexivity|].
    exists x, y. split; [exact Hin|].
    assert (D : euclid (zpt 0 0) (zpt 4000000 0) = 4000000).
    { unfold euclid, zpt. cbn [px py]. unfold Rsqr. toR. replace ((0 - 4000000) * (0 - 4000000) + (0 - 0) * (0 - 0)) with (4000000 * 4000000) by ring. apply sqrt_square. lra. }
    assert (K : forall w : Pt, to_the_right (zpt 0 0) (zpt 4000000 0) w = - py w).
    { intros w. unfold to_the_right. rewrite D. unfold zpt. destruct w as [u v]. cbn [px py]. toR. field. }
    rewrite K in Hx, Hy.
    assert (B : forall v : R, Rabs (- v - 1 * mil) = Rabs (v + mil)) by (intros v; rewrite <- Rabs_Ropp; f_equal; ring).
    rewrite <- !B. split; assumption.
  - apply (C173_round union mil _ [] [] (zpt (0 * 1000000) (0 * 1000000)) (zpt (4 * 1000000) (0 * 1000000)) (zpt (0 * 1000000) (3 * 1000000)) 1 0); try assumption.
    unfold zpt, mil. cbn. lra.
Qed.
(** ** C174: the limit.  It is multiplied with the resolution of the grid although the library takes it as a multiple of the
    offset: a miter more than twice as far as a limit of 3 would allow stays.  The triangle has vertices (0,0), (399,-40), (399,40). *)
Theorem C174_limit_refuted : exists h out x,
  poly2clipper (N:=ROps) mil [P 0 0; P 399 (-40); P 399 40]%R = h /\ 0 <= signed_area h /\ no_repeats (cyclic_edges h) /\
  outline (N:=ROps) JMiter (40 * mil) (3 * mil) h = Ok (Some out) /\ In x out /\
  (forall p, In p h -> 2 * (3 * (40 * mil)) < euclid p x).
Proof.
  pose proof (poly2clipper_Z 1000000 [(0, 0); (399, -40); (399, 40)]%Z) as G. cbn [map] in G.
  set (h := [zpt (0 * 1000000) (0 * 1000000); zpt (399 * 1000000) (-40 * 1000000); zpt (399 * 1000000) (40 * 1000000)]%Z) in *.
  assert (Hn : no_repeats (cyclic_edges h)) by norep.
  assert (Ha : 0 <= signed_area h) by (unfold signed_area, sum_over, h, zpt; cbn; lra).
  destruct (outline_ok JMiter (40 * mil) (3 * mil) h) as [out Eo]; [cbn; lia|exact Hn|discriminate|].
  exists h, out.
  set (o := zpt 0 0). set (b := zpt 399000000 (-40000000)). set (a := zpt 399000000 40000000).
  assert (Hb : o <> b) by (apply zpt_ne; lia). assert (Hao : a <> o) by (apply zpt_ne; lia).
  assert (Db : euclid o b = 401000000).
  { unfold euclid, o, b, zpt. cbn [px py]. unfold Rsqr. toR. replace ((0 - 399000000) * (0 - 399000000) + (0 - -40000000) * (0 - -40000000)) with (401000000 * 401000000) by ring. apply sqrt_square. lra. }
  assert (Da : euclid a o = 401000000).
  { unfold euclid, o, a, zpt. cbn [px py]. unfold Rsqr. toR. replace ((399000000 - 0) * (399000000 - 0) + (40000000 - 0) * (40000000 - 0)) with (401000000 * 401000000) by ring. apply sqrt_square. lra. }
  set (m := zpt (-401000000) 0).
  assert (Dm : euclid o m = 401000000).
  { unfold euclid, o, m, zpt. cbn [px py]. unfold Rsqr. toR. replace ((0 - -401000000) * (0 - -401000000) + (0 - 0) * (0 - 0)) with (401000000 * 401000000) by ring. apply sqrt_square. lra. }
  destruct (C170_miter (40 * mil) (3 * mil) o a b m) as [M _]; try assumption.
  - unfold o, a, b, zpt. cbn. lra.
  - unfold mil. lra.
  - unfold mil. lra.
  - unfold to_the_right. rewrite Da. unfold o, a, m, zpt, mil. cbn [px py]. toR. field.
  - unfold to_the_right. rewrite Db. unfold o, b, m, zpt, mil. cbn [px py]. toR. field.
  - destruct M as (x & Ex & Hx); [rewrite Dm; unfold mil; lra|]. exists x.
    assert (Hin : In x out).
    { change h with ([o; b] ++ [a]) in Eo. rewrite (outline_corners JMiter (40 * mil) (3 * mil) [o; b] a) in Eo; [|discriminate|exact Hn|cbn; lia].
      cbn [hd app normals combine corners] in Eo. rewrite (unit_normal_out o b Hb) in Eo. rewrite Ex in Eo. cbn [rbind] in Eo.
      match type of Eo with rbind (rbind ?c _) _ = _ => destruct c as [rest|e] end; [|discriminate]. cbn [rbind] in Eo.
      assert (Ex' : out = x :: rest) by (injection Eo; congruence). rewrite Ex'. left. reflexivity. }
    repeat apply conj; try assumption.
    assert (K : forall p : Pt, 0 <= px p -> 2 * (3 * (40 * mil)) < euclid p x).
    { intros p Hp. destruct Hx as [Hx _]. apply abs_le_inv in Hx. unfold m, zpt in Hx. cbn [px] in Hx.
      apply Rlt_le_trans with (px p - px x).
      - unfold mil. destruct p as [p1 p2], x as [x1 x2]. cbn [px] in *. change (T ROps) with R in *. lra.
      - unfold euclid. apply Rle_trans with (Rabs (px p - px x)); [apply Rle_abs|]. rewrite <- sqrt_Rsqr_abs. apply sqrt_le_1_alt.
        pose proof (Rle_0_sqr (py p - py x)). lra. }
    intros p [<-|[<-|[<-|[]]]]; apply K; unfold zpt; cbn; lra.
Qed.
(** Whatever the limit, it keeps the promise of the library with the limit taken as given times the resolution. *)
Theorem C174_limit_partial (mult delta limit : R) (pts out : list Pt) : (3 <= length pts)%nat -> no_repeats (cyclic_edges pts) ->
  outline (N:=ROps) JMiter delta (limit * mult) pts = Ok (Some out) ->
  forall q, In q out -> exists p, In p pts /\ euclid p q <= Rmax 2 (limit * mult) * Rabs delta + half_cell.
Proof.
  intros H3 Hn Ho q Hq. destruct (C170_reach JMiter delta (limit * mult) pts out H3 Hn Ho q Hq) as (p & A & B & _). exists p. auto.
Qed.
Theorem C174_example (delta limit : R) : exists out, outline (N:=ROps) JMiter delta limit [P 0 0; P 4 0; P 0 3]%R = Ok (Some out) /\
  forall q, In q out -> exists p, In p [P 0 0; P 4 0; P 0 3]%R /\ euclid p q <= Rmax 2 (limit * 1) * Rabs delta + half_cell.
Proof.
  assert (Hn : no_repeats (cyclic_edges [zpt 0 0; zpt 4 0; zpt 0 3])) by norep.
  destruct (outline_ok JMiter delta limit [zpt 0 0; zpt 4 0; zpt 0 3]) as [out Eo]; [cbn; lia|exact Hn|discriminate|].
  exists out. split; [exact Eo|]. intros q Hq. apply (C174_limit_partial 1 delta limit [zpt 0 0; zpt 4 0; zpt 0 3] out); [cbn; lia|exact Hn|rewrite Rmult_1_r; exact Eo|exact Hq].
Qed.
(** the corners of a triangle meet the conditions of the joins *)
Theorem C170_example : exists x y w, offset_point (N:=ROps) JSquare 10 0 (P 4 0)%R (outward (P 0 0)%R (P 4 0)%R) (outward (P 4 0)%R (P 0 3)%R) = Ok [x; y] /\ unit_vec w /\
  Rabs (along w (P 4 0)%R x - 10) <= half_cell /\ Rabs (along w (P 4 0)%R y - 10) <= half_cell.
Proof.
  destruct (C170_square 10 0 (P 4 0)%R (P 0 0)%R (P 0 3)%R) as (x & y & w & E & U & _ & _ & A & B).
  - intros [= H]. lra.
  - intros [= H]. lra.
  - cbn. lra.
  - lra.
  - exists x, y, w. auto.
Qed.
