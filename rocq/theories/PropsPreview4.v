(** * PropsPreview4: reversals in the outline of the tool marks (C142).  Over R. *)
From Verif Require Import Num NumR Geom GeomSpec GeomSpec2 GeomProofs GeomProofs5 Gcode Preview PreviewSpec PropsGeom PropsPreview PropsPreview3 PropsExtras2.
From Verif Require Svg SvgSpec SvgProofs2 GeomSvg SvgOutSpec PropsSvgOut.
From Coq Require Import ZArith Reals Lra Lia Bool List.
Import ListNotations.
Local Open Scope R_scope.

Section Atan2.
  Lemma ratan2_pos y x : 0 < x -> Rabs (Ratan2 y x) < PI / 2 /\ (0 < Ratan2 y x <-> 0 < y).
  Proof.
    intros H. unfold Ratan2. destruct (Rlt_dec 0 x); [|lra]. pose proof (atan_bound (y / x)) as B. split; [apply Rabs_def1; lra|]. split; intros K.
    - destruct (Rlt_le_dec 0 y) as [|L]; [assumption|]. exfalso. assert (y / x <= 0). { apply Rmult_le_reg_r with x; [lra|]. unfold Rdiv. rewrite Rmult_assoc, Rinv_l by lra. lra. }
      destruct H0 as [H0|H0]; [apply atan_increasing in H0; rewrite atan_0 in H0; lra|rewrite H0, atan_0 in K; lra].
    - assert (0 < y / x) by (apply Rdiv_lt_0_compat; lra). apply atan_increasing in H0. rewrite atan_0 in H0. lra.
  Qed.
  Lemma ratan2_neg y x : x < 0 -> PI / 2 < Rabs (Ratan2 y x).
  Proof.
    intros H. unfold Ratan2. destruct (Rlt_dec 0 x); [lra|]. destruct (Rlt_dec x 0); [|lra]. pose proof (atan_bound (y / x)) as B. pose proof PI_RGT_0.
    destruct (Rle_dec 0 y).
    - rewrite Rabs_right; [|lra]. lra.
    - rewrite Rabs_left; lra.
  Qed.
  Lemma ratan2_zero y : Rabs (Ratan2 y 0) <= PI / 2 /\ (y <> 0 -> Rabs (Ratan2 y 0) = PI / 2).
  Proof.
    unfold Ratan2. destruct (Rlt_dec 0 0); [lra|]. pose proof PI_RGT_0.
    destruct (Rlt_dec 0 y); [rewrite Rabs_right by lra; lra|]. destruct (Rlt_dec y 0); [rewrite Rabs_left by lra; lra|]. rewrite Rabs_R0. lra.
  Qed.
End Atan2.

Section C142.
  Context {E : Epsilon ROps} (He : 0 < EPS).
  (** [c] is ahead of [b], seen from [a]; behind it *)
  Definition progress (a b c : Pt) : R := (px b - px a) * (px c - px b) + (py b - py a) * (py c - py b).
  Lemma vectors_near (a b c : Pt) : peq (psub a b) (psub c b) = true <-> euclid a c < EPS.
  Proof.
    assert (Q : euclid (psub a b) (psub c b) = euclid a c). { unfold euclid, psub. cbn [px py]. rnum. f_equal. unfold Rsqr. ring. }
    rewrite <- Q. split; intros H.
    - now apply (peq_true He) in H.
    - destruct (peq _ _) eqn:K; [reflexivity|]. apply (peq_false He) in K. lra.
  Qed.
  Lemma angle2_value (a b c : Pt) : EPS <= euclid a c -> angle2 b a c = Ratan2 (- side (Ln a b) c) (- progress a b c).
  Proof.
    intros F. unfold angle2. destruct (peq (psub a b) (psub c b)) eqn:Q; [apply vectors_near in Q; lra|].
    change (Ratan2 (cross (psub a b) (psub c b)) (dot (psub a b) (psub c b)) = Ratan2 (- side (Ln a b) c) (- progress a b c)). f_equal; unfold cross, dot, psub, side, progress; cbn [px py p1 p2]; rnum; ring.
  Qed.
  Lemma angle2_near (a b c : Pt) : euclid a c < EPS -> angle2 b a c = 0.
  Proof. intros F. unfold angle2. apply (vectors_near a b c) in F. rewrite F. cbn. reflexivity. Qed.

  Lemma atan2_zero : Ratan2 0 0 = 0.
  Proof. unfold Ratan2. repeat (destruct (Rlt_dec _ _); try lra). Qed.
  Lemma back_angle (a b c : Pt) : progress a b c < 0 -> Rabs (angle2 b a c) < PI / 2.
  Proof.
    intros A. destruct (Rlt_le_dec (euclid a c) EPS) as [L|L].
    - rewrite (angle2_near a b c L), Rabs_R0. pose proof PI_RGT_0. lra.
    - rewrite (angle2_value a b c L). apply ratan2_pos. lra.
  Qed.
  Lemma right_angle (a b c : Pt) : progress a b c < 0 -> EPS <= euclid a c -> side (Ln a b) c < 0 -> 0 < angle2 b a c.
  Proof. intros A L S. rewrite (angle2_value a b c L). apply ratan2_pos; lra. Qed.
  Lemma left_angle (a b c : Pt) : progress a b c < 0 -> 0 <= side (Ln a b) c \/ euclid a c < EPS -> angle2 b a c <= 0.
  Proof.
    intros A S. destruct (Rlt_le_dec (euclid a c) EPS) as [L|L]; [rewrite (angle2_near a b c L); lra|]. destruct S as [S|S]; [|lra].
    rewrite (angle2_value a b c L). destruct (Rle_lt_dec (Ratan2 (- side (Ln a b) c) (- progress a b c)) 0) as [|K]; [assumption|].
    apply ratan2_pos in K; lra.
  Qed.
  Lemma ahead_angle (a b c : Pt) : 0 < progress a b c -> EPS <= euclid a c -> PI / 2 < Rabs (angle2 b a c).
  Proof. intros A L. rewrite (angle2_value a b c L). apply ratan2_neg. lra. Qed.
  Lemma not_ahead_angle (a b c : Pt) : progress a b c <= 0 -> Rabs (angle2 b a c) <= PI / 2.
  Proof.
    intros A. pose proof PI_RGT_0. destruct (Rlt_le_dec (euclid a c) EPS) as [L|L]; [rewrite (angle2_near a b c L), Rabs_R0; lra|].
    rewrite (angle2_value a b c L). destruct A as [A|A].
    - left. apply ratan2_pos. lra.
    - rewrite A. replace (- 0) with 0 by ring. apply ratan2_zero.
  Qed.
  Lemma on_angle (a b c : Pt) : 0 < progress a b c \/ (progress a b c = 0 /\ side (Ln a b) c <> 0) -> EPS <= euclid a c -> PI / 2 <= Rabs (angle2 b a c).
  Proof.
    intros [A|[A S]] L; [left; apply ahead_angle; auto|]. rewrite (angle2_value a b c L), A. replace (- 0) with 0 by ring.
    destruct (ratan2_zero (- side (Ln a b) c)) as [_ Q]. rewrite Q; lra.
  Qed.

  (** ** What removing the reversals of a broken line means.
      A corner at which the line turns back by more than a right angle begins a spike.  If it turns back to the right, the spike is
      replaced by a direct line from the corner to the first later corner that is ahead of it; if it turns back to the left, the line
      before it is redirected to the beginning of the first later line that leads on.  Everything else stays. *)
  Definition turns_back (a b c : Pt) : Prop := progress a b c < 0.
  Definition to_the_right (a b c : Pt) : Prop := side (Ln a b) c < 0 /\ EPS <= euclid a c.
  Definition to_the_left (a b c : Pt) : Prop := 0 <= side (Ln a b) c \/ euclid a c < EPS.
  Definition ahead (a b c : Pt) : Prop := 0 < progress a b c /\ EPS <= euclid a c.
  Definition square (a b c : Pt) : Prop := progress a b c = 0 /\ side (Ln a b) c <> 0 /\ EPS <= euclid a c.
  Inductive mended : list Line_ -> list Line_ -> Prop :=
  | mended_one a b : mended [Ln a b] [Ln a b]
  | mended_on a b c r res : ahead a b c \/ square a b c -> mended (Ln b c :: r) res -> mended (Ln a b :: Ln b c :: r) (Ln a b :: res)
  | mended_last a b c : turns_back a b c -> mended [Ln a b; Ln b c] [Ln a b; Ln b c]
  | mended_right a b c mid d e r res : turns_back a b c -> to_the_right a b c ->
      Forall (fun m => progress a b (p2 m) <= 0) mid -> ahead a b e -> mended (Ln b e :: r) res ->
      mended (Ln a b :: Ln b c :: mid ++ Ln d e :: r) (Ln a b :: res)
  | mended_left a b c mid d e r res : turns_back a b c -> to_the_left a b c ->
      Forall (fun m => progress a (p1 m) (p2 m) <= 0) mid -> ahead a d e -> mended (Ln d e :: r) res ->
      mended (Ln a b :: Ln b c :: mid ++ Ln d e :: r) (Ln a d :: res).

  Lemma right_found a b e d l2 mid r j : Forall (fun m => progress a b (p2 m) <= 0) mid -> ahead a b e ->
    right_search (Ln a b) l2 j (mid ++ Ln d e :: r) = (Ln b e, Some (j + List.length mid)%nat).
  Proof.
    intros F (A & L). revert l2 j. induction F as [|m mid Hm F IH]; intros l2 j; cbn [app right_search p1 p2].
    - replace (@Num.ltb ROps (Num.div Num.pi (of_Z 2)) (Num.abs (angle2 b a e))) with true by (symmetry; rnum; apply Rltb_true; apply ahead_angle; auto).
      cbn [List.length]. rewrite Nat.add_0_r. reflexivity.
    - replace (@Num.ltb ROps (Num.div Num.pi (of_Z 2)) (Num.abs (angle2 b a (p2 m)))) with false by (symmetry; rnum; apply Rltb_false; apply not_ahead_angle; auto).
      rewrite IH. cbn [List.length]. do 2 f_equal. lia.
  Qed.
  Lemma left_found a e d mid r : Forall (fun m => progress a (p1 m) (p2 m) <= 0) mid -> ahead a d e -> forall l1 l2 j, p1 l1 = a ->
    left_search l1 l2 j (mid ++ Ln d e :: r) = (Ln a d, Ln d e, Some (j + List.length mid)%nat).
  Proof.
    intros F (A & L). induction F as [|m mid Hm F IH]; intros l1 l2 j Q; cbn [app left_search p1 p2]; rewrite Q; cbn [p1 p2].
    - replace (@Num.ltb ROps (Num.div Num.pi (of_Z 2)) (Num.abs (angle2 d a e))) with true by (symmetry; rnum; apply Rltb_true; apply ahead_angle; auto).
      cbn [List.length]. rewrite Nat.add_0_r. reflexivity.
    - replace (@Num.ltb ROps (Num.div Num.pi (of_Z 2)) (Num.abs (angle2 (p1 m) a (p2 m)))) with false by (symmetry; rnum; apply Rltb_false; apply not_ahead_angle; auto).
      rewrite IH by reflexivity. cbn [List.length]. do 2 f_equal. lia.
  Qed.
  Lemma reversal_skip (l1 : Line_) n rest : (n <= List.length rest)%nat -> reversal_loop n l1 rest = reversal_loop 0 l1 (skipn n rest).
  Proof. revert n. induction rest as [|x rest IH]; intros [|n] L; cbn [reversal_loop skipn List.length] in *; auto; try lia. apply IH. lia. Qed.
  Lemma skip_mid mid (x : Line_) r : skipn (S (List.length mid)) (mid ++ x :: r) = r.
  Proof. induction mid as [|y mid IH]; [reflexivity|exact IH]. Qed.

  (** What the outline does to a broken line is this. *)
  Lemma fix_mended path res : mended path res -> fix_reversals path = Ok res.
  Proof.
    intros M. induction M as [a b|a b c r res A M IH|a b c B|a b c mid d e r res B S F A M IH|a b c mid d e r res B S F A M IH].
    - reflexivity.
    - cbn [fix_reversals] in *. injection IH as IH. f_equal. cbn [reversal_loop p1 p2].
      replace (@Num.ltb ROps (Num.abs (angle2 b a c)) (Num.div Num.pi (of_Z 2))) with false.
      2:{ symmetry. rnum. apply Rltb_false. apply on_angle; destruct A as [[A L]|(A & S & L)]; auto. }
      now rewrite IH.
    - cbn [fix_reversals]. f_equal. cbn [reversal_loop p1 p2].
      replace (@Num.ltb ROps (Num.abs (angle2 b a c)) (Num.div Num.pi (of_Z 2))) with true by (symmetry; rnum; apply Rltb_true; apply back_angle; exact B).
      destruct (Num.ltb _ _).
      + cbn [right_search p1 p2]. destruct (Num.ltb _ _); reflexivity.
      + cbn [left_search p1 p2]. destruct (Num.ltb _ _); reflexivity.
    - cbn [fix_reversals] in *. injection IH as IH. f_equal. cbn [reversal_loop p1 p2].
      replace (@Num.ltb ROps (Num.abs (angle2 b a c)) (Num.div Num.pi (of_Z 2))) with true by (symmetry; rnum; apply Rltb_true; apply back_angle; exact B).
      replace (@Num.ltb ROps (of_Z 0) (angle2 b a c)) with true by (symmetry; rnum; apply Rltb_true; destruct S; apply right_angle; auto).
      change (Ln b c :: mid ++ Ln d e :: r) with ((Ln b c :: mid) ++ Ln d e :: r). rewrite right_found with (d := d); auto.
      2:{ constructor; auto. cbn [p2]. left. exact B. }
      rewrite reversal_skip by (rewrite app_length; cbn [List.length]; lia). cbn [List.length Nat.add]. rewrite skip_mid. now rewrite IH.
    - cbn [fix_reversals] in *. injection IH as IH. f_equal. cbn [reversal_loop p1 p2].
      replace (@Num.ltb ROps (Num.abs (angle2 b a c)) (Num.div Num.pi (of_Z 2))) with true by (symmetry; rnum; apply Rltb_true; apply back_angle; exact B).
      replace (@Num.ltb ROps (of_Z 0) (angle2 b a c)) with false by (symmetry; rnum; apply Rltb_false; apply left_angle; auto).
      change (Ln b c :: mid ++ Ln d e :: r) with ((Ln b c :: mid) ++ Ln d e :: r). rewrite (left_found a e d); auto.
      2:{ constructor; auto. cbn [p1 p2]. left. exact B. }
      rewrite reversal_skip by (rewrite app_length; cbn [List.length]; lia). cbn [List.length Nat.add]. rewrite skip_mid. now rewrite IH.
  Qed.
  Lemma mended_chain path res p q : mended path res -> chain p path q -> chain p res q.
  Proof.
    intros M. revert p. induction M as [a b|a b c r res A M IH|a b c B|a b c mid d e r res B S F A M IH|a b c mid d e r res B S F A M IH]; intros p C; cbn [chain p1 p2] in *.
    - exact C.
    - destruct C as (-> & C). split; [reflexivity|]. apply IH. exact C.
    - exact C.
    - destruct C as (-> & _ & C). split; [reflexivity|]. apply IH. split; [reflexivity|]. apply chain_app in C. destruct C as (x & _ & C). cbn [chain p1 p2] in C. apply C.
    - destruct C as (-> & _ & C). split; [reflexivity|]. apply IH. split; [reflexivity|]. apply chain_app in C. destruct C as (x & _ & C). cbn [chain p1 p2] in C. apply C.
  Qed.
  (** No corner is invented. *)
  Definition corner (path : list Line_) (x : Pt) : Prop := exists l, In l path /\ (x = p1 l \/ x = p2 l).
  Lemma corner_cons l path x : corner (l :: path) x <-> (x = p1 l \/ x = p2 l) \/ corner path x.
  Proof. unfold corner. cbn [In]. split; [intros (m & [<-|H] & K); eauto|intros [K|(m & H & K)]; eauto]. Qed.
  Lemma corner_app l path x : corner path x -> corner (l ++ path) x.
  Proof. intros (m & H & K). exists m. split; [apply in_or_app; auto|exact K]. Qed.
  Lemma mended_corners path res x : mended path res -> corner res x -> corner path x.
  Proof.
    intros M. induction M as [a b|a b c r res A M IH|a b c B|a b c mid d e r res B S F A M IH|a b c mid d e r res B S F A M IH]; intros C; auto.
    - apply corner_cons in C. apply corner_cons. destruct C as [C|C]; auto.
    - apply corner_cons in C. apply corner_cons. destruct C as [C|C]; [auto|]. right. apply IH in C. apply corner_cons in C. apply corner_cons. cbn [p1 p2] in *.
      destruct C as [[C|C]|C]; [auto| |]; right; apply corner_app, corner_cons; cbn [p1 p2]; auto.
    - apply corner_cons in C. apply corner_cons. cbn [p1 p2] in *. destruct C as [[C|C]|C]; [auto| |]; right; apply corner_cons; right; apply corner_app.
      + apply corner_cons. cbn [p1 p2]. auto.
      + apply IH in C. exact C.
  Qed.

  (** A run of marks without inline points and crossings. *)
  Lemma outline_plain p q pts : (forall a b r l, (p :: q :: pts)%list = (l ++ a :: b :: r)%list -> EPS <= euclid b a) ->
    bends p (q :: pts) -> uncrossed (legs p (q :: pts)) -> make_outline_path (p :: q :: pts) = fix_reversals (legs p (q :: pts)).
  Proof.
    intros A B U. unfold make_outline_path. cbn [tl].
    assert (Q : outline_loop [] p (q :: pts) = legs p (q :: pts)).
    { cbn [outline_loop rev]. destruct (peq q p) eqn:Q; [apply (peq_true He) in Q; specialize (A p q pts []%list eq_refl); lra|].
      rewrite (outline_legs He pts q p [Ln p q]).
      - reflexivity.
      - discriminate.
      - reflexivity.
      - assert (A' : forall a b r l, (q :: pts)%list = (l ++ a :: b :: r)%list -> EPS <= euclid b a) by (intros a b r l X; apply (A a b r (p :: l)); cbn; now rewrite X).
        clear - A'. revert q A'. induction pts as [|r pts IH]; intros q A'; cbn [spread]; auto. split; [right; apply (A' q r pts []); reflexivity|].
        apply IH. intros a b t l X. apply (A' a b t (q :: l)). cbn. now rewrite X.
      - intros r t ->. split; [apply (A q r t [p]); reflexivity|]. cbn [bends] in B. tauto.
      - intros a b r l X. apply (A a b r (p :: l)). cbn. now rewrite X.
      - cbn [bends] in B. destruct pts; [exact Logic.I|tauto]. }
    rewrite Q, fix_uncrossed by exact U. reflexivity.
  Qed.
  Lemma legs_chain p pts : chain p (legs p pts) (last pts p).
  Proof. revert p. induction pts as [|q pts IH]; intros p; [reflexivity|]. cbn [legs chain p1 p2]. split; [reflexivity|]. rewrite (last_step q p pts). apply IH. Qed.
  Theorem C142_reversals p q pts res : (forall a b r l, (p :: q :: pts)%list = (l ++ a :: b :: r)%list -> EPS <= euclid b a) ->
    bends p (q :: pts) -> uncrossed (legs p (q :: pts)) -> mended (legs p (q :: pts)) res ->
    make_outline_path (p :: q :: pts) = Ok res /\ chain p res (last (q :: pts) p) /\
    forall l, In l res -> In (p1 l) (p :: q :: pts) /\ In (p2 l) (p :: q :: pts).
  Proof.
    intros A B U M. rewrite (outline_plain p q pts A B U), (fix_mended _ _ M). split; [reflexivity|]. split; [exact (mended_chain _ _ _ _ M (legs_chain p (q :: pts)))|].
    assert (K : forall pts p x, corner (legs p pts) x -> In x (p :: pts)).
    { clear. induction pts as [|q pts IH]; intros p x C; [destruct C as (l & [] & _)|]. cbn [legs] in C. apply corner_cons in C. cbn [p1 p2] in C.
      destruct C as [[-> | ->]|C]; [now left|right; now left|right; now apply IH]. }
    intros l H. split; apply K, (mended_corners _ _ _ M); exists l; auto.
  Qed.
  (** A spike that is never overtaken: the side of the outline falls into two parts, the way back from the tip is missing. *)
  Theorem C142_unfinished_refuted (a b c d : Pt) : turns_back a b c -> to_the_right a b c -> progress a b d <= 0 ->
    fix_reversals [Ln a b; Ln b c; Ln c d] = Ok [Ln a b; Ln c c; Ln c d].
  Proof.
    intros B (S & L) D. cbn [fix_reversals]. f_equal. cbn [reversal_loop p1 p2].
    replace (@Num.ltb ROps (Num.abs (angle2 b a c)) (Num.div Num.pi (of_Z 2))) with true by (symmetry; rnum; apply Rltb_true; apply back_angle; exact B).
    replace (@Num.ltb ROps (of_Z 0) (angle2 b a c)) with true by (symmetry; rnum; apply Rltb_true; apply right_angle; auto).
    cbn [right_search p1 p2].
    replace (@Num.ltb ROps (Num.div Num.pi (of_Z 2)) (Num.abs (angle2 b a c))) with false by (symmetry; rnum; apply Rltb_false; apply not_ahead_angle; left; exact B).
    replace (@Num.ltb ROps (Num.div Num.pi (of_Z 2)) (Num.abs (angle2 b a d))) with false by (symmetry; rnum; apply Rltb_false; apply not_ahead_angle; exact D).
    cbn [reversal_loop p1 p2].
    assert (Z : angle2 d c d = 0).
    { destruct (Rlt_le_dec (euclid c d) EPS) as [K|K]; [apply angle2_near; exact K|]. rewrite (angle2_value c d d K).
      replace (- side (Ln c d) d) with 0 by (unfold side; cbn [px py p1 p2]; ring). replace (- progress c d d) with 0 by (unfold progress; ring). apply atan2_zero. }
    rewrite Z. pose proof PI_RGT_0.
    replace (@Num.ltb ROps (Num.abs 0) (Num.div Num.pi (of_Z 2))) with true by (symmetry; rnum; apply Rltb_true; rewrite Rabs_R0; lra).
    replace (@Num.ltb ROps (of_Z 0) 0) with false by (symmetry; rnum; apply Rltb_false; lra).
    cbn [left_search p1 p2]. destruct (Num.ltb _ _); reflexivity.
  Qed.
  (** A run with a spike to the right and one with a spike to the left. *)
  Lemma euclid_far (a b : Pt) : 1 <= (px a - px b) * (px a - px b) + (py a - py b) * (py a - py b) -> 1 <= euclid a b.
  Proof. intros H. unfold euclid. rewrite <- sqrt_1 at 1. apply sqrt_le_1_alt. unfold Rsqr. exact H. Qed.
  Lemma four_far (w x y z : Pt) : EPS <= 1 -> 1 <= euclid x w -> 1 <= euclid y x -> 1 <= euclid z y ->
    forall a b r l, [w; x; y; z] = (l ++ a :: b :: r)%list -> EPS <= euclid b a.
  Proof.
    intros H A B C a b r l Q. destruct l as [|l1 [|l2 [|l3 [|l4 l]]]]; cbn in Q.
    - injection Q as <- <- _. lra.
    - injection Q as _ <- <- _. lra.
    - injection Q as _ _ <- <- _. lra.
    - injection Q as _ _ _ _ Q. discriminate.
    - injection Q as _ _ _ _ Q. destruct l; discriminate.
  Qed.
  Lemma apart (k y1 y2 : R) (x0 x1 x2 x3 : R) : 0 < k * y1 -> k * y1 < k * y2 -> EPS * (k * y2 - k * y1) < k * y1 ->
    intersection (Ln (P x0 0) (P x1 0)) (Ln (P x2 y1) (P x3 y2) : Line_) true false false = None.
  Proof.
    intros A B C. destruct (intersection _ _ _ _ _) as [q|] eqn:Q; [exfalso|reflexivity].
    apply meets_iff in Q; [|exact He]. destruct Q as (_ & u & v & -> & X & _ & V & _). unfold at_param in X. cbn [px py p1 p2] in X. injection X as _ X.
    assert (K : y1 + v * (y2 - y1) = 0) by (rewrite <- X; ring). assert (k * y1 + v * (k * y2 - k * y1) = 0) by (replace (k * y1 + v * (k * y2 - k * y1)) with (k * (y1 + v * (y2 - y1))) by ring; rewrite K; ring).
    nra.
  Qed.
  Example C142_right_example : EPS <= 1 / 2 ->
    make_outline_path [P 0 0; P 10 0; P 9 (-1); P 20 (-2)] = Ok [Ln (P 0 0) (P 10 0); Ln (P 10 0) (P 20 (-2))].
  Proof.
    intros E1. destruct (C142_reversals (P 0 0) (P 10 0) [P 9 (-1); P 20 (-2)] [Ln (P 0 0) (P 10 0); Ln (P 10 0) (P 20 (-2))]) as [H _]; [| | | |exact H].
    - apply four_far; try lra; apply euclid_far; cbn [px py]; lra.
    - cbn [bends]. unfold side. cbn [p1 p2 px py]. repeat split; [rewrite Rabs_left by lra|rewrite Rabs_right by lra]; lra.
    - cbn [legs uncrossed tl]. repeat split; try constructor; [|constructor]. apply (apart (-1)); lra.
    - cbn [legs]. apply (mended_right (P 0 0) (P 10 0) (P 9 (-1)) [] (P 9 (-1)) (P 20 (-2)) []).
      + unfold turns_back, progress. cbn [px py]. lra.
      + split; [unfold side; cbn [px py p1 p2]; lra|]. apply Rle_trans with 1; [lra|]. apply euclid_far. cbn [px py]. lra.
      + constructor.
      + split; [unfold progress; cbn [px py]; lra|]. apply Rle_trans with 1; [lra|]. apply euclid_far. cbn [px py]. lra.
      + constructor.
  Qed.
  Example C142_left_example : EPS <= 1 / 2 ->
    make_outline_path [P 0 0; P 10 0; P 9 1; P 20 2] = Ok [Ln (P 0 0) (P 9 1); Ln (P 9 1) (P 20 2)].
  Proof.
    intros E1. destruct (C142_reversals (P 0 0) (P 10 0) [P 9 1; P 20 2] [Ln (P 0 0) (P 9 1); Ln (P 9 1) (P 20 2)]) as [H _]; [| | | |exact H].
    - apply four_far; try lra; apply euclid_far; cbn [px py]; lra.
    - cbn [bends]. unfold side. cbn [p1 p2 px py]. repeat split; [rewrite Rabs_right by lra|rewrite Rabs_left by lra]; lra.
    - cbn [legs uncrossed tl]. repeat split; try constructor; [|constructor]. apply (apart 1); lra.
    - cbn [legs]. apply (mended_left (P 0 0) (P 10 0) (P 9 1) [] (P 9 1) (P 20 2) []).
      + unfold turns_back, progress. cbn [px py]. lra.
      + left. unfold side; cbn [px py p1 p2]; lra.
      + constructor.
      + split; [unfold progress; cbn [px py]; lra|]. apply Rle_trans with 1; [lra|]. apply euclid_far. cbn [px py]. lra.
      + constructor.
  Qed.
  (** ** When the outline is drawn *)
  (** Nothing is drawn if the outline is switched off or the tool has no width. *)
  Theorem C142_switched_off (k : plotter_opts ROps) s : po_outline k = false \/ Rabs (po_width k) < EPS -> plot_call k PlotUp s = Ok s.
  Proof.
    intros H. cbn [plot_call]. replace (show_tm_outline k) with false; [reflexivity|]. symmetry. unfold show_tm_outline, is_zero. rnum.
    destruct H as [-> |H]; [apply andb_false_r|]. apply Rabs_def2 in H. replace (Rltb (po_width k) EPS) with true by (symmetry; apply Rltb_true; lra).
    replace (Rltb (- EPS) (po_width k)) with true by (symmetry; apply Rltb_true; lra). reflexivity.
  Qed.
  (** Otherwise, when the tool is lifted: both sides of the marks since it was lowered. *)
  Theorem C142_drawn (k : plotter_opts ROps) s a b : po_outline k = true -> EPS <= Rabs (po_width k) ->
    make_outline_path (map p1 (pl_marks s)) = Ok a -> make_outline_path (map p2 (pl_marks s)) = Ok b -> a <> [] -> b <> [] ->
    exists s', plot_call k PlotUp s = Ok s' /\ pl_drawn s' = (pl_drawn s ++ [EPath DebugLayer Subpath a; EPath DebugLayer Subpath b])%list.
  Proof.
    intros O W A B Na Nb. cbn [plot_call]. replace (show_tm_outline k) with true.
    2:{ symmetry. unfold show_tm_outline. rewrite O, andb_true_r. apply negb_true_iff. unfold is_zero. rnum. apply andb_false_iff.
        unfold Rabs in W. destruct (Rcase_abs (po_width k)); [left|right]; apply Rltb_false; lra. }
    unfold draw_outline. destruct (pl_marks s) as [|m ms] eqn:M; [cbn in A; injection A as <-; contradiction|].
    rewrite A. cbn [rbind]. rewrite B. cbn [rbind]. destruct a as [|a0 a]; [contradiction|]. destruct b as [|b0 b]; [contradiction|].
    eexists. split; [reflexivity|]. cbn [draw pl_drawn]. rewrite <- app_assoc. reflexivity.
  Qed.
  (** Lowering the tool begins a new outline. *)
  Theorem C142_begun (k : plotter_opts ROps) s : exists s', plot_call k PlotDown s = Ok s' /\ pl_marks s' = [] /\ pl_drawn s' = pl_drawn s.
  Proof. eexists. split; [reflexivity|]. split; reflexivity. Qed.
  (** The preview of a program begins with the tool at 0, 0 and turned to 0: a program in which every motion has X, Y and A is drawn
      with tool marks from its first motion on, and the marks of a first feed start at angle 0. *)
  Theorem C139_toolmarks_start k es : EPS <= 1 -> show_tm_outline k = false -> po_line_interval k <> 0 -> po_rotation_interval k <> 0 ->
    Forall (placed true) es -> exists s', plot_all k es new_plotter = Ok s'.
  Proof. intros H1 H2 H3 H4 H5. apply C139_total_toolmarks; auto. cbn. discriminate. Qed.
  Theorem C141_first_feed k (x y a : R) z : show_toolmarks k = true -> 0 < po_line_interval k -> 0 < po_rotation_interval k ->
    let l := euclid (P x y) (P 0 0) in EPS <= 1 -> 0 < l -> l / po_line_interval k * EPS <= 1 ->
    exists n s', steps l (po_line_interval k) n /\ plot_call k (PlotFeed (Some x) (Some y) z (Some a)) new_plotter = Ok s' /\
      pl_marks s' = map m_blade (marks_of (po_width k) (trail k) (SLine (Ln (P 0 0) (P x y))) 0 a n).
  Proof.
    intros K I1 I2 l E1 L X.
    assert (Q : seg_length (SLine (Ln (P 0 0) (P x y))) = l) by (cbn [seg_length]; unfold seg_len; cbn [p1 p2]; apply euclid_sym).
    destruct (C141_tool_marks He k (SLine (Ln (P 0 0) (P x y))) 0 a new_plotter Logic.I K I1 I2) as (n & s' & A & B & C & _); rewrite ?Q;
      try (replace (Rltb 0 l) with true by (symmetry; apply Rltb_true; exact L)); auto.
    rewrite Q in A. replace (Rltb 0 l) with true in A by (symmetry; apply Rltb_true; exact L).
    exists n. eexists. split; [exact A|]. cbn [plot_call end_point rbind]. rewrite K.
    change (pl_a new_plotter) with (Some 0 : option R). change (pl_xy new_plotter) with (P 0 0 : Pt). rewrite B. cbn [rbind]. split; [reflexivity|].
    destruct (Num.ltb _ _); cbn [update_location pl_marks draw]; rewrite C; reflexivity.
  Qed.
End C142.
(** What is written for a side is an open path: a move to its first end and a line to the end of each of its lines. *)
Theorem C142_written n la st (l : Line_) (r : list Line_) :
  exists s es, element_data n (EPath la st (l :: r)) = Ok (Some s) /\ Svg.parse_path (N:=ROps) s = (map SvgProofs2.tuple es, None) /\
    Forall2 (SvgOutSpec.near_drawn n) (SvgSpec.DMove (SvgOutSpec.at_xy (p1 l)) :: map (fun m => SvgSpec.DLine (SvgOutSpec.at_xy (p2 m))) (l :: r)) es.
Proof.
  destruct (PropsSvgOut.C136_commands_partial n (map (fun x => GeomSvg.GLine x) (l :: r)) false) as (s & ds & es & A & B & (g & r' & body & G1 & G2 & G3) & D).
  - discriminate.
  - apply Forall_map, Forall_forall. intros; exact Logic.I.
  - exists s, es. split; [exact A|]. split; [exact B|]. replace (SvgSpec.DMove _ :: _)%list with ds; [exact D|].
    cbn [map] in G1. injection G1 as <- _. rewrite G3, app_nil_r. f_equal.
    clear - G2. change (SvgOutSpec.drawn_as) with SvgOutSpec.drawn_as in G2. remember (l :: r) as ls eqn:Q. clear Q. revert body G2.
    induction ls as [|m ls IH]; intros body G2; cbn [map] in *; inversion G2 as [|x y xs ys X Y]; subst; [reflexivity|]. cbn in X. subst. f_equal. now apply IH.
Qed.
