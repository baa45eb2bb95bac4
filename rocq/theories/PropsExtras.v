(** * PropsExtras: the smaller extensions, first part: simplified polylines (C150), repeated elements (C151),
    lines between two polylines (C152), over R. *)
From Verif Require Import Num NumR Str Geom GeomR GeomSpec GeomProofs GeomProofs2 GeomProofs4 GeomProofs5 Polygon PolySpec Bezier Ellipse
  Svg SvgDoc GeomSvg Extras PropsGeom PropsPoly PropsQuasi.
From Verif Require Preprocess PropsPreprocess PropsSvgDoc.
From Coq Require Import String Ascii ZArith Reals Lra Lia Bool List Permutation.
Import ListNotations.
Local Open Scope R_scope.

(** ** C150: the polysmooth option that simplifies polylines *)
(** The path of lines through some points *)
Definition path_of (pts : list Pt) : list (gseg ROps) := map (fun e => GLine (Ln (fst e) (snd e))) (consecutive pts).
Definition is_line (s : gseg ROps) : bool := match s with GLine _ => true | _ => false end.
Section C150.
  Context {E : Epsilon ROps}.
  Lemma through_path (p : Pt) r : map GLine (lines_through p r) = path_of (p :: r).
  Proof.
    revert p. induction r as [|q r IH]; intros p; [reflexivity|]. cbn [lines_through map]. rewrite IH. reflexivity.
  Qed.
  Lemma through_points (p : Pt) r : r <> [] ->
    exists l t, rev (lines_through p r) = l :: t /\ (map p1 (lines_through p r) ++ [p2 l])%list = p :: r.
  Proof.
    revert p. induction r as [|q r IH]; intros p H; [contradiction|]. destruct r as [|q' r].
    - exists (Ln p q), []. split; reflexivity.
    - destruct (IH q) as (l & t & A & B); [discriminate|]. exists l, (t ++ [Ln p q])%list. cbn [lines_through rev map] in *. rewrite A. split; [reflexivity|].
      cbn [app]. cbn [app] in B. now rewrite B.
  Qed.
  Lemma simplified (p q : Pt) r tol : 0 < EPS -> 0 <= tol ->
    exists out, simplification tol (p :: q :: r) out /\ simplify_lines (lines_through p (q :: r)) tol = Ok (path_of out).
  Proof.
    intros He Ht. destruct (through_points p (q :: r)) as (l & t & A & B); [discriminate|].
    destruct (C49_simplify_partial (p :: q :: r) tol He Ht) as (out & S & Q & _). specialize (Q ltac:(cbn; lia)).
    exists out. split; [exact Q|]. unfold simplify_lines. rewrite A, B, S. cbn [rbind]. destruct Q as (kept & Q & K & _).
    destruct kept as [|k kept]; [discriminate|]. rewrite Q. cbn [map]. now rewrite through_path.
  Qed.
  Lemma loop_new tol path : forall new pending, simplify_loop new pending path tol = rmap (app new) (simplify_loop [] pending path tol).
  Proof.
    induction path as [|s r IH]; intros new pending; cbn [simplify_loop].
    - destruct pending; [cbn; now rewrite app_nil_r|]. destruct (simplify_lines _ _); reflexivity.
    - destruct s as [l|a|b|e].
      + apply IH.
      + destruct pending as [|x [|y t]]; [rewrite IH, (IH ([] ++ [_])%list)| rewrite IH, (IH ([] ++ [_])%list)|]; try (destruct (simplify_loop [] _ r tol); cbn; rewrite <- ?app_assoc; reflexivity).
        destruct (simplify_lines _ _) as [v|]; [|reflexivity]. cbn [rbind]. rewrite IH, (IH ([] ++ v)%list). destruct (simplify_loop [] [] r tol); cbn; rewrite <- ?app_assoc; reflexivity.
      + destruct pending as [|x [|y t]]; [rewrite IH, (IH ([] ++ [_])%list)| rewrite IH, (IH ([] ++ [_])%list)|]; try (destruct (simplify_loop [] _ r tol); cbn; rewrite <- ?app_assoc; reflexivity).
        destruct (simplify_lines _ _) as [v|]; [|reflexivity]. cbn [rbind]. rewrite IH, (IH ([] ++ v)%list). destruct (simplify_loop [] [] r tol); cbn; rewrite <- ?app_assoc; reflexivity.
      + destruct pending as [|x [|y t]]; [rewrite IH, (IH ([] ++ [_])%list)| rewrite IH, (IH ([] ++ [_])%list)|]; try (destruct (simplify_loop [] _ r tol); cbn; rewrite <- ?app_assoc; reflexivity).
        destruct (simplify_lines _ _) as [v|]; [|reflexivity]. cbn [rbind]. rewrite IH, (IH ([] ++ v)%list). destruct (simplify_loop [] [] r tol); cbn; rewrite <- ?app_assoc; reflexivity.
  Qed.
  Lemma loop_lines tol ls : forall new pending rest,
    simplify_loop new pending (map GLine ls ++ rest)%list tol = simplify_loop new (pending ++ ls) rest tol.
  Proof.
    induction ls as [|l ls IH]; intros new pending rest; cbn [map app]; [now rewrite app_nil_r|]. cbn [simplify_loop]. rewrite IH, <- app_assoc. reflexivity.
  Qed.
  Lemma loop_curves tol cs : forallb (fun s => negb (is_line s)) cs = true -> forall new rest,
    simplify_loop new [] (cs ++ rest)%list tol = simplify_loop (new ++ cs) [] rest tol.
  Proof.
    induction cs as [|c cs IH]; intros H new rest; cbn [app]; [now rewrite app_nil_r|]. cbn [forallb] in H. apply andb_true_iff in H as (H1 & H2).
    destruct c; [discriminate| | |]; cbn [simplify_loop]; rewrite IH by exact H2; rewrite <- app_assoc; reflexivity.
  Qed.
  (** A path of lines is replaced by a path of lines through some of its vertices, the first and the last
      among them, which stays within the tolerance. *)
  Theorem C150_polyline (pts : list Pt) (tol : R) : 0 < EPS -> 0 <= tol -> (2 <= List.length pts)%nat ->
    exists out, simplification tol pts out /\ simplify_polylines (path_of pts) tol = Ok (path_of out).
  Proof.
    intros He Ht Hl. destruct pts as [|p [|q r]]; [cbn in Hl; lia|cbn in Hl; lia|]. destruct (simplified p q r tol He Ht) as (out & A & B). exists out. split; [exact A|].
    unfold simplify_polylines. rewrite <- through_path. rewrite <- (app_nil_r (map GLine _)). rewrite loop_lines. cbn [app]. cbn [lines_through simplify_loop] in *. rewrite B. reflexivity.
  Qed.
  (** Curves before it are kept. *)
  Theorem C150_curves_first (cs : list (gseg ROps)) (pts : list Pt) (tol : R) : 0 < EPS -> 0 <= tol -> (2 <= List.length pts)%nat ->
    forallb (fun s => negb (is_line s)) cs = true ->
    exists out, simplification tol pts out /\ simplify_polylines (cs ++ path_of pts)%list tol = Ok (cs ++ path_of out)%list.
  Proof.
    intros He Ht Hl Hc. destruct (C150_polyline pts tol He Ht Hl) as (out & A & B). exists out. split; [exact A|].
    unfold simplify_polylines in *. rewrite loop_curves by exact Hc. cbn [app]. rewrite loop_new, B. reflexivity.
  Qed.
  Theorem C150_curves_only (cs : list (gseg ROps)) (tol : R) : forallb (fun s => negb (is_line s)) cs = true ->
    simplify_polylines cs tol = Ok cs.
  Proof.
    intros Hc. unfold simplify_polylines. rewrite <- (app_nil_r cs) at 1. rewrite loop_curves by exact Hc. reflexivity.
  Qed.
  (** A curve or arc that follows two or more lines is lost, whatever it is: the rest of the path is treated
      as if it had not been there. *)
  Theorem C150_lost_refuted (pts : list Pt) (s : gseg ROps) rest (tol : R) : 0 < EPS -> 0 <= tol -> (3 <= List.length pts)%nat ->
    is_line s = false ->
    exists out, simplification tol pts out /\
      simplify_polylines (path_of pts ++ s :: rest)%list tol = rmap (app (path_of out)) (simplify_polylines rest tol).
  Proof.
    intros He Ht Hl Hs. destruct pts as [|p [|q [|z r]]]; cbn in Hl; try lia.
    destruct (simplified p q (z :: r) tol He Ht) as (out & A & B). exists out. split; [exact A|].
    unfold simplify_polylines. rewrite <- through_path, loop_lines. cbn [app].
    cbn [lines_through] in B |- *.
    destruct s; [discriminate| | |]; cbn [simplify_loop]; rewrite B; cbn [rbind app]; apply loop_new.
  Qed.
  (** A single line before a curve is drawn after it. *)
  Theorem C150_swapped_refuted (a b : Pt) (s : gseg ROps) (tol : R) : 0 < EPS -> 0 <= tol -> is_line s = false ->
    simplify_polylines [GLine (Ln a b); s] tol = Ok [s; GLine (Ln a b)].
  Proof.
    intros He Ht Hs. destruct (simplified a b [] tol He Ht) as (out & (kept & A1 & A2 & (k & A3) & A4) & B).
    cbn [lines_through] in B. cbn [List.length] in *.
    assert (O : out = [a; b]).
    { subst kept. destruct k as [|x [|y t]]; cbn [app hd_error] in *.
      - discriminate.
      - injection A2 as ->. subst out. reflexivity.
      - injection A2 as ->. exfalso. destruct (A4 0%nat y) as ((I1 & I2) & _); [cbn; now left|].
        destruct t as [|w t]; [destruct (A4 y 1%nat) as ((I3 & _) & _); [cbn; now right; left|lia]|
                               destruct (A4 y w) as ((I3 & I4) & _); [cbn; now right; left|lia]]. }
    rewrite O in B. unfold simplify_polylines. destruct s; [discriminate| | |]; cbn [simplify_loop app]; rewrite B; reflexivity.
  Qed.
End C150.
(** The polyline (0,0), (1,0), (2,0), (2,1) has four vertices; the hypotheses hold. *)
Example C150_example : exists out, simplification (1/10) [P 0 0; P 1 0; P 2 0; P 2 1] out /\
  @simplify_polylines ROps eps6 (path_of [P 0 0; P 1 0; P 2 0; P 2 1]) (1/10) = Ok (path_of out).
Proof. apply (@C150_polyline eps6); [unfold EPS, eps6; cbn; lra|lra|cbn; lia]. Qed.

(** ** C151: the repeater *)
(** The vector of the option values: the interval in the direction of the angle, which is measured counter-clockwise as seen
    on the page, where the ordinates grow downwards *)
Definition pace (interval angle : R) (n : nat) : R * R := (INR (n + 1) * interval * cos angle, - (INR (n + 1) * interval * sin angle)).
(** [text] is a transform attribute whose six numbers differ from those of [m] by at most 0.0000005 *)
Definition writes (m : mat ROps) (text : pystr) : Prop :=
  exists m', parse_transform_attr (N:=ROps) (Some text) = Ok m' /\
    Rabs (m00 m' - m00 m) <= 0.0000005 /\ Rabs (m01 m' - m01 m) <= 0.0000005 /\ Rabs (m02 m' - m02 m) <= 0.0000005 /\
    Rabs (m10 m' - m10 m) <= 0.0000005 /\ Rabs (m11 m' - m11 m) <= 0.0000005 /\ Rabs (m12 m' - m12 m) <= 0.0000005.
(** Copy [n] of an element with the transform [m] is the element moved, in its own coordinates, by the n-th pace *)
Definition copy_of {A} (interval angle : R) (src : nat * (A * mat ROps)) (copy : A * pystr) : Prop :=
  let '(n, (e, m)) := src in
  fst copy = e /\ exists m', writes m' (snd copy) /\
    forall p : Pt, apply m' p = apply m (moved (fst (pace interval angle n)) (snd (pace interval angle n)) p).
Section C151.
  Context {E : Epsilon ROps} {A : Type}.
  Variable transform : A -> option pystr.
  Lemma copy_matrix_spec (m : mat ROps) interval angle n (p : Pt) :
    apply (copy_matrix m interval angle n) p = apply m (moved (fst (pace interval angle n)) (snd (pace interval angle n)) p).
  Proof.
    unfold copy_matrix. cbv zeta. rewrite apply_compose. f_equal. unfold from_polar, translate, moved, pace, apply. cbn [px py fst snd m00 m01 m02 m10 m11 m12].
    rewrite plus_INR. change (INR 1) with 1. rewrite INR_IZR_INZ. toR. rewrite plus_IZR, cos_neg, sin_neg. f_equal; lra.
  Qed.
  Lemma repeat_one_spec interval angle n e m : parse_transform_attr (N:=ROps) (transform e) = Ok m ->
    exists c, repeat_one transform interval angle n e = Ok c /\ copy_of interval angle (n, (e, m)) c.
  Proof.
    intros H. unfold repeat_one. rewrite H. cbn [rbind]. eexists. split; [reflexivity|]. cbn [copy_of fst snd]. split; [reflexivity|].
    exists (copy_matrix m interval angle n). split; [apply PropsSvgDoc.C84_transform_attr_round_trip|]. apply copy_matrix_spec.
  Qed.
  (** All copies of all elements are made, in order: first one copy of each element, then another of each, ... *)
  Theorem C151_copies (copies : Z) (interval angle : R) (es : list A) (ms : list (mat ROps)) :
    Forall2 (fun e m => parse_transform_attr (N:=ROps) (transform e) = Ok m) es ms ->
    exists out, repeat_elements transform copies interval angle es = Ok out /\
      Forall2 (copy_of interval angle) (list_prod (seq 0 (Z.to_nat copies)) (combine es ms)) out.
  Proof.
    intros H. unfold repeat_elements, Preprocess.rflat. generalize (seq 0 (Z.to_nat copies)) as ns.
    assert (I : forall n, exists row, Preprocess.rmapl (repeat_one transform interval angle n) es = Ok row /\ Forall2 (copy_of interval angle) (map (fun y => (n, y)) (combine es ms)) row).
    { intros n. induction H as [|e m es ms He H IH]; [exists []; split; [reflexivity|constructor]|].
      destruct IH as (row & R1 & R2). destruct (repeat_one_spec interval angle n e m He) as (c & C1 & C2).
      exists (c :: row). cbn [Preprocess.rmapl]. rewrite C1. cbn [rbind]. rewrite R1. cbn [rbind]. split; [reflexivity|]. cbn [combine map]. now constructor. }
    induction ns as [|n ns IH]; [exists []; split; [reflexivity|constructor]|].
    destruct IH as (out & O1 & O2). destruct (I n) as (row & R1 & R2). exists (row ++ out)%list. split.
    - cbn [Preprocess.rmapl]. rewrite R1. cbn [rbind]. destruct (Preprocess.rmapl _ ns) as [v|]; [|discriminate]. cbn in O1 |- *. congruence.
    - cbn [list_prod]. now apply Forall2_app.
  Qed.
  (** If no element is scaled, turned or skewed, every point of copy n is the point of the element moved by n + 1 intervals. *)
  Theorem C151_straight (interval angle : R) (n : nat) (m : mat ROps) (p : Pt) :
    m00 m = 1 :> R -> m01 m = 0 :> R -> m10 m = 0 :> R -> m11 m = 1 :> R ->
    let q := apply m (moved (fst (pace interval angle n)) (snd (pace interval angle n)) p) in
    q = moved (fst (pace interval angle n)) (snd (pace interval angle n)) (apply m p) /\
    (0 <= interval -> euclid q (apply m p) = INR (n + 1) * interval).
  Proof.
    intros A1 A2 A3 A4. cbv zeta. unfold apply, moved. cbn [px py]. rewrite A1, A2, A3, A4. split.
    - toR. f_equal; ring.
    - intros Hi. unfold euclid. cbn [px py]. toR. unfold pace. cbn [fst snd]. set (k := INR (n + 1)).
      assert (K : 0 <= k) by apply pos_INR.
      match goal with |- R_sqrt.sqrt ?x = _ => replace x with (Rsqr (k * interval)) end.
      + apply sqrt_Rsqr. now apply Rmult_le_pos.
      + pose proof (sin2_cos2 angle) as S. unfold Rsqr in *.
        transitivity (k * interval * (k * interval) * (sin angle * sin angle + cos angle * cos angle)); [rewrite S; ring|ring].
  Qed.
  (** In an element with scale(2) the copies are twice the interval apart. *)
  Theorem C151_scaled_refuted (p : Pt) : let m := Mx 2 0 0 0 2 0 : mat ROps in
    euclid (apply m (moved (fst (pace 1 0 0)) (snd (pace 1 0 0)) p)) (apply m p) = 2.
  Proof.
    cbv zeta. unfold euclid, apply, moved, pace. cbn [px py fst snd m00 m01 m02 m10 m11 m12]. toR. rewrite cos_0, sin_0. cbn [INR Nat.add].
    match goal with |- R_sqrt.sqrt ?x = _ => replace x with (Rsqr 2) by (unfold Rsqr; ring) end. apply sqrt_Rsqr. lra.
  Qed.
End C151.
Lemma Forall2_len {A B} (Q : A -> B -> Prop) l m : Forall2 Q l m -> List.length l = List.length m.
Proof. induction 1; cbn; congruence. Qed.
Example C151_example : exists out, @repeat_elements ROps _ (fun e : option pystr => e) 2 5 0 [None; Some (L "translate(5)")] = Ok out /\ List.length out = 4%nat.
Proof.
  destruct (@C151_copies _ (fun e : option pystr => e) 2 5 0 [None] [IDENTITY]) as (out & O & F); [repeat constructor|].
  assert (X : exists m, parse_transform_attr (N:=ROps) (Some (L "translate(5)")) = Ok m).
  { unfold parse_transform_attr. cbn. eexists. reflexivity. }
  destruct X as (m & X). destruct (@C151_copies _ (fun e : option pystr => e) 2 5 0 [None; Some (L "translate(5)")] [IDENTITY; m]) as (out' & O' & F'); [repeat constructor; exact X|].
  exists out'. split; [exact O'|]. pose proof (Forall2_len _ _ _ F') as Q. rewrite <- Q. reflexivity.
Qed.

(** ** C152: the lines between two polylines *)
Section C152.
  Context {E : Epsilon ROps}.
  Lemma rmapl_map {A B} (f : A -> res B) (g : A -> B) l : (forall x, In x l -> f x = Ok (g x)) -> Preprocess.rmapl f l = Ok (map g l).
  Proof.
    induction l as [|x l IH]; intros H; [reflexivity|]. cbn [Preprocess.rmapl map]. rewrite H by now left. cbn [rbind]. rewrite IH by (intros; apply H; now right). reflexivity.
  Qed.
  Lemma rmapl_raise {A B} (f : A -> res B) l x e : In x l -> f x = Raise e -> (forall y, (exists b, f y = Ok b) \/ f y = Raise e) ->
    Preprocess.rmapl f l = Raise e.
  Proof.
    intros I H K. induction l as [|y l IH]; [destruct I|]. cbn [Preprocess.rmapl]. destruct (K y) as [(b & Q)|Q]; rewrite Q; [|reflexivity].
    cbn [rbind]. destruct I as [-> |I]; [congruence|]. now rewrite (IH I).
  Qed.
  Lemma llen_seg (l : Line_) : llen l = seg_len l :> R.
  Proof. apply seg_len_llen. Qed.
  Lemma pipe_point_spec (s : Line_) (count : Z) n : (0 <= count)%Z -> 0 < seg_len s ->
    pipe_point s count n = Ok (at_param s (INR (n + 1) / (IZR count + 1))).
  Proof.
    intros Hc Hs. unfold pipe_point. cbv zeta. rewrite llen_seg. assert (C : 0 < IZR count + 1) by (apply IZR_le in Hc; lra).
    assert (C' : IZR (count + 1) = IZR count + 1) by (rewrite plus_IZR; reflexivity).
    unfold pydiv. toR. rewrite C'. rewrite (proj2 (Reqb_false (IZR count + 1) 0)) by lra. cbn [rbind].
    rewrite (proj2 (Reqb_false (seg_len s) 0)) by lra. cbn [rbind].
    apply (f_equal (@Ok Pt)). rewrite plus_INR. change (INR 1) with 1. rewrite (INR_IZR_INZ n), plus_IZR.
    unfold lpoint_at, at_param, Geom.padd, pmul, vec, psub. apply pt_ext; cbn [px py]; toR; match goal with |- ?u = ?v => change (@eq R u v) end; field; lra.
  Qed.
  Lemma quotients (segs : list Line_) (count : Z) : (0 <= count)%Z -> (forall s, In s segs -> 0 < seg_len s) ->
    exists v, Preprocess.rmapl (fun s => rbind (pydiv (llen s) (@of_Z ROps (count + 1))) (fun a => pydiv a (llen s))) segs = Ok v.
  Proof.
    intros Hc Hs. eexists. apply (rmapl_map _ (fun s => seg_len s / IZR (count + 1) / seg_len s)). intros s I. specialize (Hs s I).
    rewrite llen_seg. unfold pydiv. toR. assert (C : 0 < IZR (count + 1)) by (apply IZR_lt; lia).
    rewrite (proj2 (Reqb_false (IZR (count + 1)) 0)) by lra. cbn [rbind]. rewrite (proj2 (Reqb_false (seg_len s) 0)) by lra. reflexivity.
  Qed.
  Lemma num_plain (segs : list Line_) (count : Z) (spacing : R) : spacing <= 0 -> num_polylines spacing count segs = Ok count.
  Proof. intros Hp. unfold num_polylines. rnum. rewrite (proj2 (Rltb_false 0 spacing)) by lra. reflexivity. Qed.
  (** As many polylines as asked for, each with one vertex on every ray; the vertices divide a ray into equal parts. *)
  Theorem C152_polylines (segs : list Line_) (count : Z) (spacing : R) : spacing <= 0 -> (0 <= count)%Z -> segs <> [] ->
    (forall s, In s segs -> 0 < seg_len s) ->
    get_polylines spacing count segs =
      Ok (map (fun n => map (fun s => at_param s (INR (n + 1) / (IZR count + 1))) segs) (seq 0 (Z.to_nat count))).
  Proof.
    intros Hp Hc Hn Hs. unfold get_polylines. rewrite (num_plain segs count spacing Hp). cbn [rbind].
    destruct (quotients segs count Hc Hs) as (v & V). rewrite V. cbn [rbind]. destruct segs as [|s0 segs]; [contradiction|].
    apply rmapl_map. intros n _. apply rmapl_map. intros s I. apply pipe_point_spec; auto.
  Qed.
  Definition longest (segs : list Line_) (m : R) : Prop :=
    (forall s, In s segs -> seg_len s <= m) /\ exists s, In s segs /\ seg_len s = m.
  Lemma maxlen_spec (segs : list Line_) : forall m, let r := fold_left (fun m s => if Num.ltb m (llen s) then llen s else m) segs m : R in
    m <= r /\ (forall s, In s segs -> seg_len s <= r) /\ (r = m \/ exists s, In s segs /\ seg_len s = r).
  Proof.
    induction segs as [|s segs IH]; intros m; cbv zeta; cbn [fold_left].
    - repeat split; [lra|intros _ []|now left].
    - specialize (IH (if Num.ltb m (llen s) then llen s else m)). cbv zeta in IH.
      set (r := fold_left _ segs _) in *. destruct IH as (A & B & C). rewrite llen_seg in A, C.
      change (@Num.ltb ROps m (seg_len s)) with (Rltb m (seg_len s)) in A, C.
      destruct (Rltb m (seg_len s)) eqn:Q; [apply Rltb_true in Q|apply Rltb_false in Q].
      + repeat split; [lra| |].
        * intros x [<- |I]; [lra|auto].
        * right. destruct C as [C|(x & I & C)]; [exists s; split; [now left|lra]|exists x; split; [now right|auto]].
      + repeat split; [lra| |].
        * intros x [<- |I]; [lra|auto].
        * destruct C as [C|(x & I & C)]; [now left|right; exists x; split; [now right|auto]].
  Qed.
  (** With a maximum spacing, the number of polylines is chosen such that the parts of every ray are shorter than it. *)
  Theorem C152_spacing (segs : list Line_) (count : Z) (spacing : R) : 0 < spacing -> segs <> [] ->
    (forall s, In s segs -> 0 < seg_len s) ->
    exists k, (0 <= k)%Z /\ get_polylines spacing count segs =
        Ok (map (fun n => map (fun s => at_param s (INR (n + 1) / (IZR k + 1))) segs) (seq 0 (Z.to_nat k))) /\
      (forall s, In s segs -> seg_len s / (IZR k + 1) < spacing) /\
      forall m, longest segs m -> Rabs (IZR k - m / spacing) <= 1/2.
  Proof.
    intros Hp Hn Hs. destruct (maxlen_spec segs 0) as (A & B & C). set (r := fold_left _ segs _) in *.
    assert (Q0 : 0 <= r / spacing) by (apply Rmult_le_pos; [exact A|left; now apply Rinv_0_lt_compat]).
    set (k := Zfloor (r / spacing + 1/2)). pose proof (Zfloor_spec (r / spacing + 1/2)) as (K1 & K2). fold k in K1, K2.
    assert (K0 : (0 <= k)%Z). { assert (-1 < IZR k) by lra. apply lt_IZR in H. lia. }
    assert (KN : num_polylines spacing count segs = Ok k).
    { unfold num_polylines. rnum. rewrite (proj2 (Rltb_true 0 spacing)) by lra. cbv zeta.
      match goal with |- rbind (pydiv ?x _) _ = _ => change x with r end.
      unfold pydiv. rnum. rewrite (proj2 (Reqb_false spacing 0)) by lra. cbn [rbind]. f_equal. unfold k.
      replace (Rlit 5 (-1)) with (1/2) by (unfold Rlit; cbn; lra).
      unfold Ztrunc. destruct (Rlt_dec (r / spacing + 1/2) 0); [lra|reflexivity]. }
    assert (KP : 0 < IZR k + 1) by (apply IZR_le in K0; lra).
    exists k. split; [exact K0|]. split; [|split].
    - unfold get_polylines. rewrite KN. cbn [rbind]. destruct (quotients segs k K0 Hs) as (v & V). rewrite V. cbn [rbind]. destruct segs as [|s0 segs]; [contradiction|].
      apply rmapl_map. intros n _. apply rmapl_map. intros s I. apply pipe_point_spec; auto.
    - intros s I. specialize (B s I). apply Rmult_lt_reg_r with (IZR k + 1); [exact KP|]. replace (seg_len s / (IZR k + 1) * (IZR k + 1)) with (seg_len s) by (field; lra).
      apply Rle_lt_trans with r; [exact B|]. assert (H : @eq R r (r / spacing * spacing)) by (unfold Rdiv; rewrite Rmult_assoc, Rinv_l, Rmult_1_r by lra; reflexivity).
      rewrite H. rewrite (Rmult_comm spacing). apply Rmult_lt_compat_r; lra.
    - intros m (M1 & s & M2 & M3). assert (MR : m = r).
      { apply Rle_antisym; [rewrite <- M3; now apply B|]. destruct C as [C|(x & I & C)]; [specialize (Hs s M2); lra|rewrite <- C; auto]. }
      rewrite MR. clearbody k. clear - K1 K2. apply Rabs_le. change (T ROps) with R in *. split; lra.
  Qed.
  (** A ray without length makes the program fail. *)
  Theorem C152_zero_length_refuted (s : Line_) (segs : list Line_) (count : Z) (spacing : R) : spacing <= 0 -> (0 <= count)%Z ->
    In s segs -> seg_len s = 0 -> get_polylines spacing count segs = Raise ZeroDivisionError.
  Proof.
    intros Hp Hc I Z. unfold get_polylines. rewrite (num_plain segs count spacing Hp). cbn [rbind].
    rewrite (rmapl_raise _ segs s ZeroDivisionError I); [reflexivity| |].
    - unfold pydiv. rewrite llen_seg. rnum. assert (C : 0 < IZR (count + 1)) by (apply IZR_lt; lia).
      rewrite (proj2 (Reqb_false (IZR (count + 1)) 0)) by lra. cbn [rbind]. now rewrite (proj2 (Reqb_true (seg_len s) 0)) by exact Z.
    - intros x. unfold pydiv. rnum. destruct (Reqb (IZR (count + 1)) 0); cbn [rbind]; [now right|]. destruct (Reqb (llen x) 0); [now right|left; eexists; reflexivity].
  Qed.
End C152.
Example C152_example : @get_polylines ROps 0 1 [Ln (P 0 0) (P 0 2); Ln (P 4 0) (P 4 4)] = Ok [[P 0 1; P 4 2]].
Proof.
  rewrite C152_polylines; [|lra|lia|discriminate|].
  - change (Z.to_nat 1) with 1%nat. cbn [map seq]. change (INR (0 + 1)) with 1. unfold at_param. cbn [px py p1 p2]. toR.
    replace (0 + 1 / (1 + 1) * (0 - 0)) with 0 by lra. replace (0 + 1 / (1 + 1) * (2 - 0)) with 1 by lra.
    replace (4 + 1 / (1 + 1) * (4 - 4)) with 4 by lra. replace (0 + 1 / (1 + 1) * (4 - 0)) with 2 by lra. reflexivity.
  - intros s [<- |[<- |[]]]; unfold seg_len, euclid; apply sqrt_lt_R0; cbn; unfold Rsqr; lra.
Qed.
