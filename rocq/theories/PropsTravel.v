(** * PropsTravel: the travel counter of a job (C119), simplecam.py. *)
From Verif Require Import Num NumR Geom GeomR GeomSpec GeomProofs GeomProofs2 Gcode Cam CamSpec CamR CamProofs2 OffsetSpec PropsCam2 PropsCam3 PropsGeom PropsGeom2.
From Coq Require Import ZArith Reals Lra Lia Bool List Psatz String.
Import ListNotations.
Local Open Scope R_scope.
Local Open Scope list_scope.

(** ** Specification: the length of a segment, of a path and of many *)
Definition travelled (s : CSeg) : R :=
  match geo s with SLine l => euclid (p1 l) (p2 l) | SArc a => Rabs (sweep a) * radius a end.
Definition path_travel (p : Path) : R := fold_right Rplus 0 (map travelled p).
Definition total_travel (l : list Path) : R := fold_right Rplus 0 (map path_travel l).

Ltac rr := match goal with |- ?a = ?b => change (@eq R a b) end; first [ring | symmetry; ring | lra].
Section Travel.
  Context {E : Epsilon ROps}.
  Definition adds {A} (d : R) (m : CM (N := ROps) A) : Prop :=
    forall st st' a, m st = (st', Ok a) -> feed_distance st' = feed_distance st + d.
  Lemma adds_bind {A B} d1 d2 (m : CM (N := ROps) A) (f : A -> CM (N := ROps) B) : adds d1 m -> (forall a, adds d2 (f a)) -> adds (d1 + d2) (cbind m f).
  Proof.
    intros H1 H2 st st' b. unfold cbind. destruct (m st) as [s [a|e]] eqn:Q; [|discriminate]. intros Q2. apply H1 in Q. apply H2 in Q2. lra.
  Qed.
  Lemma adds_bind0 {A B} d (m : CM (N := ROps) A) (f : A -> CM (N := ROps) B) : adds 0 m -> (forall a, adds d (f a)) -> adds d (cbind m f).
  Proof. intros H1 H2. replace d with (0 + d) by rr. apply adds_bind; auto. Qed.
  Lemma adds_seq d1 d2 m m' : adds d1 m -> adds d2 m' -> adds (d1 + d2) (cseq (N := ROps) m m').
  Proof. intros. apply adds_bind; auto. Qed.
  Lemma adds_seq0 d m m' : adds 0 m -> adds d m' -> adds d (cseq (N := ROps) m m').
  Proof. intros. apply adds_bind0; auto. Qed.
  Lemma adds_call c o : adds 0 (call (N := ROps) c o).
  Proof. intros st st' a. unfold call. destruct (exec c o (gs st)) as [g r]. intros Q. injection Q; intros _ <-. cbn. rr. Qed.
  Lemma adds_ret {A} (a : A) : adds 0 (cret (N := ROps) a).
  Proof. intros st st' b Q. injection Q; intros _ <-. rr. Qed.
  Lemma adds_raise {A} d e : adds d (craise (N := ROps) (A := A) e).
  Proof. intros st st' b Q. discriminate. Qed.
  Lemma adds_get : adds 0 (get_angle (N := ROps)).
  Proof. intros st st' b Q. injection Q; intros _ <-. rr. Qed.
  Lemma adds_set a : adds 0 (set_angle (N := ROps) a).
  Proof. intros st st' b Q. injection Q; intros _ <-. cbn. rr. Qed.
  Lemma adds_xy : adds 0 (get_xy (N := ROps)).
  Proof. intros st st' b. unfold get_xy. destruct (vX _); [|discriminate]. destruct (vY _); [|discriminate]. intros Q. injection Q; intros _ <-. rr. Qed.

  Lemma travelled_length (s : CSeg) : (match geo s with SArc a => 0 <= radius a | _ => True end) -> s_length (geo s) = travelled s.
  Proof.
    unfold travelled. destruct (geo s) as [l|a]; cbn [s_length]; intros H.
    - rewrite (seg_len_llen l). reflexivity.
    - unfold alen. rnum. rewrite Rabs_mult, (Rabs_pos_eq (radius a)) by lra. toR. rr.
  Qed.
  Definition sound (s : CSeg) : Prop := match geo s with SArc a => 0 <= radius a | _ => True end.
  Lemma adds_segment c k s depth : sound s -> adds (travelled s) (segment_gcode (N := ROps) c k s depth).
  Proof.
    intros SO. unfold segment_gcode. replace (travelled s) with (travelled s + 0) by rr. apply adds_seq.
    - rewrite <- travelled_length by exact SO. intros st st' a Q. injection Q; intros _ <-. reflexivity.
    - apply adds_bind0.
      + destruct (_ || _); [apply adds_get|]. apply adds_bind0; [apply adds_get|]. intros a. apply adds_bind0.
        * destruct (is_zero _); [apply adds_ret|]. apply adds_seq0; [apply adds_set|apply adds_call].
        * intros _. apply adds_bind0; [apply adds_get|]. intros a'. apply adds_ret.
      + intros a. apply adds_seq0; [|apply adds_set]. destruct (geo s) as [l|ar]; [apply adds_call|]. apply adds_bind0; [apply adds_xy|].
        intros xy. destruct (negb _); apply adds_call.
  Qed.
  Lemma adds_segments c k depth p : Forall sound p -> adds (path_travel p) (segments_gcode (N := ROps) c k p depth).
  Proof.
    induction 1 as [|s p SO _ IH]; cbn [segments_gcode]; [apply adds_ret|]. unfold path_travel. cbn [map fold_right]. apply adds_seq; [apply adds_segment; auto|exact IH].
  Qed.
  Lemma adds_rapid c k p : adds 0 (rapid_to_path (N := ROps) c k p).
  Proof.
    unfold rapid_to_path. destruct p as [|s p]; [apply adds_raise|]. apply adds_seq0.
    - destruct (enable_tangent k); [|apply adds_ret]. apply adds_bind0; [apply adds_get|]. intros a. apply adds_set.
    - apply adds_bind0; [apply adds_get|]. intros a. apply adds_call.
  Qed.
  Lemma adds_path c k text p depth : Forall sound p -> adds (path_travel p) (cut_path (N := ROps) c k (rapid_to_path c k) text p depth).
  Proof.
    intros F. unfold cut_path. repeat (apply adds_seq0; [first [apply adds_call|apply adds_rapid|idtac]|]); [|apply adds_segments; auto].
    unfold plunge. destruct p; [apply adds_raise|apply adds_call].
  Qed.
  Lemma adds_pass c k text pass depth : forall l i, (path_count_start k <= i)%Z -> Forall (Forall sound) l ->
    adds (total_travel l) (one_pass (N := ROps) c k (rapid_to_path c k) text i pass depth l).
  Proof.
    induction l as [|p l IH]; intros i LE F; cbn [one_pass]; [apply adds_ret|]. inversion F; subst. unfold total_travel. cbn [map fold_right].
    apply adds_seq; [|apply IH; auto; lia]. replace (Z.leb (path_count_start k) i) with true by (symmetry; apply Z.leb_le; auto). rewrite andb_true_r.
    destruct p as [|s p]; cbn [negb]; [apply adds_ret|apply adds_path; auto].
  Qed.
  Lemma adds_loop c k text l step zd : (path_count_start k <= 1)%Z -> Forall (Forall sound) l -> forall fuel pass d st st',
    depth_loop (N := ROps) fuel c k (rapid_to_path c k) text l step zd pass d st = (st', Ok tt) ->
    exists ds, depths fuel c step zd d = Some ds /\ feed_distance st' = feed_distance st + INR (List.length ds) * total_travel l.
  Proof.
    intros LE F. induction fuel as [|f IH]; intros pass d st st'; cbn [depth_loop depths]; (destruct (Num.leb zd d); [|intros Q; injection Q; intros <-; exists []; split; [auto|cbn; rr]]); [discriminate|].
    unfold cseq, cbind. destruct (one_pass _ _ _ _ _ _ _ _ _) as [s1 [[]|e]] eqn:Q1; [|discriminate]. intros Q2. apply IH in Q2. destruct Q2 as (ds & D & Q2).
    exists (d :: ds). rewrite D. split; [reflexivity|]. apply (adds_pass c k text pass d l 1%Z LE F) in Q1. rewrite Q2, Q1. cbn [List.length]. rewrite S_INR. rr.
  Qed.
  Lemma total_app a b : total_travel (a ++ b) = total_travel a + total_travel b.
  Proof. unfold total_travel. induction a as [|p a IH]; cbn; [rr|]. rewrite IH. rr. Qed.
  Lemma path_app a b : path_travel (a ++ b) = path_travel a + path_travel b.
  Proof. unfold path_travel. induction a as [|p a IH]; cbn; [rr|]. rewrite IH. rr. Qed.
  Lemma total_concat ps : total_travel ps = path_travel (List.concat ps).
  Proof. induction ps as [|p ps IH]; [reflexivity|]. cbn [List.concat]. rewrite path_app, <- IH. reflexivity. Qed.
  Lemma preprocess_travel k l : forall l', preprocess k l = Ok l' -> Forall (Forall sound) l -> total_travel l' = total_travel l /\ Forall (Forall sound) l'.
  Proof.
    induction l as [|p l IH]; intros l'; cbn [preprocess]; [intros Q; injection Q; intros <-; auto|].
    destruct (if path_split_cusps k then split_path_g1 p else Ok [p]) as [ps|e] eqn:QP; [|discriminate]. cbn [rbind].
    destruct (preprocess k l) as [rs|e]; [|discriminate]. cbn [rbind]. intros Q F. injection Q; intros <-. inversion F; subst.
    destruct (IH rs eq_refl) as [A B]; auto. rewrite total_app, A.
    assert (C : List.concat ps = p).
    { destruct (path_split_cusps k); [|injection QP; intros <-; cbn; apply app_nil_r].
      destruct p as [|s p]; [discriminate|]. destruct (C32_partition (s :: p)) as (ps' & Q1 & Q2 & _); [discriminate|]. congruence. }
    split; [rewrite total_concat, C; reflexivity|]. apply Forall_app. split; auto. rewrite <- C in H1. apply Forall_concat in H1. exact H1.
  Qed.

  (** The travel counted by a completed job is the length of all its paths, once for every depth it is cut at. *)
  Theorem C119_travel fuel (c : config ROps) k today text ct (l : list Path) st' : path_sort_method k = None -> (path_count_start k <= 1)%Z ->
    Forall (Forall sound) l -> simple_job fuel c k today text ct l = (st', Ok tt) ->
    exists l' ds, job_program (home_when_done k) (path_count_start k) l' ds (trace st') /\
      feed_distance st' = INR (List.length ds) * total_travel l.
  Proof.
    intros SM LE F H. pose proof H as H0. apply job_shape in H0 as (l1 & l2 & ds & Q1 & Q2 & D & P); [|intros c'; apply simple_rapid_ok].
    unfold sorted_input in Q1. rewrite SM in Q1. injection Q1; intros <-. clear Q1. exists l2, ds. split; [exact P|].
    destruct (preprocess_travel k l l2 Q2 F) as [TT F2]. rewrite <- TT.
    unfold simple_job, generate_gcode in H. rewrite SM in H. apply cbind_ok in H as (s1 & l1 & H1 & H). injection H1; intros <- <-. clear H1.
    apply cbind_ok in H as (s2 & l3 & H2 & H). injection H2; intros Q3 <-. clear H2. rewrite Q2 in Q3. injection Q3; intros <-. clear Q3.
    apply cseq_ok in H as (s3 & H3 & H). apply cseq_ok in H as (s4 & H4 & H). apply cseq_ok in H as (s5 & H5 & H). apply cseq_ok in H as (s6 & H6 & H). apply cseq_ok in H as (s7 & H7 & H).
    apply adds_call in H3, H4, H6, H. apply adds_loop in H5 as (ds' & D' & H5); auto. rewrite D in D'. injection D'; intros <-.
    assert (H8 : feed_distance s7 = feed_distance s6 + 0) by (unfold cwhen in H7; destruct (home_when_done k); [eapply adds_call; exact H7|eapply adds_ret; exact H7]).
    rewrite H, H8, H6, H5, H4, H3. cbn [cam_start feed_distance]. change (Num.of_Z (n := ROps) 0) with 0. rr.
  Qed.
End Travel.

(** Depth -5 in steps of -2: two passes over a path of length 1. *)
Theorem C119_example {E : Epsilon ROps} (c : config ROps) today text ct : 0 < tolerance c -> 0 < EPS <= 2 ->
  path_sort_method cam5 = None /\ (path_count_start cam5 <= 1)%Z /\ Forall (Forall sound) [one_line] /\
  total_travel [one_line] = 1 /\ exists fuel st', simple_job fuel c cam5 today text ct [one_line] = (st', Ok tt).
Proof.
  intros T0 He. split; [reflexivity|]. split; [cbn; lia|]. split; [repeat constructor|]. split.
  - unfold total_travel, path_travel, one_line, travelled. cbn [map fold_right geo plain p1 p2]. rewrite (euclid_unique (P 0 0) (P 1 0) 1); cbn; lra.
  - destruct (C27_reached_refuted c today text ct T0 He) as (f & st & A & _). eauto.
Qed.
