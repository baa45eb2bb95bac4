(** * PropsCam3: cutting-job properties C31, C32, C65.
    See [PropsCam] for the conventions. *)
From Verif Require Import Num NumR NumF64 Str Gcode GcodeSpec GcodeProofs GcodeProofs2 GcodeProofs3 GcodeProofs4 GcodeR
  Geom GeomSpec GeomR GeomProofs Cam CamSpec CamProofs1 CamProofs2 CamProofs3 CamProofs4 CamR PropsGcode PropsGeom PropsCam PropsCam2.
From Coq Require Import String ZArith NArith Reals Lra Lia List Bool Permutation.
Import ListNotations.
Local Open Scope string_scope.
Local Open Scope R_scope.

(** ** Paths through sorting and preprocessing *)
Section Through.
  Context {N : NumOps} {E : Epsilon N}.
  Notation path := (list (cseg N)).
  (** Consecutive segments share their end points. *)
  Definition connected (p : path) : Prop :=
    forall a s t b, p = (a ++ s :: t :: b)%list -> s_p2 (geo s) = s_p1 (geo t).
  Lemma connected_pair s t : s_p2 (geo s) = s_p1 (geo t) -> connected [s; t].
  Proof.
    intros E0 [|a0 [|a1 a]] s' t' b H; [injection H as <- <- <-; exact E0| |].
    - injection H as _ H. discriminate.
    - injection H as _ _ H. destruct a; discriminate.
  Qed.
  Lemma connected_backwards p : connected p -> connected (backwards p).
  Proof.
    intros C a s t b H. unfold backwards in H. apply map_eq_app in H as (a' & r & Hr & _ & H).
    apply map_eq_cons in H as (s' & r' & -> & <- & H). apply map_eq_cons in H as (t' & b' & -> & <- & _).
    apply (f_equal (@rev _)) in Hr. rewrite rev_involutive, rev_app_distr in Hr. cbn in Hr.
    rewrite <- !app_assoc in Hr. cbn in Hr. specialize (C _ _ _ _ Hr).
    destruct (geo s'), (geo t'); cbn in *; auto.
  Qed.
  Lemma connected_infix a q b : connected (a ++ q ++ b) -> connected q.
  Proof.
    intros C a' s t b' ->. apply (C (a ++ a')%list s t (b' ++ b)%list).
    rewrite <- !app_assoc. reflexivity.
  Qed.
  (** A property of paths that is kept by reversal and by taking pieces. *)
  Definition hereditary (Q : path -> Prop) : Prop :=
    (forall p, Q p -> Q (backwards p)) /\ (forall a q b, Q (a ++ q ++ b)%list -> Q q).
  Lemma connected_hereditary : hereditary connected.
  Proof. split; [exact connected_backwards|exact connected_infix]. Qed.
  Lemma hereditary_forall (Q : cseg N -> Prop) :
    (forall s, Q s -> Q (plain (s_reversed (geo s)))) -> hereditary (Forall Q).
  Proof.
    intros H. split.
    - intros p F. unfold backwards. apply Forall_forall. intros x Hx. apply in_map_iff in Hx as (s & <- & Hs).
      apply H. rewrite Forall_forall in F. apply F. now apply in_rev.
    - intros a q b F. apply Forall_app in F as [_ F]. apply Forall_app in F. apply F.
  Qed.
  Lemma hereditary_and Q R : hereditary Q -> hereditary R -> hereditary (fun p => Q p /\ R p).
  Proof.
    intros [A B] [C D]. split; [intros p [X Y]; auto|]. intros a q b [X Y]. split; [exact (B _ _ _ X)|exact (D _ _ _ Y)].
  Qed.
  Lemma sorted_hereditary (Q : path -> Prop) k l l1 : hereditary Q -> sorted_input k l = Ok l1 -> Forall Q l -> Forall Q l1.
  Proof.
    intros [HB _] H F. unfold sorted_input in H. destruct (path_sort_method k) as [m|]; [|injection H as <-; exact F].
    assert (Fl : forall a b : list path, flipped_of a b -> Forall Q a -> Forall Q b).
    { induction 1 as [|p p' a b Hpp _ IH]; intros F0; [constructor|]. inversion F0; subst. constructor; auto.
      destruct Hpp as [->| ->]; auto. }
    assert (Pm : forall a b : list path, Permutation a b -> Forall Q a -> Forall Q b)
      by (intros a b HP; apply Permutation_Forall, HP).
    revert H. unfold sort_paths, keyed.
    destruct (String.eqb m "flip"); [intros H; apply (Fl _ _ (flip_paths_spec _ _ H) F)|].
    destruct (String.eqb m "optimize").
    { intros H. apply optimize_loses in H as (kept & lost & P & _ & L). apply (Fl _ _ L).
      apply (Pm _ _ P) in F. apply Forall_app in F. apply F. }
    destruct (String.eqb m "y+"); [destruct (no_empty l); [intros [= <-]; apply (Pm _ _ (sort_perm _ _) F)|discriminate]|].
    destruct (String.eqb m "y-"); [destruct (no_empty l); [intros [= <-]; apply (Pm _ _ (sort_rev_perm _ _) F)|discriminate]|].
    destruct (String.eqb m "x+"); [destruct (no_empty l); [intros [= <-]; apply (Pm _ _ (sort_perm _ _) F)|discriminate]|].
    destruct (String.eqb m "x-"); [destruct (no_empty l); [intros [= <-]; apply (Pm _ _ (sort_rev_perm _ _) F)|discriminate]|].
    now intros [= <-].
  Qed.
  Lemma preprocess_hereditary (Q : path -> Prop) k : hereditary Q -> forall l l2,
    preprocess k l = Ok l2 -> Forall Q l -> Forall Q l2.
  Proof.
    intros [_ HI]. induction l as [|p l IH]; intros l2 H F; [injection H as <-; constructor|].
    cbn in H. destruct (if path_split_cusps k then split_path_g1 p else Ok [p]) as [ps|e] eqn:Ep; [|discriminate].
    cbn in H. destruct (preprocess k l) as [rs|e]; [|discriminate]. injection H as <-.
    inversion F as [|? ? Fp Fl]; subst. apply Forall_app. split; [|apply IH; auto].
    destruct (path_split_cusps k); [|injection Ep as <-; constructor; auto].
    apply split_spec in Ep as (<- & _). clear -Fp HI.
    assert (G : forall pre, Q (pre ++ concat ps)%list -> Forall Q ps).
    { clear Fp. induction ps as [|q ps IH]; intros pre H; [constructor|]. cbn in H. constructor; [exact (HI _ _ _ H)|].
      apply (IH (pre ++ q)%list). now rewrite <- app_assoc. }
    apply (G []). exact Fp.
  Qed.
  Lemma preprocess_ok k (l : list path) : ~ In [] l -> exists l2, preprocess k l = Ok l2 /\ ~ In [] l2.
  Proof.
    induction l as [|p l IH]; intros H; [exists []; split; [reflexivity|intros []]|].
    destruct IH as (rs & Hrs & NI); [intros I; apply H; right; exact I|].
    cbn. rewrite Hrs. destruct (path_split_cusps k).
    - destruct p as [|s p]; [exfalso; apply H; left; reflexivity|].
      destruct (split_path_g1 (s :: p)) as [ps|e] eqn:Es; [|discriminate]. exists (ps ++ rs)%list. split; [reflexivity|].
      apply split_spec in Es as (_ & NE & _). intros I. apply in_app_or in I as [I|I]; [|contradiction].
      rewrite Forall_forall in NE. exact (NE _ I eq_refl).
    - exists (p :: rs)%list. split; [reflexivity|]. intros [->|I]; [apply H; left; reflexivity|contradiction].
  Qed.
  Lemma flipped_no_empty (l l' : list path) : flipped_of l l' -> ~ In [] l -> ~ In [] l'.
  Proof.
    induction 1 as [|p p' a b Hpp _ IH]; intros NI; [exact NI|]. intros [->|I].
    - destruct Hpp as [Z|Z]; [apply NI; left; auto|]. unfold backwards in Z. symmetry in Z. apply map_eq_nil in Z.
      apply (f_equal (@rev _)) in Z. rewrite rev_involutive in Z. cbn in Z. subst p. apply NI. left. reflexivity.
    - apply IH; [|exact I]. intros J. apply NI. right. exact J.
  Qed.
  (** Sort methods that always succeed on non-empty paths. *)
  Definition sortable (k : cam N) (l : list path) : Prop :=
    path_sort_method k <> Some "optimize" /\ (path_sort_method k = Some "flip" -> l <> []).
  Lemma sorted_ok k (l : list path) : ~ In [] l -> sortable k l -> exists l1, sorted_input k l = Ok l1 /\ ~ In [] l1.
  Proof.
    intros NI [S1 S2]. unfold sorted_input. destruct (path_sort_method k) as [m|]; [|exists l; auto].
    destruct (in_dec string_dec m sort_methods) as [I|I].
    - destruct (C28_sort_permutes l m I) as (A & _ & B). destruct (A NI) as [l1 H]. exists l1. split; [exact H|].
      intros J. apply NI. eapply Permutation_in; [symmetry; exact (B _ H)|exact J].
    - destruct (string_dec m "flip") as [->|NF].
      + specialize (S2 eq_refl). cbn. unfold flip_paths. destruct l as [|p l]; [contradiction|].
        rewrite (proj2 (no_empty_spec _) NI). eexists. split; [reflexivity|].
        eapply flipped_no_empty; [apply (flip_spec (p :: l))|exact NI].
      + exists l. split; [|exact NI]. apply C28_other_methods. intros [<-|[<-|J]]; [now apply NF|now apply S1|contradiction].
  Qed.
End Through.

(** ** C65: a job on non-empty paths completes *)
Section C65.
  Context {E : Epsilon ROps}.
  Notation path := (list (cseg ROps)).
  Theorem C65_completes (c : config ROps) k today text ct (l : list path) :
    0 < tolerance c -> step_of k < 0 -> ~ In [] l -> sortable k l ->
    exists fuel st', simple_job fuel c k today text ct l = (st', Ok tt).
  Proof.
    intros Ht Hs NI S. destruct (sorted_ok k l NI S) as (l1 & H1 & NI1).
    destruct (preprocess_ok k l1 NI1) as (l2 & H2 & _). destruct (job_depths c k Hs) as [n D].
    destruct (job_completes n c k (preprocess k) today text ct l l1 l2 (passes (z_depth k) (step_of k)) False (R_self_close c Ht) H1 H2) as (st' & A & _).
    - intros m. apply Forall_forall. intros p _ _ [].
    - apply D, le_n.
    - exists n, st'. exact A.
  Qed.
End C65.

(** ** C31 *)
Section C31.
  Context {N : NumOps} {E : Epsilon N}.
  Notation path := (list (cseg N)).
  (** The XY targets of all the calls of a completed job are the vertices of the
      selected paths, in order, once per pass, then the origin if homing. *)
  Theorem C31_route fuel c k today text ct (l : list path) st' :
    simple_job fuel c k today text ct l = (st', Ok tt) ->
    exists l1 l2 (ds : list N), sorted_input k l = Ok l1 /\ concat l2 = concat l1 /\
      (path_split_cusps k = false -> l2 = l1) /\
      xy_route (trace st') =
        (concat (map (fun _ => concat (map vertices (selected (path_count_start k) l2))) ds)
         ++ if home_when_done k then [P (of_Z 0) (of_Z 0)] else [])%list.
  Proof.
    intros H. apply job_shape in H as (l1 & l2 & ds & H1 & H2 & _ & JP); [|intros c'; apply simple_rapid_ok].
    exists l1, l2, ds. split; [exact H1|]. split; [exact (preprocess_concat k _ _ H2)|]. split; [|exact (job_route _ _ _ _ _ JP)].
    intros Hn. revert l2 H2 JP. clear H1. induction l1 as [|p l1 IH]; intros l2 H2 JP; [cbn in H2; congruence|].
    cbn in H2. rewrite Hn in H2. cbn in H2. destruct (preprocess k l1) as [rs|e] eqn:Er; [|discriminate].
    injection H2 as <-. f_equal. clear -Er Hn. revert rs Er. induction l1 as [|q l1 IH]; intros rs Er; [cbn in Er; congruence|].
    cbn in Er. rewrite Hn in Er. cbn in Er. destruct (preprocess k l1) as [r|e] eqn:E1; [|discriminate].
    injection Er as <-. f_equal. now apply IH.
  Qed.
End C31.
Section C31R.
  Context {E : Epsilon ROps}.
  Notation path := (list (cseg ROps)).
  (** An arc whose end points are on its circle. *)
  Definition true_arc (s : cseg ROps) : Prop :=
    match geo s with SLine _ => True
    | SArc a => (pdist (center a) (ap1 a) : R) = radius a /\ (pdist (center a) (ap2 a) : R) = radius a end.
  Lemma cut_close (c : config ROps) v l : 0 < tolerance c -> close c v l -> Rabs (v - l) <= tolerance c.
  Proof.
    intros Ht [->|H].
    - rewrite Rminus_diag_eq by reflexivity. rewrite Rabs_R0. lra.
    - revert H. rnum. intros H. rbool. exact H.
  Qed.
  Lemma dist_close (c0 a b : pt ROps) t : Rabs (px a - px b) <= t -> Rabs (py a - py b) <= t ->
    Rabs (pdist c0 b - pdist c0 a) <= t * R_sqrt.sqrt 2.
  Proof.
    intros Hx Hy.
    change (Rabs (euclid c0 b - euclid c0 a) <= t * R_sqrt.sqrt 2).
    pose proof (euclid_triangle c0 a b) as T1. pose proof (euclid_triangle c0 b a) as T2.
    assert (D : euclid a b <= t * R_sqrt.sqrt 2).
    { assert (0 <= t) by (pose proof (Rabs_pos (px a - px b)); lra).
      replace (t * R_sqrt.sqrt 2) with (R_sqrt.sqrt (t * t * 2)).
      - apply sqrt_le_1_alt. unfold Rsqr.
        assert (Q : forall u, Rabs u <= t -> u * u <= t * t).
        { intros u Hu. rewrite <- (Rabs_pos_eq t) in Hu by lra. apply Rsqr_le_abs_1 in Hu. exact Hu. }
        pose proof (Q _ Hx). pose proof (Q _ Hy). lra.
      - rewrite sqrt_mult_alt by nra. rewrite sqrt_square by lra. reflexivity. }
    rewrite (euclid_sym b a) in T2. apply Rabs_le. lra.
  Qed.
  Lemma ready (c : config ROps) p : 0 < tolerance c -> tolerance c * R_sqrt.sqrt 2 < EPS ->
    connected p -> Forall true_arc p -> path_ready c p.
  Proof.
    intros Ht He C F. split; [exact C|]. eapply Forall_impl; [|exact F]. intros s Hs st ar G (x & y & X & Y & CX & CY) xy HX HY.
    unfold true_arc in Hs. rewrite G in Hs. destruct Hs as [Hr _].
    assert (x = px xy) by congruence. assert (y = py xy) by congruence. subst x y.
    apply cut_close in CX, CY; auto.
    pose proof (dist_close (center ar) (ap1 ar) xy (tolerance c) CX CY) as D.
    unfold feq. rnum. apply Rltb_true. rewrite Hr in D. lra.
  Qed.
  (** Over the reals, if the output tolerance is below EPS / sqrt 2 then the job
      completes and every line is fed linearly and every arc as an arc, with its
      direction and with its centre relative to its start. *)
  Theorem C31_arcs_partial (c : config ROps) k today text ct (l : list path) :
    0 < tolerance c -> tolerance c * R_sqrt.sqrt 2 < EPS -> step_of k < 0 -> ~ In [] l -> sortable k l ->
    Forall connected l -> Forall (Forall true_arc) l ->
    exists fuel st' l', simple_job fuel c k today text ct l = (st', Ok tt) /\
      (exists l1, sorted_input k l = Ok l1 /\ concat l' = concat l1) /\
      job_program_by cuts_exactly (home_when_done k) (path_count_start k) l'
        (passes (z_depth k) (step_of k)) (trace st').
  Proof.
    intros Ht He Hs NI S FC FA. destruct (sorted_ok k l NI S) as (l1 & H1 & NI1).
    destruct (preprocess_ok k l1 NI1) as (l2 & H2 & _). destruct (job_depths c k Hs) as [n D].
    set (Q := fun p : path => connected p /\ Forall true_arc p).
    assert (HQ : hereditary Q).
    { apply hereditary_and; [apply connected_hereditary|apply hereditary_forall].
      intros s. unfold true_arc. destruct (geo s) as [ln|a]; cbn; [auto|]. intros [A B]. split; assumption. }
    assert (FQ : Forall Q l).
    { apply Forall_forall. intros p Hp. rewrite Forall_forall in FC, FA. split; auto. }
    pose proof (preprocess_hereditary Q k HQ l1 l2 H2 (sorted_hereditary Q k l l1 HQ H1 FQ)) as FQ2.
    destruct (job_completes n c k (preprocess k) today text ct l l1 l2 (passes (z_depth k) (step_of k)) True (R_self_close c Ht) H1 H2) as (st' & A & B).
    - intros m. eapply Forall_impl; [|exact FQ2]. intros p [Cp Ap] _ _.
      destruct (job_config_fields c m ct) as (_ & _ & Tc & _). apply ready; auto; rewrite Tc; auto.
    - apply D, le_n.
    - exists n, st', l2. split; [exact A|]. split; [exists l1; split; [exact H1|exact (preprocess_concat k _ _ H2)]|].
      destruct B as (td & body & C & T). exists td, body. split; [|exact T]. clear -C.
      induction C as [|d ds o os Hd _ IH]; constructor; [|exact IH].
      clear -Hd. induction Hd as [|p ps o os Hp _ IH]; constructor; [|exact IH].
      destruct Hp as (s & r & tx & a & body & -> & -> & C). exists s, r, tx, a, body. split; [reflexivity|]. split; [reflexivity|].
      clear -C. induction C as [|q qs o os Hq _ IH]; constructor; [|exact IH].
      destruct Hq as (o' & [_ Ho] & S). exists o'. auto.
  Qed.
End C31R.

(** With equal tolerances, as the command line sets them, this fails: a short first
    segment is not written, so the arc after it is measured from the wrong point and
    is cut as a straight line. *)
Definition cfg5 : config F64Ops :=
  @mkcfg F64Ops (z64 10) (z64 5) (z64 3) (z64 2) (z64 1) (f64_lit 1 (-5)) (f64_lit 1 (-5))
    (z64 100) (z64 0) None None (z64 200) (z64 0) true (z64 1000) true false true true [CStr "hello"] (Some "blend")
    (Some (f64_lit 1 (-3))) None "mm" 4 pempty pempty [("A", "C")].
Definition eps5 : Epsilon F64Ops := f64_lit 1 (-5).
Definition cam1 : cam F64Ops := @mkcam F64Ops true None (z64 (-1)) (z64 (-2)) false false 1.
Definition fpt (x y : f64) : pt F64Ops := @P F64Ops x y.
(** A line from the origin to (d,d), then the arc with centre (3+d, 4+d) and radius 5
    from there to (6+d, d). *)
Definition line_arc (d : f64) : list (cseg F64Ops) :=
  [ @plain F64Ops (@SLine F64Ops (@Ln F64Ops (fpt (z64 0) (z64 0)) (fpt d d)));
    @plain F64Ops (@SArc F64Ops (@mkarc F64Ops (fpt d d) (fpt (@Num.add F64Ops (z64 6) d) d) (z64 5) (z64 1)
        (fpt (@Num.add F64Ops (z64 3) d) (@Num.add F64Ops (z64 4) d)))) ].
Definition is_arc_op (o : @op F64Ops) : bool := match o with OArc _ _ _ _ _ _ _ _ _ => true | _ => false end.
Definition run5 (d : f64) := @simple_job F64Ops eps5 5 cfg5 cam1 "today" (fun _ _ _ => "") (fun _ => "") [line_arc d].
Definition outcome (r : cstate F64Ops * res unit) : option nat :=
  match r with (st, Ok tt) => Some (length (filter is_arc_op (trace st))) | _ => None end.
Theorem C31_arcs_refuted_binary64 : exists d : f64, plain_config cfg5 /\ tolerance cfg5 = @EPS F64Ops eps5 /\ tolerance cfg5 = f64_lit 1 (-5) /\
  connected (line_arc d) /\
  (exists st, run5 d = (st, Ok tt)) /\ existsb is_arc_op (trace (fst (run5 d))) = false.
Proof.
  exists (f64_lit 9 (-6)). split; [split; [cbn; repeat constructor; cbn; intuition discriminate|repeat split]|].
  split; [reflexivity|]. split; [reflexivity|]. split.
  { apply connected_pair. reflexivity. }
  split; [|vm_compute; reflexivity].
  destruct (run5 (f64_lit 9 (-6))) as [st r] eqn:Er. exists st. f_equal.
  assert (X : snd (run5 (f64_lit 9 (-6))) = Ok tt) by (vm_compute; reflexivity). now rewrite Er in X.
Qed.
(** The same job with a longer first segment: two passes, both cut the arc as an arc. *)
Example C31_example : outcome (run5 (z64 1)) = Some 2%nat.
Proof. vm_compute. reflexivity. Qed.

(** ** C32 *)
Section C32.
  Context {E : Epsilon ROps}.
  Notation path := (list (cseg ROps)).
  (** A joint that stays: the end tangent angle of [s] and the start tangent angle of
      [t] are equal up to EPS and neither segment is marked. *)
  Definition same_angle (s t : cseg ROps) : Prop :=
    Rabs (s_end_tangent (geo s) - s_start_tangent (geo t)) < EPS.
  Definition unmarked (s t : cseg ROps) : Prop := ignore_g1 s = false /\ ignore_g1 t = false.
  Lemma cut_spec (s t : cseg ROps) : cut_here s t = false <-> same_angle s t /\ unmarked s t.
  Proof.
    unfold cut_here, same_angle, unmarked, feq. rnum.
    destruct (ignore_g1 s), (ignore_g1 t); rewrite ?orb_true_r, ?orb_false_r; split;
      try (intros [_ [? ?]]; discriminate); try discriminate; intros H.
    - apply negb_false_iff in H. rbool. auto.
    - apply negb_false_iff. rbool. apply H.
  Qed.
  Theorem C32_partition (p : path) : p <> [] ->
    exists ps, split_path_g1 p = Ok ps /\
      concat ps = p /\ Forall (fun q => q <> []) ps /\
      (forall q, In q ps -> forall a s t b, q = (a ++ s :: t :: b)%list -> same_angle s t /\ unmarked s t) /\
      (forall a q r b, ps = (a ++ q :: r :: b)%list -> forall q' s t r', q = (q' ++ [s])%list -> r = t :: r' ->
         ~ (same_angle s t /\ unmarked s t)).
  Proof.
    intros Hp. destruct (split_path_g1 p) as [ps|e] eqn:H; [|destruct p; [contradiction|discriminate]].
    exists ps. split; [reflexivity|]. apply split_spec in H as (A & B & C & D).
    split; [exact A|]. split; [exact B|]. split.
    - intros q Hq a s t b Hs. apply cut_spec. rewrite Forall_forall in C. exact (C q Hq a s t b Hs).
    - intros a q r b Hps q' s t r' -> -> Hst. apply cut_spec in Hst. specialize (D a _ _ b Hps s).
      rewrite last_last in D. cbn [hd] in D. congruence.
  Qed.
  Theorem C32_empty : split_path_g1 (N := ROps) [] = Raise IndexError.
  Proof. reflexivity. Qed.

  (** Away from the direction -X "same angle" is the same as "same direction". *)
  Theorem C32_direction_partial (s t : cseg ROps) : unmarked s t -> cut_here s t = true ->
    0 < EPS ->
    Rabs (s_end_tangent (geo s)) < PI - EPS -> Rabs (s_start_tangent (geo t)) < PI ->
    forall n : Z, EPS <= Rabs (s_end_tangent (geo s) - s_start_tangent (geo t) + 2 * PI * IZR n).
  Proof.
    intros U C He R1 R2 n. set (a := s_end_tangent (geo s)) in *. set (b := s_start_tangent (geo t)) in *.
    assert (D : ~ Rabs (a - b) < EPS).
    { intros H. assert (cut_here s t = false) by (apply cut_spec; split; [exact H|exact U]). congruence. }
    apply Rabs_def2 in R1 as [A1 A2]. apply Rabs_def2 in R2 as [B1 B2].
    destruct (Z.eq_dec n 0) as [->|NZ]; [rewrite Rmult_0_r, Rplus_0_r; apply Rnot_lt_le; exact D|].
    pose proof PI_RGT_0 as P0. change (T ROps) with R in *.
    destruct (Z_lt_le_dec 0 n) as [L|L].
    - assert (1 <= IZR n) by (apply IZR_le; lia). assert (2 * PI <= 2 * PI * IZR n) by nra. rewrite Rabs_pos_eq; lra.
    - assert (IZR n <= -1) by (apply IZR_le; lia). assert (2 * PI * IZR n <= - (2 * PI)) by nra. rewrite Rabs_left1; lra.
  Qed.
  (** In the direction -X it is not: the line (0,0)-(-1,0) followed by the arc that
      continues it tangentially is cut. *)
  Definition west_line : cseg ROps := plain (SLine (Ln (P 0 0) (P (-1) 0))).
  Definition west_arc : cseg ROps := plain (SArc (mkarc (P (-1) 0) (P (-2) (-1)) 1 (PI / 2) (P (-1) (-1)))).
  Theorem C32_tangent_joint_refuted : EPS <= 1 ->
    s_p2 (geo west_line) = s_p1 (geo west_arc) /\
    cos (s_end_tangent (geo west_line)) = cos (s_start_tangent (geo west_arc)) /\
    sin (s_end_tangent (geo west_line)) = sin (s_start_tangent (geo west_arc)) /\
    split_path_g1 [west_line; west_arc] = Ok [[west_line]; [west_arc]].
  Proof.
    intros He.
    assert (A : s_end_tangent (geo west_line) = PI).
    { change (s_end_tangent (geo west_line)) with (Ratan2 (0 - 0) (-1 - 0)).
      replace (0 - 0) with (1 * sin PI) by (rewrite sin_PI; ring). replace (-1 - 0) with (1 * cos PI) by (rewrite cos_PI; ring).
      apply atan2_of_polar; [lra|]. pose proof PI_RGT_0. lra. }
    assert (Bc : s_start_tangent (geo west_arc) = - PI).
    { set (ar := mkarc (P (-1) 0) (P (-2) (-1)) 1 (PI / 2) (P (-1) (-1)) : arc ROps).
      change (s_start_tangent (geo west_arc)) with (astart_tangent ar).
      destruct (C42_tangents ar) as ([C S] & _ & Rg & _).
      - split; [cbn; lra|]. split; [apply euclid_unique; cbn; lra|].
        unfold turned. cbn. rewrite cos_PI2, sin_PI2. f_equal; ring.
      - cbn. pose proof PI_RGT_0. lra.
      - set (t := astart_tangent ar) in *. clearbody t. cbn [ar sweep radius ap1 center px py] in C, S.
        pose proof PI_RGT_0. destruct (Rlt_dec (PI / 2) 0); [lra|].
        change (T ROps) with R in *.
        destruct (Req_dec t (- PI)) as [->|NE]; [reflexivity|]. exfalso.
        assert (X : t = PI).
        { apply angle_unique; try lra; rewrite ?cos_PI, ?sin_PI; lra. }
        lra. }
    split; [reflexivity|]. rewrite A, Bc, cos_neg, sin_neg, sin_PI. split; [reflexivity|]. split; [ring|].
    cbn [split_path_g1 split_loop app]. unfold cut_here.
    rewrite A, Bc. unfold feq. rnum. pose proof PI_RGT_0. pose proof PI2_1.
    rewrite (proj2 (Rltb_false _ _)); [reflexivity|]. rewrite Rabs_pos_eq; lra.
  Qed.
End C32.
(** The job [run5] meets the hypotheses of C26_never_below and C30 and completes. *)
Example C30_example : plain_config cfg5 /\ no_z_hints [line_arc (z64 1)] /\
  @Num.leb F64Ops (z_depth cam1) (zsafe cfg5) = true /\ (exists st, run5 (z64 1) = (st, Ok tt)) /\
  length (out (gs (fst (run5 (z64 1))))) = 53%nat.
Proof.
  split; [split; [cbn; repeat constructor; cbn; intuition discriminate|repeat split]|].
  split; [repeat constructor|]. split; [vm_compute; reflexivity|]. split; [|vm_compute; reflexivity].
  destruct (run5 (z64 1)) as [st r] eqn:Er. exists st. f_equal.
  assert (X : snd (run5 (z64 1)) = Ok tt) by (vm_compute; reflexivity). now rewrite Er in X.
Qed.
(** A real-number job that meets the hypotheses of C31_arcs_partial, with flipping and splitting. *)
Example C31_arcs_example {E : Epsilon ROps} (c : config ROps) : 0 < tolerance c -> tolerance c * 2 < EPS < 1 ->
  let k := @mkcam ROps true (Some "flip") (-1) (-3) true true 1 in
  let p := [plain (SLine (Ln (P 0 0) (P 1 0))); plain (SArc (mkarc (P 1 0) (P 2 1) 1 (PI / 2) (P 1 1)))] in
  tolerance c * R_sqrt.sqrt 2 < EPS /\ step_of k < 0 /\ ~ In [] [p] /\ sortable k [p] /\
  Forall connected [p] /\ Forall (Forall true_arc) [p].
Proof.
  intros Ht He k p. split; [|split; [|split; [|split; [|split]]]].
  - assert (R_sqrt.sqrt 2 < 2); [|change (T ROps) with R in *; nra].
    rewrite <- (sqrt_square 2) at 2 by lra. apply sqrt_lt_1_alt. lra.
  - unfold step_of, k. cbn. destruct (Rlt_dec _ _); lra.
  - intros [H|[]]; discriminate.
  - split; cbn; discriminate.
  - constructor; [|constructor]. apply connected_pair. reflexivity.
  - repeat constructor; cbn; apply hypot_unique; lra.
Qed.
