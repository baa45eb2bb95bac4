(** * PropsCam2: cutting-job properties C26 (passes), C27-C30.
    See [PropsCam] for the conventions. *)
From Verif Require Import Num NumR NumF64 Str Gcode GcodeSpec GcodeProofs GcodeProofs2 GcodeProofs3 GcodeProofs4 GcodeR
  Geom GeomSpec GeomR Cam CamSpec CamProofs1 CamProofs2 CamProofs3 CamProofs4 CamR PropsGcode PropsCam.
From Coq Require Import String ZArith NArith Reals Lra Lia List Bool Permutation.
Import ListNotations.
Local Open Scope string_scope.
Local Open Scope R_scope.

Section Mono.
  Context {N : NumOps} {E : Epsilon N}.
  Lemma depths_mono (c : config N) step zd : forall f f' d ds, (f <= f')%nat ->
    depths f c step zd d = Some ds -> depths f' c step zd d = Some ds.
  Proof.
    induction f as [|f IH]; intros f' d ds Hf H.
    - cbn [depths] in H. destruct f'; cbn [depths]; destruct (Num.leb zd d); try discriminate; exact H.
    - destruct f' as [|f']; [lia|]. cbn [depths] in *. destruct (Num.leb zd d); [|exact H].
      destruct (depths f c step zd (next_depth c step zd d)) as [ds'|] eqn:D; [|discriminate].
      rewrite (IH f' _ ds'); [exact H|lia|exact D].
  Qed.
End Mono.

(** ** C26 (passes) and C27 *)
Section C27.
  Context {E : Epsilon ROps}.
  Notation path := (list (cseg ROps)).
  (** A completed job has a negative step and cuts exactly the depths [passes]. *)
  Lemma completed_depths fuel (c : config ROps) k n ct ds :
    depths fuel (job_config c n ct) (eff_step k) (z_depth k) (first_depth k) = Some ds ->
    step_of k < 0 /\ ds = passes (z_depth k) (step_of k).
  Proof.
    intros D. rewrite job_config_depths in D. destruct (Rlt_le_dec (step_of k) 0) as [L|L].
    - split; [exact L|]. destruct (job_depths c k L) as [m H].
      pose proof (depths_mono c (eff_step k) (z_depth k) fuel (Nat.max m fuel) _ ds (Nat.le_max_r _ _) D) as D1.
      rewrite H in D1 by apply Nat.le_max_l. congruence.
    - exfalso. rewrite eff_step_R, depths_nonneg in D; [discriminate|exact L|apply first_depth_ge].
  Qed.
  Lemma completed_job fuel (c : config ROps) k pre rapid today text ct (l : list path) st' :
    (forall c', rapid_ok c' (rapid c')) ->
    generate_gcode fuel c k pre rapid today text ct l cam_start = (st', Ok tt) ->
    step_of k < 0 /\ exists l1 l2, sorted_input k l = Ok l1 /\ pre l1 = Ok l2 /\
      job_program (home_when_done k) (path_count_start k) l2 (passes (z_depth k) (step_of k)) (trace st').
  Proof.
    intros RO H. apply job_shape in H as (l1 & l2 & ds & H1 & H2 & D & P); [|exact RO].
    apply completed_depths in D as [Hs ->]. split; [exact Hs|]. exists l1, l2. auto.
  Qed.

  (** Successive passes are strictly deeper, by the step. *)
  Definition stepping (zd step : R) (ds : list R) : Prop :=
    Forall (fun d => zd <= d) ds /\
    (forall a x y b, ds = (a ++ x :: y :: b)%list -> y = x + step) /\
    (forall x r, ds = x :: r -> x = zd \/ x = step).
  Lemma passes_stepping zd step : step < 0 -> stepping zd step (passes zd step).
  Proof.
    intros Hs. split; [|split].
    - apply Forall_forall. intros d Hd. apply In_nth_error in Hd as [i Hi].
      apply (passes_nth zd step i d Hs Hi).
    - intros a x y b. unfold passes. destruct (Rlt_dec 0 zd); [destruct a as [|? [|? ?]]; discriminate|].
      destruct (Rlt_dec step zd); [destruct a as [|? [|? ?]]; discriminate|].
      generalize (Z.to_nat (Zfloor (zd / step))). intros m H.
      assert (N1 : nth_error (map (fun i => INR (S i) * step) (seq 0 m)) (length a) = Some x)
        by (rewrite H, nth_error_app2, Nat.sub_diag; [reflexivity|lia]).
      assert (N2 : nth_error (map (fun i => INR (S i) * step) (seq 0 m)) (S (length a)) = Some y).
      { rewrite H, nth_error_app2 by lia. replace (S (length a) - length a)%nat with 1%nat by lia. reflexivity. }
      assert (G : forall i d, nth_error (map (fun i => INR (S i) * step) (seq 0 m)) i = Some d -> d = INR (S i) * step).
      { intros i d Hd. rewrite nth_error_map in Hd. destruct (nth_error (seq 0 m) i) as [j|] eqn:Ej; [|discriminate].
        injection Hd as <-. assert (Hi : (i < length (seq 0 m))%nat) by (apply nth_error_Some; congruence).
        rewrite seq_length in Hi. apply (nth_error_nth _ _ 0%nat) in Ej. rewrite seq_nth in Ej by exact Hi. cbn in Ej. now subst j. }
      apply G in N1, N2. rewrite N1, N2, (S_INR (S (length a))). ring.
    - intros x r H. assert (N : nth_error (passes zd step) 0 = Some x) by (rewrite H; reflexivity).
      apply passes_nth in N as [_ [->| ->]]; auto. right. cbn. ring.
  Qed.

  Theorem C26_passes fuel (c : config ROps) k today text ct (l : list path) st' :
    simple_job fuel c k today text ct l = (st', Ok tt) ->
    exists l' ds, job_program (home_when_done k) (path_count_start k) l' ds (trace st') /\
      ds <> [] /\ step_of k < 0 /\ stepping (z_depth k) (step_of k) ds.
  Proof.
    intros H. apply completed_job in H as (Hs & l1 & l2 & _ & _ & P); [|intros c'; apply simple_rapid_ok].
    exists l2, (passes (z_depth k) (step_of k)). split; [exact P|]. split; [now apply passes_nonempty|].
    split; [exact Hs|]. now apply passes_stepping.
  Qed.
  Theorem C26_passes_paint fuel (c : config ROps) k b today text ct (l : list path) st' :
    paint_job fuel c k b today text ct l = (st', Ok tt) ->
    exists l' ds, job_program (home_when_done k) (path_count_start k) l' ds (trace st') /\
      ds <> [] /\ step_of k < 0 /\ stepping (z_depth k) (step_of k) ds.
  Proof.
    intros H. apply completed_job in H as (Hs & l1 & l2 & _ & _ & P); [|intros c'; apply paint_rapid_ok].
    exists l2, (passes (z_depth k) (step_of k)). split; [exact P|]. split; [now apply passes_nonempty|].
    split; [exact Hs|]. now apply passes_stepping.
  Qed.

  (** C27 holds exactly when z_depth is a multiple of the step (or a single pass is
      made); otherwise the last pass stays above z_depth, by less than one step. *)
  Theorem C27_reached_partial fuel (c : config ROps) k today text ct (l : list path) st' :
    simple_job fuel c k today text ct l = (st', Ok tt) ->
    exists l' ds, job_program (home_when_done k) (path_count_start k) l' ds (trace st') /\ ds <> [] /\
      z_depth k <= last ds 0 < z_depth k - step_of k /\
      (last ds 0 = z_depth k <->
        0 < z_depth k \/ step_of k < z_depth k \/ exists n : Z, z_depth k = IZR n * step_of k).
  Proof.
    intros H. apply completed_job in H as (Hs & l1 & l2 & _ & _ & P); [|intros c'; apply simple_rapid_ok].
    exists l2, (passes (z_depth k) (step_of k)). split; [exact P|]. split; [now apply passes_nonempty|].
    destruct (passes_last (z_depth k) (step_of k) Hs) as (A & B & C). cbn zeta in *. split; [|exact C].
    change (T ROps) with R in *. destruct B as [B|B]; lra.
  Qed.

  (** A complete real-number job: tolerances, one line, depth -5 in steps of -2. *)
  Lemma R_self_close (c : config ROps) : 0 < tolerance c -> self_close c.
  Proof.
    intros H x y u v. unfold float_eq.
    assert (He : Rhypot (x - (u + x)) (y - (v + y)) = Rhypot u v) by (unfold Rhypot; f_equal; ring).
    rnum. rewrite He. rewrite Rminus_diag_eq by reflexivity. rewrite Rabs_R0. now apply Rltb_true.
  Qed.
  Definition one_line : path := [plain (SLine (Ln (P 0 0) (P 1 0)))].
  Definition cam5 : cam ROps := @mkcam ROps false None (-2) (-5) false false 1.
  Theorem C27_reached_refuted (c : config ROps) today text ct : 0 < tolerance c -> 0 < EPS <= 2 ->
    exists fuel st', simple_job fuel c cam5 today text ct [one_line] = (st', Ok tt) /\
      z_depth cam5 = -5 /\ job_program false 1 [one_line] [-2; -4] (trace st').
  Proof.
    intros Ht He.
    assert (Hs : step_of cam5 = -2).
    { unfold step_of, cam5. cbn. destruct (Rlt_dec _ _) as [L|L]; [|reflexivity]. rewrite Rabs_left in L by lra. lra. }
    destruct (job_depths c cam5 ltac:(rewrite Hs; lra)) as [n D].
    assert (Hp : passes (z_depth cam5) (step_of cam5) = [-2; -4]).
    { unfold passes. rewrite Hs. cbn [cam5 z_depth]. destruct (Rlt_dec 0 (-5)); [lra|]. destruct (Rlt_dec (-2) (-5)); [lra|].
      replace (Zfloor (-5 / -2)) with 2%Z.
      - change (map (fun i => INR (S i) * -2) (seq 0 2) = [-2; -4]). cbn [seq map].
        replace (INR 1 * -2) with (-2) by (cbn; ring). replace (INR 2 * -2) with (-4) by (cbn; ring). reflexivity.
      - assert (F : Zfloor (-5 / -2) = 2%Z) by (apply Zfloor_unique; lra). now rewrite F. }
    destruct (job_completes n c cam5 (preprocess cam5) today text ct [one_line] [one_line] [one_line]
                [-2; -4] False (R_self_close c Ht) eq_refl eq_refl) as (st' & A & B).
    - intros m. repeat constructor; contradiction.
    - rewrite <- Hp. apply D, le_n.
    - exists n, st'. split; [exact A|]. split; [reflexivity|].
      cbn [home_when_done path_count_start cam5] in B.
      destruct B as (td & body & C & T). exists td, body. split; [|exact T].
      clear -C. remember [-2; -4] as ds. clear Heqds. induction C as [|d ds o os Hd _ IH]; constructor; [|exact IH].
      clear -Hd. induction Hd as [|p ps o os Hp _ IH]; constructor; [|exact IH].
      destruct Hp as (s & r & tx & a & body & -> & -> & C). exists s, r, tx, a, body. split; [reflexivity|]. split; [reflexivity|].
      clear -C. induction C as [|q qs o os Hq _ IH]; constructor; [|exact IH].
      destruct Hq as (o' & [Ho _] & S). exists o'. auto.
  Qed.
End C27.

(** ** C28 *)
Section C28.
  Context {N : NumOps} {E : Epsilon N}.
  Notation path := (list (cseg N)).
  Definition sort_methods := ["x+"; "x-"; "y+"; "y-"].
  (** [v] is the first point of the path. *)
  Definition starts_at (p : path) (v : pt N) : Prop := exists s r, p = s :: r /\ v = s_p1 (geo s).
  (** For every number type: the result is a permutation, paths that start at the
      same point keep their order, and the call fails only for an empty path. *)
  Theorem C28_sort_permutes (l : list path) m : In m sort_methods ->
    (~ In [] l -> exists l', sort_paths l m = Ok l') /\
    (In [] l -> sort_paths l m = Raise IndexError) /\
    (forall l', sort_paths l m = Ok l' -> Permutation l l').
  Proof.
    intros Hm. unfold sort_paths, keyed.
    assert (NE : no_empty l = true \/ no_empty l = false) by (destruct (no_empty l); auto).
    pose proof (no_empty_spec l) as NS.
    split; [|split].
    - intros H. apply NS in H. rewrite H. destruct Hm as [<-|[<-|[<-|[<-|[]]]]]; cbn [String.eqb Ascii.eqb Bool.eqb]; eauto.
    - intros H. assert (no_empty l = false) as -> by (destruct NE as [X|X]; auto; apply NS in X; contradiction).
      destruct Hm as [<-|[<-|[<-|[<-|[]]]]]; reflexivity.
    - intros l'. destruct (no_empty l); destruct Hm as [<-|[<-|[<-|[<-|[]]]]]; cbn; intros H; try discriminate; injection H as <-;
        first [apply sort_perm|apply sort_rev_perm].
  Qed.
  Theorem C28_other_methods (l : list path) m : ~ In m ("flip" :: "optimize" :: sort_methods) -> sort_paths l m = Ok l.
  Proof.
    intros H. unfold sort_paths.
    repeat match goal with |- (if String.eqb m ?s then _ else _) = _ =>
      destruct (String.eqb_spec m s) as [->|_]; [exfalso; apply H; cbn; tauto|] end. reflexivity.
  Qed.
  (** 'flip' keeps the order and reverses some of the paths ... *)
  Theorem C28_flip (l l' : list path) : sort_paths l "flip" = Ok l' -> flipped_of l l' /\ ~ In [] l.
  Proof.
    cbn. intros H. split; [now apply flip_paths_spec|]. unfold flip_paths in H. destruct l; [discriminate|].
    destruct (no_empty _) eqn:NE; [|discriminate]. now apply no_empty_spec.
  Qed.
End C28.
(** ... so that every path but the first starts at the end nearer to where the tool is. *)
Theorem C28_flip_nearest {E : Epsilon ROps} (l l' : list (list (cseg ROps))) : sort_paths l "flip" = Ok l' ->
  forall l1 p q l2, l' = (l1 ++ p :: q :: l2)%list ->
    pdist (last (vertices p) (P 0 0)) (hd (P 0 0) (vertices q)) <= pdist (last (vertices p) (P 0 0)) (last (vertices q) (P 0 0)).
Proof.
  intros H l1 p q l2 ->. destruct (C28_flip _ _ H) as [FO NI].
  assert (NE : forall x, In x (l1 ++ p :: q :: l2)%list -> x <> []).
  { intros x Hx. clear H. remember (l1 ++ p :: q :: l2)%list as l'. clear Heql'. induction FO as [|a b l l' Hab _ IH]; [contradiction|].
    destruct Hx as [<-|Hx]; [|apply IH; auto; intros I; apply NI; right; exact I].
    assert (a <> []) by (intros ->; apply NI; left; reflexivity).
    destruct Hab as [->| ->]; [assumption|]. unfold backwards. intros Z. apply map_eq_nil in Z.
    apply (f_equal (@rev _)) in Z. rewrite rev_involutive in Z. contradiction. }
  assert (Np : p <> []) by (apply NE, in_or_app; right; left; reflexivity).
  assert (Nq : q <> []) by (apply NE, in_or_app; right; right; left; reflexivity).
  cbn in H. unfold flip_paths in H. destruct l as [|x l]; [discriminate|]. destruct (no_empty _); [|discriminate].
  injection H as H. pose proof (flip_near R_order (x :: l) _ NI l1 p q l2 H) as F.
  assert (La : forall p : list (cseg ROps), p <> [] -> last (vertices p) (P 0 0) = last_pt p).
  { intros p0 Hp0. destruct p0 as [|s p0] using rev_ind; [contradiction|]. clear IHp0.
    unfold last_pt. rewrite last_last. unfold vertices. rewrite map_app. cbn [map].
    destruct (p0 ++ [s])%list eqn:Ea; [destruct p0; discriminate|].
    rewrite app_comm_cons, last_last. reflexivity. }
  assert (Fi : forall p : list (cseg ROps), p <> [] -> hd (P 0 0) (vertices p) = first_pt p) by (intros [|s p0] Hp0; [contradiction|reflexivity]).
  rewrite (La p Np), (La q Nq), (Fi q Nq). rnum. rbool. exact F.
Qed.
Section C28R.
  Context {E : Epsilon ROps}.
  Notation path := (list (cseg ROps)).
  (** The promised orders. *)
  Definition x_then_y (u v : pt ROps) : Prop := px u < px v \/ (px u = px v /\ py u <= py v).
  Definition y_then_x (u v : pt ROps) : Prop := py u < py v \/ (py u = py v /\ px u <= px v).
  Definition promised (m : string) : pt ROps -> pt ROps -> Prop :=
    if String.eqb m "x+" then x_then_y else if String.eqb m "x-" then fun u v => x_then_y v u
    else if String.eqb m "y+" then y_then_x else fun u v => y_then_x v u.
  Lemma lex_false (a b a' b' : R) : lex_lt (N := ROps) a b a' b' = false -> a' < a \/ (a' = a /\ b' <= b).
  Proof.
    unfold lex_lt. rnum. destruct (Reqb a a') eqn:Ea; rbool; intros H; rbool.
    - right. split; [auto|lra].
    - left. destruct (Rtotal_order a a') as [X|[X|X]]; [lra|congruence|lra].
  Qed.
  Lemma lex_false_conv (a b a' b' : R) : a' < a \/ (a' = a /\ b' <= b) -> lex_lt (N := ROps) a b a' b' = false.
  Proof.
    unfold lex_lt. rnum. intros H. destruct (Reqb a a') eqn:Ea; rbool; destruct H as [H|[H1 H2]]; lra.
  Qed.
  Lemma lex_trans (f g : path -> R) : forall p q r : path,
    lex_lt (N := ROps) (f q) (g q) (f p) (g p) = false -> lex_lt (N := ROps) (f r) (g r) (f q) (g q) = false ->
    lex_lt (N := ROps) (f r) (g r) (f p) (g p) = false.
  Proof. intros p q r H1 H2. apply lex_false in H1, H2. apply lex_false_conv. lra. Qed.
  Lemma lex_asym (f g : path -> R) : forall p q : path,
    lex_lt (N := ROps) (f p) (g p) (f q) (g q) = true -> lex_lt (N := ROps) (f q) (g q) (f p) (g p) = false.
  Proof.
    intros p q H. apply lex_false_conv. unfold lex_lt in H. revert H. rnum.
    destruct (Reqb (f p) (f q)) eqn:Ea; rbool; intros H; rbool; lra.
  Qed.
  Theorem C28_sorted (l l' : list path) m : In m sort_methods -> sort_paths l m = Ok l' ->
    forall a p b q c u v, l' = (a ++ p :: b ++ q :: c)%list -> starts_at p u -> starts_at q v -> promised m u v.
  Proof.
    intros Hm H a p b q c u v El (s & r & -> & ->) (s' & r' & -> & ->).
    assert (TX : forall a b c : path, lt_xy b a = false -> lt_xy c b = false -> lt_xy c a = false)
      by (intros a0 b0 c0; apply (lex_trans (fun p => px (first_pt p)) (fun p => py (first_pt p)))).
    assert (TY : forall a b c : path, lt_yx b a = false -> lt_yx c b = false -> lt_yx c a = false)
      by (intros a0 b0 c0; apply (lex_trans (fun p => py (first_pt p)) (fun p => px (first_pt p)))).
    assert (AX : forall a b : path, lt_xy a b = true -> lt_xy b a = false)
      by (intros a0 b0; apply (lex_asym (fun p => px (first_pt p)) (fun p => py (first_pt p)))).
    assert (AY : forall a b : path, lt_yx a b = true -> lt_yx b a = false)
      by (intros a0 b0; apply (lex_asym (fun p => py (first_pt p)) (fun p => px (first_pt p)))).
    unfold sort_paths, keyed in H. destruct Hm as [<-|[<-|[<-|[<-|[]]]]]; cbn in H;
      destruct (no_empty l); try discriminate; injection H as H; subst l';
      unfold promised; cbn [String.eqb Ascii.eqb Bool.eqb]; unfold x_then_y, y_then_x.
    - pose proof (sort_sorted lt_xy TX AX l _ _ _ _ _ El) as S. unfold lt_xy in S. apply lex_false in S. exact S.
    - pose proof (sort_rev_sorted lt_xy TX AX l _ _ _ _ _ El) as S. unfold lt_xy in S. apply lex_false in S. exact S.
    - pose proof (sort_sorted lt_yx TY AY l _ _ _ _ _ El) as S. unfold lt_yx in S. apply lex_false in S. exact S.
    - pose proof (sort_rev_sorted lt_yx TY AY l _ _ _ _ _ El) as S. unfold lt_yx in S. apply lex_false in S. exact S.
  Qed.
  (** Paths with the same start point keep their relative order. *)
  Theorem C28_stable (l l' : list path) m (here : path -> bool) : In m sort_methods -> sort_paths l m = Ok l' ->
    (forall p q u v, here p = true -> here q = true -> starts_at p u -> starts_at q v -> u = v) ->
    filter here l' = filter here l.
  Proof.
    intros Hm H Hh.
    assert (NE : forall p, In p l -> p <> []).
    { unfold sort_paths, keyed in H. destruct Hm as [<-|[<-|[<-|[<-|[]]]]]; cbn in H;
      destruct (no_empty l) eqn:N0; try discriminate; intros p Hp ->; apply no_empty_spec in N0; contradiction. }
    (* restrict [here] to non-empty paths *)
    set (f := fun p : path => here p && match p with [] => false | _ => true end).
    assert (Hf : forall a b : path, f a = true -> f b = true -> first_pt a = first_pt b).
    { intros a b Ha Hb. unfold f in *. apply andb_true_iff in Ha as [A1 A2], Hb as [B1 B2].
      destruct a as [|s a]; [discriminate|]. destruct b as [|s' b]; [discriminate|].
      apply (Hh _ _ _ _ A1 B1); eexists _, _; split; reflexivity. }
    assert (Eq : forall l0 : list path, (forall p, In p l0 -> p <> []) -> filter here l0 = filter f l0).
    { intros l0 Hl. apply filter_ext_in. intros p Hp. unfold f. specialize (Hl p Hp). destruct p; [congruence|]. now rewrite andb_true_r. }
    assert (P : Permutation l l') by (apply (C28_sort_permutes l m Hm), H).
    assert (NE' : forall p, In p l' -> p <> []) by (intros p Hp; apply NE; eapply Permutation_in; [symmetry; exact P|exact Hp]).
    rewrite (Eq l NE), (Eq l' NE').
    assert (FX : forall a b, f a = true -> f b = true -> lt_xy a b = false).
    { intros a b Ha Hb. unfold lt_xy. rewrite (Hf a b Ha Hb). apply lex_false_conv. lra. }
    assert (FY : forall a b, f a = true -> f b = true -> lt_yx a b = false).
    { intros a b Ha Hb. unfold lt_yx. rewrite (Hf a b Ha Hb). apply lex_false_conv. lra. }
    unfold sort_paths, keyed in H. destruct Hm as [<-|[<-|[<-|[<-|[]]]]]; cbn in H;
      destruct (no_empty l); try discriminate; injection H as <-.
    - now apply sort_stable.
    - now apply sort_rev_stable.
    - now apply sort_stable.
    - now apply sort_rev_stable.
  Qed.
End C28R.

(** ** C29 *)
Section C29.
  Context {N : NumOps} {E : Epsilon N}.
  Notation path := (list (cseg N)).
  (** 'optimize' always fails or loses at least one path, for every input and every
      number type. *)
  Theorem C29_optimize_refuted (l : list path) :
    (exists e, sort_paths l "optimize" = Raise e) \/
    exists l', sort_paths l "optimize" = Ok l' /\ (length l' < length l)%nat.
  Proof.
    cbn. destruct (sort_segment_paths_1 l) as [l'|e] eqn:H; [right|left; eauto]. exists l'. split; [reflexivity|].
    apply optimize_loses in H as (kept & lost & P & L & F). apply flipped_length in F. apply Permutation_length in P.
    rewrite app_length in P. destruct lost; [contradiction|]. cbn in P. lia.
  Qed.
  (** What is left: the paths it returns are given paths, each at most once, some of
      them reversed. *)
  Theorem C29_optimize_partial (l l' : list path) : sort_paths l "optimize" = Ok l' ->
    exists kept lost, Permutation l (kept ++ lost) /\ flipped_of kept l'.
  Proof. cbn. intros H. apply optimize_loses in H as (kept & lost & P & _ & F). eauto. Qed.
End C29.
(** Three parallel lines in binary64: the two lower ones are returned, the top one is lost. *)
Definition fline (x1 y1 x2 y2 : Z) : cseg F64Ops :=
  @plain F64Ops (@SLine F64Ops (@Ln F64Ops (@P F64Ops (z64 x1) (z64 y1)) (@P F64Ops (z64 x2) (z64 y2)))).
Definition eps64 : Epsilon F64Ops := f64_lit 1 (-6).
Example C29_example :
  option_map (@length _) (match @sort_paths F64Ops [[fline 0 0 1 0]; [fline 0 20 1 20]; [fline 0 40 1 40]]%Z "optimize"
                          with Ok l => Some l | Raise _ => None end) = Some 2%nat.
Proof. vm_compute. reflexivity. Qed.

(** ** C30 *)
Section C30.
  Context {N : NumOps} {E : Epsilon N}.
  Notation path := (list (cseg N)).
  Definition all_rapids_safe (c : config N) (prog : list item) : Prop :=
    forall before_ line after_, prog = (before_ ++ line :: after_)%list -> lateral_rapid c line ->
    exists m m' z z',
      replay (axis_letters c) before_ machine0 = Some m /\
      step_item (axis_letters c) m line = Some m' /\
      mpos m (out_name c PZ) = Some (program_value c PZ z) /\ Num.ltb z (zsafe c) = false /\
      mpos m' (out_name c PZ) = Some (program_value c PZ z') /\ Num.ltb z' (zsafe c) = false.
  Lemma job_tracked fuel c k pre rapid today text ct (l : list path) :
    (forall c' p, emits c' tracked_op (rapid c' p)) ->
    let r := generate_gcode fuel c k pre rapid today text ct l cam_start in
    exists n, gs (fst r) = run (job_config c n ct) (trace (fst r)) init /\ Forall tracked_op (trace (fst r)).
  Proof.
    intros HR. apply job_calls; cbn; auto.
    intros l0 l1 _ d _. apply Forall_forall. intros p _. split; [|split]; cbn; auto.
    apply Forall_forall. intros s _. repeat split; intros; exact I.
  Qed.
  Lemma job_safe fuel c k pre rapid today text ct (l : list path) :
    OrderLaws N -> plain_config c ->
    (forall c' p, emits c' tracked_op (rapid c' p)) ->
    all_rapids_safe c (out (gs (fst (generate_gcode fuel c k pre rapid today text ct l cam_start)))).
  Proof.
    intros OL PC HR. destruct (job_tracked fuel c k pre rapid today text ct l HR) as (n & G & F).
    destruct (job_config_fields c n ct) as (F1 & F2 & F3 & F4 & F5 & F6).
    intros b line a Ho L. rewrite G in Ho.
    destruct (rapids_safe (job_config c n ct) _ OL (F1 PC) F b line a Ho) as (m & m' & z & z' & A & B & C & D & C' & D').
    { destruct L as (num & ws & cm & -> & w & Hw & Hn). exists num, ws, cm. split; [reflexivity|]. exists w. split; [exact Hw|].
      now rewrite !F4. }
    rewrite F6, F4, F2, F5 in *. exists m, m', z, z'. repeat split; auto.
  Qed.
  (** Whatever the outcome of the job (completed, exception, still running). *)
  Theorem C30_rapids_safe fuel c k today text ct (l : list path) : OrderLaws N -> plain_config c ->
    all_rapids_safe c (out (gs (fst (simple_job fuel c k today text ct l)))).
  Proof.
    intros OL PC. apply job_safe; auto. intros c' p. apply em_rapid_to_path. intros; exact I.
  Qed.
  Theorem C30_rapids_safe_paint fuel c k b today text ct (l : list path) : OrderLaws N -> plain_config c ->
    all_rapids_safe c (out (gs (fst (paint_job fuel c k b today text ct l)))).
  Proof.
    intros OL PC. apply job_safe; auto. intros c' p. apply em_paint_rapid. intros; exact I.
  Qed.

  (** The program of a completed job: header, retract, every pass over every selected
      path (comment, rapid to the first point, plunge, cuts), retract, home, footer. *)
  Theorem C30_program fuel c k today text ct (l : list path) st' :
    simple_job fuel c k today text ct l = (st', Ok tt) ->
    exists l' ds, job_program (home_when_done k) (path_count_start k) l' ds (trace st').
  Proof.
    intros H. apply job_shape in H as (l1 & l2 & ds & _ & _ & _ & P); [|intros c'; apply simple_rapid_ok]. eauto.
  Qed.
  Theorem C30_program_paint fuel c k b today text ct (l : list path) st' :
    paint_job fuel c k b today text ct l = (st', Ok tt) ->
    exists l' ds, job_program (home_when_done k) (path_count_start k) l' ds (trace st').
  Proof.
    intros H. apply job_shape in H as (l1 & l2 & ds & _ & _ & _ & P); [|intros c'; apply paint_rapid_ok]. eauto.
  Qed.

  (** It ends with the tool at the safe height, on the machine. *)
  Lemma up_rapid_z (c : config N) x y a cm s : alt_tool_up c = None -> vZ (last_val s) = Some (zsafe c) ->
    vZ (last_val (fst (rapid_move c x y None a cm s))) = Some (zsafe c).
  Proof.
    intros Ha Hz. unfold rapid_move. unfold bind at 1. cbn beta zeta. rewrite Hz.
    assert (H1 : exists s1, when (Num.ltb (zsafe c) (zsafe c) || is_tool_up s) (tool_up c true None None) s = (s1, Ok tt) /\
               vZ (last_val s1) = Some (zsafe c)).
    { destruct (_ || _); cbn [when]; [|eexists; split; [reflexivity|exact Hz]].
      destruct (tool_up_spec c true None None s Ha) as (s' & Es & Lv & _). exists s'. split; [exact Es|]. rewrite Lv.
      destruct (last_val s). reflexivity. }
    destruct H1 as (s1 & -> & H1). unfold bind.
    set (args := mkargs _ _ _ _).
    assert (M : vZ (last_val (fst (gcode_command c "G00" args s1))) = Some (zsafe c)).
    { rewrite gcode_motion by (cbn; auto).
      pose proof (scan_moved c "G00" args PZ scan_order eq_refl scan_order_nodup (all_scanned PZ)
                    (last_val s1, is_tool_up s1, pempty)) as SM.
      destruct (fold_left _ _ _) as [[lv up] pos]. cbn [fst] in SM.
      assert (V : vZ lv = Some (zsafe c)).
      { destruct SM as [SM|(l0 & E1 & E2 & _)]; [exact SM|]. cbn [pget fst] in E1, E2. rewrite H1 in E1. congruence. }
      destruct (Nat.ltb 0 _); [destruct (_ || _)|]; cbn [fst write_line last_val]; exact V. }
    destruct (gcode_command c "G00" args s1) as [s2 [u|e]]; cbn in M |- *; exact M.
  Qed.
  Lemma job_ends_up home start (l : list path) ds ops (c : config N) : alt_tool_up c = None ->
    job_program home start l ds ops -> vZ (last_val (run c ops init)) = Some (zsafe c).
  Proof.
    intros Ha (today & body & _ & ->). unfold run. rewrite !fold_left_app. cbn [app fold_left].
    generalize (fold_left (fun s o => fst (exec c o s)) body
      (fst (exec c (OToolUp true None None) (fst (exec c (OHeader today None) init))))). intros s.
    cbn [exec]. destruct (tool_up_spec c true None None s Ha) as (s' & Es & Lv & _). rewrite Es. cbn [fst].
    assert (V : vZ (last_val s') = Some (zsafe c)) by (rewrite Lv; destruct (last_val s); reflexivity).
    assert (F : forall s, vZ (last_val (fst (footer c s))) = vZ (last_val s)).
    { intros s0. unfold footer, bind, emit, when. destruct (axis_offset_reset _); reflexivity. }
    destruct home; cbn [fold_left exec]; rewrite F; [|exact V]. now apply up_rapid_z.
  Qed.
  Lemma job_ends fuel c k pre rapid today text ct (l : list path) st' : plain_config c ->
    (forall c', rapid_ok c' (rapid c')) -> (forall c' p, emits c' tracked_op (rapid c' p)) ->
    generate_gcode fuel c k pre rapid today text ct l cam_start = (st', Ok tt) ->
    exists m, replay (axis_letters c) (out (gs st')) machine0 = Some m /\
      mpos m (out_name c PZ) = Some (program_value c PZ (zsafe c)).
  Proof.
    intros PC RO HR H. destruct (job_tracked fuel c k pre rapid today text ct l HR) as (n & G & F).
    rewrite H in G, F. cbn [fst] in G, F.
    destruct (job_config_fields c n ct) as (F1 & F2 & F3 & F4 & F5 & F6).
    destruct (tracking (job_config c n ct) _ (F1 PC) F) as (m & R & M). rewrite G, <- F6. exists m. split; [exact R|].
    specialize (M PZ ltac:(unfold is_axis; auto)). rewrite F4 in M. rewrite M.
    apply job_shape in H as (l1 & l2 & ds & _ & _ & _ & JP); [|exact RO].
    cbn [pget]. rewrite (job_ends_up _ _ _ _ _ (job_config c n ct) ltac:(apply (F1 PC)) JP). cbn [option_map].
    now rewrite F5, F2.
  Qed.
  Theorem C30_ends_up fuel c k today text ct (l : list path) st' : plain_config c ->
    simple_job fuel c k today text ct l = (st', Ok tt) ->
    exists m, replay (axis_letters c) (out (gs st')) machine0 = Some m /\
      mpos m (out_name c PZ) = Some (program_value c PZ (zsafe c)).
  Proof.
    intros PC. apply job_ends; auto; [intros c'; apply simple_rapid_ok|intros c' p; apply em_rapid_to_path; intros; exact I].
  Qed.
  Theorem C30_ends_up_paint fuel c k b today text ct (l : list path) st' : plain_config c ->
    paint_job fuel c k b today text ct l = (st', Ok tt) ->
    exists m, replay (axis_letters c) (out (gs st')) machine0 = Some m /\
      mpos m (out_name c PZ) = Some (program_value c PZ (zsafe c)).
  Proof.
    intros PC. apply job_ends; auto; [intros c'; apply paint_rapid_ok|intros c' p; apply em_paint_rapid; intros; exact I].
  Qed.
End C30.
