(** * PropsGcode: the G-code properties (C01-C24), stated on the model [Gcode] and
      the specifications [GcodeSpec] (machine) and [GcodeLexSpec] (reader).

    Generic theorems quantify over [N : NumOps], hence hold for IEEE binary64. *)
From Coq Require Import String Ascii ZArith NArith List Bool Lia Reals Lra.
From Verif Require Import Num NumR NumF64 Str Gcode GcodeSpec GcodeLexSpec
  GcodeProofs GcodeProofs2 GcodeProofs3 GcodeProofs4 GcodeProofs5 GcodeR GcodeFeed GcodeLex GcodeLex2.
Import ListNotations.
Local Open Scope string_scope.

(** ** A non-trivial history in binary64, used to show that hypotheses are met *)
Definition z64 (z : Z) : f64 := f64_of_Z z.
Definition demo : list (@op F64Ops) :=
  [ @OHeader F64Ops "2024-05-20" None;
    @ORapid F64Ops (Some (z64 1)) (Some (z64 2)) None None (Some "start");
    @OToolDown F64Ops (z64 (-1)) None None None;
    @OFeed F64Ops (Some (z64 3)) None None (Some (z64 1)) None None;
    @OArc F64Ops true (z64 5) (z64 2) (z64 1) (z64 0) None None None None;
    @OToolUp F64Ops true None None;
    @ORapid F64Ops (Some (z64 0)) None (Some (z64 (-7))) None None;
    @OFooter F64Ops ].
Definition demo_cfg : config F64Ops :=
  @mkcfg F64Ops (z64 10) (z64 5) (z64 3) (z64 2) (z64 1) (f64_lit 1 (-6)) (f64_lit 1 (-6))
    (z64 100) (z64 0) None None (z64 200) (z64 0) true (z64 1000) true false true true [CStr "hello"] (Some "blend")
    (Some (f64_lit 1 (-3))) None "mm" 4 pempty pempty [("A", "C")].
Lemma demo_plain : plain_config demo_cfg /\ Forall tracked_op demo.
Proof.
  split; [|repeat constructor]. split; [|split; [reflexivity|split; reflexivity]].
  cbn. repeat constructor; cbn; intuition discriminate.
Qed.

(** ** C01 *)
Theorem C01_tracking {N : NumOps} (c : config N) ops :
  plain_config c -> Forall tracked_op ops ->
  exists m, replay (axis_letters c) (out (run c ops init)) machine0 = Some m /\
    forall k, is_axis k ->
      mpos m (out_name c k) = option_map (program_value c k) (pget k (last_val (run c ops init))).
Proof. exact (tracking c ops). Qed.
Example C01_example :
  exists m, replay (axis_letters demo_cfg) (out (run demo_cfg demo init)) machine0 = Some m /\
    mpos m "X" = Some (4%nat, DFin false 0) /\ mpos m "Y" = Some (4%nat, DFin false 20000) /\
    mpos m "Z" = Some (4%nat, DFin false 20000) /\ mpos m "C" = Some (4%nat, DFin false 572958).
Proof. eexists. split; [vm_compute; reflexivity|]. vm_compute. auto. Qed.

(** ** C02 *)
Theorem C02_rapids_safe {N : NumOps} (c : config N) ops :
  OrderLaws N -> plain_config c -> Forall tracked_op ops ->
  forall before_ line after_, out (run c ops init) = (before_ ++ line :: after_)%list -> lateral_rapid c line ->
  exists m m' z z',
    replay (axis_letters c) before_ machine0 = Some m /\
    step_item (axis_letters c) m line = Some m' /\
    mpos m (out_name c PZ) = Some (program_value c PZ z) /\ ltb z (zsafe c) = false /\
    mpos m' (out_name c PZ) = Some (program_value c PZ z') /\ ltb z' (zsafe c) = false.
Proof. exact (rapids_safe c ops). Qed.
Theorem C02_rapids_safe_binary64 (c : config F64Ops) ops :
  plain_config c -> Forall tracked_op ops ->
  forall before_ line after_, out (run c ops init) = (before_ ++ line :: after_)%list -> lateral_rapid c line ->
  exists m m' z z',
    replay (axis_letters c) before_ machine0 = Some m /\
    step_item (axis_letters c) m line = Some m' /\
    mpos m (out_name c PZ) = Some (program_value c PZ z) /\ ltb z (zsafe c) = false /\
    mpos m' (out_name c PZ) = Some (program_value c PZ z') /\ ltb z' (zsafe c) = false.
Proof. exact (rapids_safe c ops F64_order). Qed.
Theorem C02_rapids_safe_machine (c : config ROps) ops :
  plain_config c -> Forall tracked_op ops -> (0 <= scale_of c PZ)%R -> (0 <= unit_scale c)%R ->
  forall before_ line after_, out (run c ops init) = (before_ ++ line :: after_)%list -> lateral_rapid c line ->
  exists m m', replay (axis_letters c) before_ machine0 = Some m /\
    step_item (axis_letters c) m line = Some m' /\
    (forall m0, m0 = m \/ m0 = m' -> exists z zs,
       option_map dec_val (mpos m0 (out_name c PZ)) = Some (Some z) /\
       dec_val (ndigits_out c, fmt (ndigits_out c) (exact_coord c PZ (zsafe c))) = Some zs /\ (zs <= z)%R).
Proof.
  intros P F S U pre i post E L. destruct (rapids_safe_machine c ops P F S U pre i post E L) as (m & m' & A & B & C1 & C2).
  exists m, m'. repeat split; auto. intros m0 [->| ->]; assumption.
Qed.
(** The last rapid of [demo] asks for Z = -7 and moves X: it is a lateral rapid. *)
Example C02_example : exists before_ line after_,
  out (run demo_cfg demo init) = (before_ ++ line :: after_)%list /\ lateral_rapid demo_cfg line /\ length before_ = 30%nat.
Proof.
  eexists (firstn 30 (out (run demo_cfg demo init))), _, _. split; [|split].
  - vm_compute. reflexivity.
  - eexists _, _, _. split; [vm_compute; reflexivity|]. eexists. split; [left; reflexivity|]. vm_compute. auto.
  - vm_compute. reflexivity.
Qed.

(** ** C03 *)
Theorem C03_tool_up_unconditional {N : NumOps} (c : config N) (rapid : bool) wait cm s :
  alt_tool_up c = None ->
  exists s', tool_up c rapid wait cm s = (s', Ok tt) /\
    last_val s' = pset PZ (zsafe c) (last_val s) /\
    exists num cm' rest,
      out s' = (out s ++
        Line num (Block (if rapid then "G00" else "G01")
               [let '(n, d) := program_value c PZ (zsafe c) in mkword (out_name c PZ) n d]) cm'
        :: rest)%list /\ forall axes m, replay axes rest m = Some m.
Proof.
  intros H. destruct (tool_up_spec c rapid wait cm s H) as (s' & A & B & _ & _ & _ & num & k & rest & O & P & _).
  exists s'. split; auto. split; auto. exists num, k, rest. split.
  - rewrite O. now do 6 f_equal.
  - intros axes. clear O. induction P as [|i rest Hi _ IH]; intros m; [reflexivity|]. cbn [replay].
    rewrite (step_passive axes m i Hi). apply IH.
Qed.

(** ** C04 *)
Theorem C04_repeat_feed {N : NumOps} (c : config N) x y z a f cm s :
  (forall v : N, ltb (tolerance c) (abs (sub v v)) = false) ->
  (forall v : N, ltb (angle_tolerance c) (abs (sub v v)) = false) ->
  let s1 := fst (feed c x y z a f cm s) in
  let s2 := fst (feed c x y z a f cm s1) in
  snd (feed c x y z a f cm s1) = Ok tt /\ out s2 = out s1 /\ last_val s2 = last_val s1 /\
  line_number s2 = line_number s1.
Proof.
  intros H1 H2 s1 s2. destruct (feed_twice c x y z a f cm s (conj H1 H2)) as (A & B & C & D & _). auto.
Qed.
Theorem C04_repeat_command {N : NumOps} (c : config N) cmd args s :
  (forall v : N, ltb (tolerance c) (abs (sub v v)) = false) ->
  (forall v : N, ltb (angle_tolerance c) (abs (sub v v)) = false) ->
  In cmd ["G00"; "G01"; "G02"; "G03"] -> a_params args = None -> a_force args = "" ->
  let s1 := fst (gcode_command c cmd args s) in gcode_command c cmd args s1 = (s1, Ok tt).
Proof. intros H1 H2. exact (gcode_motion_twice c cmd args s (conj H1 H2)). Qed.
(** The hypotheses hold for every non-negative tolerance, over R and in binary64. *)
Example C04_real (c : config ROps) : (0 <= tolerance c)%R -> (0 <= angle_tolerance c)%R ->
  (forall v : ROps, ltb (tolerance c) (abs (sub v v)) = false) /\
  (forall v : ROps, ltb (angle_tolerance c) (abs (sub v v)) = false).
Proof. exact (no_self_change_R c). Qed.
Example C04_binary64 (c : config F64Ops) :
  SpecFloat.SFltb (tolerance c) (z64 0) = false -> SpecFloat.SFltb (angle_tolerance c) (z64 0) = false ->
  (forall v : F64Ops, ltb (tolerance c) (abs (sub v v)) = false) /\
  (forall v : F64Ops, ltb (angle_tolerance c) (abs (sub v v)) = false).
Proof. exact (no_self_change_F64 c). Qed.

(** ** C05 *)
Theorem C05_no_drift {N : NumOps} (c : config N) ops k v :
  (forall v : N, ltb (tolerance c) (abs (sub v v)) = false) ->
  (forall v : N, ltb (angle_tolerance c) (abs (sub v v)) = false) ->
  alt_tool_up c = None -> alt_tool_down c = None ->
  Forall (fun o => forall ax, o <> ONormalize ax) ops -> is_axis k ->
  last_request c ops init k None = Some v ->
  exists l, pget k (last_val (run c ops init)) = Some l /\ ltb (axis_tol c k) (abs (sub (wrapped c k v) l)) = false.
Proof.
  intros H1 H2 Hu Hd F Ak. apply (requests_close c ops init k None (conj H1 H2) Hu Hd F Ak). discriminate.
Qed.
Theorem C05_no_drift_machine (c : config ROps) ops k v :
  plain_config c -> Forall tracked_op ops -> (0 <= tolerance c)%R -> (0 <= angle_tolerance c)%R ->
  (k = PX \/ k = PY \/ k = PZ) ->
  last_request c ops init k None = Some v ->
  exists m d, replay (axis_letters c) (out (run c ops init)) machine0 = Some m /\
    option_map dec_val (mpos m (out_name c k)) = Some (Some d) /\
    (Rabs (d - (v * scale_of c k + offset_of c k) * unit_scale c)
      <= tolerance c * Rabs (scale_of c k * unit_scale c) + / 2 * / 10 ^ (ndigits_out c))%R.
Proof. exact (request_error c ops k v). Qed.
Example C05_example :
  last_request demo_cfg demo init PX None = Some (z64 0) /\ last_request demo_cfg demo init PZ None = Some (z64 2).
Proof. split; vm_compute; reflexivity. Qed.

(** ** C06 *)
Theorem C06_default_feed {N : NumOps} (c : config N) x y z a cm s :
  (x <> None \/ y <> None -> feed c x y z a None cm s = feed c x y z a (Some (xyfeed c)) cm s) /\
  (x = None -> y = None -> z <> None -> feed c x y z a None cm s = feed c x y z a (Some (zfeed c)) cm s) /\
  (x = None -> y = None -> z = None -> a <> None -> feed c x y z a None cm s = feed c x y z a (Some (afeed c)) cm s) /\
  (x = None -> y = None -> z = None -> a = None -> feed c x y z a None cm s = (s, Ok tt)).
Proof. exact (feed_defaults c x y z a cm s). Qed.

(** ** C07: refuted as stated; holds when no call changes the feed rate alone. *)
Theorem C07_feed_sync_partial (c : config ROps) ops :
  plain_config c -> pget PF (axis_scale c) = None -> pget PF (axis_offset c) = None ->
  Forall tracked_op ops -> no_silent c ops init ->
  exists m, replay (axis_letters c) (out (run c ops init)) machine0 = Some m /\
    mfeed m = option_map (fun f => (ndigits_out c, fmt (ndigits_out c) f)) (vF (last_val (run c ops init))).
Proof. intros P A B. exact (feed_sync c P A B ops). Qed.
Theorem C07_feed_sync_refuted :
  exists (c : config F64Ops) ops m f, plain_config c /\ Forall tracked_op ops /\
    replay (axis_letters c) (out (run c ops init)) machine0 = Some m /\
    vF (last_val (run c ops init)) = Some f /\ mfeed m <> Some (ndigits_out c, fmt (ndigits_out c) f).
Proof.
  destruct stale_feed as (m & A & B & C & _). exists GcodeFeed.cfg0, stale_history, m, (z64 200).
  split; [split; [cbn; repeat constructor; cbn; intuition discriminate|repeat split]|].
  split; [repeat constructor|]. split; [exact A|]. split; [exact C|]. rewrite B. vm_compute. discriminate.
Qed.

(** ** C08 *)
Theorem C08_rejections {N : NumOps} (c : config N) (s : state N) :
  (forall cmd args p, In (canonical_cmd cmd) ["G00"; "G01"; "G02"; "G03"] -> a_params args = Some p -> p <> "" ->
     gcode_command c cmd args s = (s, Raise GCodeException)) /\
  (forall u k, u <> "in" -> u <> "mm" ->
     configure (SUnits u) c = Raise GCodeException /\ configure (SSetUnits u k) c = Raise GCodeException) /\
  (forall axis, ~ In (upper axis) [""; "A"; "B"; "C"; "AB"; "BC"; "ABC"] ->
     normalize_axis_angle c axis s = (s, Raise GCodeException)) /\
  (forall axis, (forall a, upper axis = String a "" -> str_mem a ordered_params = false) ->
     position axis s = Raise GCodeException).
Proof.
  repeat split.
  - intros cmd args p. apply motion_opaque_rejected.
  - apply bad_units_rejected; auto.
  - apply bad_units_rejected; auto.
  - intros axis. apply linear_normalize_rejected.
  - intros axis H. unfold position. destruct (upper axis) as [|a [|b r]]; try reflexivity.
    now rewrite (H a eq_refl).
Qed.
Example C08_example : canonical_cmd "g1" = "G01" /\ ~ In (upper "x") [""; "A"; "B"; "C"; "AB"; "BC"; "ABC"].
Proof. split; [reflexivity|]. cbn. intuition discriminate. Qed.

(** ** C09: refuted as stated (the second call raises TypeError). *)
Theorem C09_feed_rate_partial {N : NumOps} (c : config N) f s :
  vF (last_val s) = None ->
  snd (feed_rate c f s) = Ok tt /\ vF (last_val (fst (feed_rate c f s))) = Some f /\
  exists num, out (fst (feed_rate c f s)) =
    (out s ++ [Line num (Block "" [mkword "F" (ndigits_out c) (fmt (ndigits_out c) f)]) None])%list.
Proof. exact (feed_rate_first c f s). Qed.
Theorem C09_feed_rate_refuted {N : NumOps} (c : config N) f g s :
  vF (last_val s) = Some g -> feed_rate c f s = (s, Raise TypeError).
Proof. intros H. apply feed_rate_again. congruence. Qed.

(** ** C10 *)
Theorem C10_footer {N : NumOps} (c : config N) ops :
  let s := run c ops init in
  snd (footer c s) = Ok tt /\
  exists n1 n2 k1 k2,
    out (fst (footer c s)) =
    (out s ++ [Raw newline] ++
     (if existsb (fun i => match i with Line _ (EqWord _ _) _ => true | _ => false end) (out s)
      then [Line n1 (Opaque "G92.1") k1] else []) ++
     [Line n2 (Opaque "M2") k2; Raw ("%" ++ newline)])%list.
Proof.
  cbv zeta. rewrite <- (reset_flag c ops) at 2 || idtac.
  pose proof (footer_shape c (run c ops init)) as H. rewrite (reset_flag c ops) in H. exact H.
Qed.
(** The G92 line is written exactly by the normalize_axis_angle calls that change the angle. *)
Theorem C10_shift_line {N : NumOps} (c : config N) axis s :
  let s' := fst (normalize_axis_angle c axis s) in
  (last_val s' = last_val s /\ out s' = out s) \/
  exists n w k, out s' = (out s ++ [Line n (EqWord "G92" w) k])%list.
Proof.
  cbv zeta. unfold normalize_axis_angle. repeat (destruct (negb _); [left; auto|]).
  destruct (vA (last_val s)); [|left; auto]. destruct (ltb _ _); [right|left; auto].
  eexists _, _, _. reflexivity.
Qed.

(** ** C11 *)
Theorem C11_line_numbers {N : NumOps} (c : config N) ops :
  let numbers := flat_map (fun i => match i with Line n _ _ => [n] | _ => [] end) (out (run c ops init)) in
  (show_line_numbers c = true -> exists k, numbers = map (fun i => Some (N.of_nat i)) (seq 0 k)) /\
  (show_line_numbers c = false -> Forall (fun n => n = None) numbers).
Proof.
  cbv zeta. pose proof (numbering c ops) as H. unfold num_inv in H. split; intros E; rewrite E in H; auto.
  destruct H as [k [_ H]]. exists k. unfold nseq in H. rewrite map_map in H. exact H.
Qed.

(** ** C12 *)
Theorem C12_comments_off {N : NumOps} (c : config N) ops : show_comments c = false ->
  Forall (fun i => match i with CLine _ _ | Line _ _ (Some _) => False | Raw t => t <> ";" ++ newline | _ => True end)
    (out (run c ops init)).
Proof.
  intros H. pose proof (comments_off c ops H) as X. eapply Forall_impl; [|exact X].
  intros [t|? ?|? ? [?|]]; cbn; auto.
Qed.
(** [core sc hc am c] is [c] with show_comments = sc, header_comments = hc, axis_map = am;
    [exe] keeps the numbered bodies and forgets comments and blank lines. *)
Theorem C12_comments_inert {N : NumOps} (c1 c2 : config N) ops1 ops2 :
  core true [] (axis_map c2) c1 = core true [] (axis_map c2) c2 -> axis_map c1 = axis_map c2 ->
  strip_ops ops1 = strip_ops ops2 ->
  exe (out (run c1 ops1 init)) = exe (out (run c2 ops2 init)) /\
  last_val (run c1 ops1 init) = last_val (run c2 ops2 init) /\
  plots (run c1 ops1 init) = plots (run c2 ops2 init).
Proof. exact (comments_inert c1 c2 ops1 ops2). Qed.
Example C12_example :
  core true [] (axis_map demo_cfg) (core false [CStr "x"] (axis_map demo_cfg) demo_cfg) =
  core true [] (axis_map demo_cfg) demo_cfg /\ length (exe (out (run demo_cfg demo init))) = 22%nat.
Proof. split; [reflexivity|vm_compute; reflexivity]. Qed.

(** ** C13 *)
Theorem C13_digits {N : NumOps} (c : config N) ops :
  Forall (fun i => forall w, In w (match i with Line _ (Block _ ws) _ => ws | Line _ (EqWord _ w) _ => [w] | _ => [] end) ->
            wprec w = ndigits_out c \/ (wname w = "P" /\ wprec w = 4%nat))
         (out (run c ops init)).
Proof. exact (precision_all c ops). Qed.
Theorem C13_clamp (N : NumOps) (c c' : config N) p :
  configure (SPrecision p) c = Ok c' -> Z.of_nat (ndigits_out c') = Z.max 2 (Z.min p 15).
Proof.
  destruct c. cbn. intros [= <-]. cbn. unfold clamp_precision. rewrite Z2Nat.id by lia. lia.
Qed.
Theorem C13_half_ulp n (x : R) :
  exists d, dec_val (n, @fmt ROps n x) = Some d /\ (Rabs (d - x) <= / 2 * / 10 ^ n)%R.
Proof. exact (Rfmt_half n x). Qed.

(** ** C14: congruent, but not unwound to one turn. *)
Theorem C14_normalize_partial (c : config ROps) s a :
  vA (last_val s) = Some a ->
  snd (normalize_axis_angle c "A" s) = Ok tt /\
  exists b, vA (last_val (fst (normalize_axis_angle c "A" s))) = Some b /\
    exists n : Z, b = (a - 2 * Rtrigo1.PI * IZR n)%R.
Proof. exact (normalize_congruent c s a). Qed.
Theorem C14_normalize_refuted (c : config ROps) s :
  vA (last_val s) = Some 9%R ->
  exists b, vA (last_val (fst (normalize_axis_angle c "A" s))) = Some b /\ (b < - 50)%R.
Proof. exact (normalize_not_unwound c s). Qed.
Example C14_example (c : config ROps) : wrap_angles c = false ->
  vA (last_val (run c [@OFeed ROps None None None (Some 9%R) None None] init)) = Some 9%R.
Proof.
  intros W. cbn [run fold_left exec]. unfold Gcode.feed. cbn [feed_default is_some orb].
  match goal with |- context [gcode_command c ?G ?A] => set (args := A) end.
  pose proof (gcode_motion_last c "G01" args init ltac:(cbn; auto) eq_refl) as [H [H2 _]].
  unfold bind. destruct (gcode_command c "G01" args init) as [s1 r1]. cbn [snd fst] in *. subst r1. cbn [fst plot last_val].
  change (vA (last_val s1) = Some 9%R). rewrite H. cbn. rewrite W. reflexivity.
Qed.

(** ** C15 *)
Theorem C15_wrap_angles (c : config ROps) ops : wrap_angles c = true ->
  match vA (last_val (run c ops init)) with Some v => (Rabs v < 2 * Rtrigo1.PI)%R | None => True end.
Proof. intros W. exact (wrap_bound c W ops). Qed.
Theorem C15_wrap_congruent (c : config ROps) ops v :
  wrap_angles c = true -> (0 <= tolerance c)%R -> (0 <= angle_tolerance c)%R ->
  alt_tool_up c = None -> alt_tool_down c = None ->
  Forall (fun o => forall ax, o <> ONormalize ax) ops ->
  last_request c ops init PA None = Some v ->
  exists l (n : Z), vA (last_val (run c ops init)) = Some l /\
    (Rabs (v - 2 * Rtrigo1.PI * IZR n - l) <= angle_tolerance c)%R.
Proof.
  intros W T1 T2 Hu Hd F LR.
  destruct (C05_no_drift c ops PA v) as [l [E1 E2]]; auto;
    try (apply (no_self_change_R c); auto); [unfold is_axis; auto|].
  cbn [wrapped axis_tol] in E2. rewrite W in E2. rnum. rbool.
  destruct (Rfmod_spec v (2 * Rtrigo1.PI) twopi_pos) as [[n En] _].
  exists l, n. split; auto. rewrite <- En. exact E2.
Qed.

(** ** C16: refuted: the test compares the start radius with itself. *)
Theorem C16_arc_check_refuted (c : config ROps) cw x y i j a z f cm s :
  (0 < tolerance c)%R -> snd (feed_arc c cw x y i j a z f cm s) <> Raise GCodeException.
Proof. exact (arc_never_rejected c cw x y i j a z f cm s). Qed.
Example C16_example :
  snd (exec GcodeFeed.cfg0 (@OArc F64Ops true (z64 5) (z64 5) (z64 1) (z64 0) None None None None)
        (run GcodeFeed.cfg0 [@OFeed F64Ops (Some (z64 0)) (Some (z64 0)) None None None None] init)) = Ok tt /\
  exists n ws cm, In (Line n (Block "G02" ws) cm) (out (run GcodeFeed.cfg0 bad_arc init)).
Proof. exact bad_arc_written. Qed.

(** ** C17 *)
Theorem C17_arc_words {N : NumOps} (c : config N) cw x y i j a z f cm s :
  (forall v : N, ltb (tolerance c) (abs (sub v v)) = false) ->
  (forall v : N, ltb (angle_tolerance c) (abs (sub v v)) = false) ->
  snd (feed_arc c cw x y i j a z f cm s) = Ok tt ->
  let s' := fst (feed_arc c cw x y i j a z f cm s) in
  exists num ws cm' lx ly,
    out s' = (out s ++ [Line num (Block (if cw then "G02" else "G03") ws) cm'])%list /\
    In (mkword (out_name c PI) (ndigits_out c) (fmt (ndigits_out c) (mul (scaled c PI i) (unit_scale c)))) ws /\
    In (mkword (out_name c PJ) (ndigits_out c) (fmt (ndigits_out c) (mul (scaled c PJ j) (unit_scale c)))) ws /\
    vX (last_val s') = Some lx /\ ltb (tolerance c) (abs (sub x lx)) = false /\
    vY (last_val s') = Some ly /\ ltb (tolerance c) (abs (sub y ly)) = false.
Proof.
  intros H1 H2 HO. cbv zeta.
  destruct (arc_known c cw x y i j a z f cm s (conj H1 H2) HO) as (num & ws & k & O & I1 & I2 & (lx & X1 & X2) & (ly & Y1 & Y2)).
  exists num, ws, k, lx, ly. repeat split; auto.
Qed.
Theorem C17_arc_unknown_start {N : NumOps} (c : config N) cw x y i j a z f cm s :
  vX (last_val s) = None \/ vY (last_val s) = None ->
  feed_arc c cw x y i j a z f cm s = (s, Raise TypeError).
Proof. exact (arc_unknown c cw x y i j a z f cm s). Qed.

(** ** C18: refuted: the offset is multiplied by the unit scale. *)
Theorem C18_offset_refuted :
  exists (c : config F64Ops) ops m, plain_config c /\
    pget PX (axis_offset c) = Some (z64 10) /\ vX (last_val (run c ops init)) = Some (z64 0) /\
    replay (axis_letters c) (out (run c ops init)) machine0 = Some m /\
    mpos m "X" = Some (6%nat, DFin false 254000000).
Proof.
  destruct offset_scaled as (m & A & B).
  exists cfg_mm, [@OFeed F64Ops (Some (z64 0)) None None None None None], m.
  split; [split; [cbn; repeat constructor; cbn; intuition discriminate|repeat split]|].
  split; [reflexivity|]. split; [vm_compute; reflexivity|]. split; [exact A|exact B].
Qed.
(** With unit scale 1 the linear axes are offset as documented. *)
Theorem C18_offset_partial (c : config ROps) ops k v :
  plain_config c -> Forall tracked_op ops -> unit_scale c = 1%R -> k = PX \/ k = PY \/ k = PZ ->
  pget k (last_val (run c ops init)) = Some v ->
  exists m, replay (axis_letters c) (out (run c ops init)) machine0 = Some m /\
    mpos m (out_name c k) =
      Some (ndigits_out c, fmt (ndigits_out c) (v * scale_of c k * unit_scale c + offset_of c k)%R).
Proof.
  intros P F U Hk E. destruct (tracking c ops P F) as [m [A B]]. exists m. split; auto.
  assert (Ak : is_axis k) by (unfold is_axis; tauto).
  rewrite (B k Ak), E. cbn [option_map]. rewrite program_value_R by auto. do 3 f_equal.
  unfold exact_coord. destruct Hk as [->|[->| ->]]; rewrite U; rnum; f_equal; ring.
Qed.

(** ** C19 *)
Theorem C19_preview {N : NumOps} (c : config N) o s :
  alt_tool_up c = None ->
  exists es, plots (fst (exec c o s)) = (plots s ++ es)%list /\
    match snd (exec c o s) with
    | Ok _ => plot_ok c o s es (fst (exec c o s))
    | Raise _ => es = []
    end.
Proof. exact (preview c o s). Qed.
Example C19_example : map kind (plots (run demo_cfg demo init)) = [KUp; KMove; KDown; KFeed; KArc true; KUp; KUp; KMove].
Proof. vm_compute. reflexivity. Qed.

(** ** C20 *)
Theorem C20_dwell {N : NumOps} (c : config N) ms cm s :
  (ltb (of_Z 0) ms = true ->
     exists num k, out (fst (dwell c ms cm s)) =
       (out s ++ [Line num (Block "G04" [mkword "P" 4 (fmt 4 (div ms (of_Z 1000)))]) k])%list) /\
  (ltb (of_Z 0) ms = false -> dwell c ms cm s = (s, Ok tt)).
Proof. exact (dwell_spec c ms cm s). Qed.
Theorem C20_spindle_on_first {N : NumOps} (c : config N) z f w cm s :
  spindle_auto c = true ->
  exists num k rest,
    out (fst (tool_down c z f w cm s)) =
    (out s ++ Line num (IntWord (if spindle_clockwise c then "M3" else "M4") "S" (trunc (spindle_speed c))) k :: rest)%list.
Proof. exact (tool_down_spindle c z f w cm s). Qed.
Theorem C20_spindle_off_after {N : NumOps} (c : config N) (rapid : bool) w cm s :
  alt_tool_up c = None -> spindle_auto c = true ->
  exists num ws k rest, out (fst (tool_up c rapid w cm s)) =
    (out s ++ Line num (Block (if rapid then "G00" else "G01") ws) k :: rest)%list /\
    exists n k', In (Line n (Opaque "M5") k') rest.
Proof.
  intros H A. destruct (tool_up_spec c rapid w cm s H) as (s' & E & _ & _ & _ & _ & num & k & rest & O & _ & M).
  rewrite E. cbn [fst]. exists num. eexists. exists k, rest. split; [exact O|apply M, A].
Qed.

(** ** C21 *)
Theorem C21_read_back_partial {N : NumOps} (c : config N) ops :
  letter_names c -> (0 < ndigits_out c)%nat -> forallb clean_arg (header_comments c) = true ->
  alt_tool_up c = None -> alt_tool_down c = None ->
  Forall tracked_op ops -> forallb clean_op ops = true ->
  Forall item_finite (out (run c ops init)) ->
  exists L, all_some (map block_tokens (exe (out (run c ops init)))) = Some L /\
    read_program (render (out (run c ops init))) = Some L.
Proof. intros A B C D E. exact (read_back c A B C D E ops). Qed.
Theorem C21_normalize_refuted {N : NumOps} (c : config N) num w cm :
  wname w = "A" -> read_program (item_text (Line num (EqWord "G92" w) cm)) = None.
Proof.
  intros H. unfold read_program.
  destruct (eq_line_unreadable num "G92" w cm []) as [E|E]; [|congruence].
  destruct w as [n p v]. cbn [wname wprec wval] in *. subst. now rewrite E.
Qed.
Example C21_example : letter_names demo_cfg /\ forallb clean_op demo = true /\
  Forall item_finite (out (run demo_cfg demo init)).
Proof.
  split; [|split; [vm_compute; reflexivity|]].
  - intros k. destruct k; cbn; eauto.
  - vm_compute. repeat constructor.
Qed.

(** ** C22: inert as blocks ([C12_comments_inert]) and, for comments without ')' and
    newline, as text; refuted for arbitrary comment strings. *)
Theorem C22_comments_partial {N : NumOps} (c : config N) ops1 ops2 :
  letter_names c -> (0 < ndigits_out c)%nat -> forallb clean_arg (header_comments c) = true ->
  alt_tool_up c = None -> alt_tool_down c = None ->
  Forall tracked_op ops1 -> Forall tracked_op ops2 -> forallb clean_op ops1 = true -> forallb clean_op ops2 = true ->
  Forall item_finite (out (run c ops1 init)) -> Forall item_finite (out (run c ops2 init)) ->
  strip_ops ops1 = strip_ops ops2 ->
  read_program (render (out (run c ops1 init))) = read_program (render (out (run c ops2 init))) /\
  read_program (render (out (run c ops1 init))) <> None.
Proof.
  intros A B C D E T1 T2 K1 K2 F1 F2 S.
  destruct (read_back c A B C D E ops1 T1 K1 F1) as [L1 [X1 Y1]].
  destruct (read_back c A B C D E ops2 T2 K2 F2) as [L2 [X2 Y2]].
  destruct (comments_inert c c ops1 ops2 eq_refl eq_refl S) as [Ex _].
  rewrite Ex in X1. rewrite X1 in X2. injection X2 as ->. rewrite Y1, Y2. split; [reflexivity|discriminate].
Qed.
Theorem C22_injection_refuted :
  strip_ops hostile = strip_ops benign /\
  read_program (render (out (run cfgL benign init))) <> read_program (render (out (run cfgL hostile init))) /\
  strip_ops hostile_nl = [] /\
  read_program (render (out (run cfgL hostile_nl init))) = Some [[("G"%char, mkl false 0 0); ("Z"%char, mkl true 5 0)]].
Proof.
  destruct injection_paren as (A & B & C). destruct injection_newline as (D & E).
  split; [exact A|]. split; [rewrite B, C; discriminate|]. split; [exact D|exact E].
Qed.

(** ** C23 *)
Theorem C23_canonical (s : string) :
  canonical_cmd (canonical_cmd s) = canonical_cmd s /\
  canonical_cmd (upper s) = canonical_cmd s /\
  (forall a d, is_digit d = true -> upper s = String a (String d "") ->
     canonical_cmd s = String a (String "0" (String d ""))) /\
  ((forall a d, is_digit d = true -> upper s <> String a (String d "")) -> canonical_cmd s = upper s).
Proof.
  split; [apply canonical_idem|]. split; [unfold canonical_cmd; now rewrite upper_idem|]. split.
  - intros a d Hd E. unfold canonical_cmd. now rewrite E, Hd.
  - intros H. unfold canonical_cmd. destruct (upper s) as [|a [|b [|e r]]]; try reflexivity.
    destruct (is_digit b) eqn:D; [|reflexivity]. exfalso. exact (H a b D eq_refl).
Qed.
Example C23_example : canonical_cmd "g1" = "G01" /\ canonical_cmd "G1" = "G01" /\ canonical_cmd "G01" = "G01"
  /\ canonical_cmd "g92.1" = "G92.1".
Proof. repeat split. Qed.

(** ** C24 *)
Theorem C24_axis_map {N : NumOps} (c1 c2 : config N) ops :
  core true [] [] c1 = core true [] [] c2 ->
  last_val (run c1 ops init) = last_val (run c2 ops init) /\
  plots (run c1 ops init) = plots (run c2 ops init) /\
  Forall2 (fun l1 l2 : option BinNums.N * body => fst l1 = fst l2 /\
      match snd l1, snd l2 with
      | Block cmd1 ws1, Block cmd2 ws2 =>
          cmd1 = cmd2 /\ map wval ws1 = map wval ws2 /\ map wprec ws1 = map wprec ws2 /\
          Forall2 (fun w1 w2 => wname w1 = wname w2 \/
                     exists k, wname w1 = out_name c1 k /\ wname w2 = out_name c2 k) ws1 ws2
      | b1, b2 => b1 = b2
      end) (exe (out (run c1 ops init))) (exe (out (run c2 ops init))).
Proof.
  intros H. destruct (sim_program c1 c2 H ops ops eq_refl) as (A & _ & _ & _ & E & F).
  split; auto. split; auto.
  induction F as [|[n1 b1] [n2 b2] l1 l2 [E1 E2] _ IH]; constructor; auto. cbn [fst snd] in *. split; auto.
  destruct b1 as [c1' w1| | |], b2 as [c2' w2| | |]; cbn [Rbody] in E2; auto. destruct E2 as [-> HW]. split; auto.
  induction HW as [|x y l l' (Hp & Hv & Hn) _ IHw]; [repeat split; constructor|].
  destruct IHw as (I1 & I2 & I3). cbn [map]. repeat split; try congruence. constructor; auto.
Qed.
