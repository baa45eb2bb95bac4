(** * CamProofs4: jobs complete; the generator's idea of the position (C31, C65). *)
From Coq Require Import String ZArith NArith List Bool Lia.
From Verif Require Import Num Str Gcode GcodeSpec GcodeProofs GcodeProofs2 GcodeProofs3 Geom Cam CamSpec CamProofs1 CamProofs2 CamProofs3.
Import ListNotations.
Local Open Scope string_scope.

Section Moves.
  Context {N : NumOps} {E : Epsilon N}.
  Notation path := (list (cseg N)).

  (** What a call does to one tracked linear coordinate. *)
  Definition moved (c : config N) (old new arg : option N) : Prop :=
    match arg with
    | None => new = old
    | Some v => new = Some v \/
        exists l, old = Some l /\ new = Some l /\ ltb (tolerance c) (abs (sub v l)) = false
    end.

  Lemma scan_other (c : config N) base args k l : ~ In k l -> forall acc,
    pget k (fst (fst (fold_left (scan_param c base args) l acc))) = pget k (fst (fst acc)).
  Proof.
    induction l as [|k' l IH]; intros H acc; [reflexivity|]. cbn [fold_left]. rewrite IH by (cbn in H; tauto).
    destruct acc as [[lv up] pos]. unfold scan_param. destruct (pget k' (a_vals args)); [|reflexivity].
    destruct (_ || _ || _); [|reflexivity]. cbn [fst]. apply pget_pset_other. cbn in H. intros ->. tauto.
  Qed.
  Lemma scan_moved (c : config N) base args k l : is_angular k = false -> NoDup l -> In k l -> forall acc,
    moved c (pget k (fst (fst acc))) (pget k (fst (fst (fold_left (scan_param c base args) l acc))))
      (pget k (a_vals args)).
  Proof.
    intros A. induction l as [|k' l IH]; intros ND I acc; [contradiction|]. inversion ND as [|? ? NI ND']; subst.
    cbn [fold_left]. destruct (param_eq_dec k' k) as [->|NE].
    - rewrite scan_other by exact NI. destruct acc as [[lv up] pos]. unfold scan_param, moved. cbn [fst].
      destruct (pget k (a_vals args)) as [v|]; [|reflexivity]. rewrite A. cbn [andb].
      destruct (_ || _ || _) eqn:B; cbn [fst].
      + left. apply pget_pset_same.
      + apply orb_false_iff in B as [B _]. apply orb_false_iff in B as [_ B].
        destruct (pget k lv) as [l0|]; [|discriminate]. right. eauto.
    - assert (Ek : pget k (fst (fst (scan_param c base args acc k'))) = pget k (fst (fst acc))).
      { destruct acc as [[lv up] pos]. unfold scan_param. destruct (pget k' (a_vals args)); [|reflexivity].
        destruct (_ || _ || _); [|reflexivity]. cbn [fst]. apply pget_pset_other. congruence. }
      rewrite <- Ek. apply IH; auto. destruct I as [->|I]; [congruence|exact I].
  Qed.
  Lemma all_scanned k : In k scan_order.
  Proof. destruct k; cbn; auto 10. Qed.

  (** A call that succeeds and moves X and Y as said. *)
  Definition xy_moves (c : config N) (m : @M N unit) (x y : option N) : Prop := forall s,
    snd (m s) = Ok tt /\
    moved c (vX (last_val s)) (vX (last_val (fst (m s)))) x /\
    moved c (vY (last_val s)) (vY (last_val (fst (m s)))) y.
  Lemma xm_quiet (c : config N) m : (forall s, snd (m s) = Ok tt /\ vX (last_val (fst (m s))) = vX (last_val s) /\ vY (last_val (fst (m s))) = vY (last_val s)) -> xy_moves c m None None.
  Proof. intros H s. destruct (H s) as (A & B & C). cbn. auto. Qed.
  Lemma xm_quiet_l (c : config N) m m' x y : xy_moves c m None None -> xy_moves c m' x y -> xy_moves c (bind m (fun _ => m')) x y.
  Proof.
    intros H H' s. destruct (H s) as (A & B & C). unfold bind. destruct (m s) as [s1 [[]|e]]; cbn in *; [|discriminate].
    rewrite <- B, <- C. apply H'.
  Qed.
  Lemma xm_quiet_r (c : config N) m m' x y : xy_moves c m x y -> xy_moves c m' None None -> xy_moves c (bind m (fun _ => m')) x y.
  Proof.
    intros H H' s. destruct (H s) as (A & B & C). unfold bind. destruct (m s) as [s1 [[]|e]]; cbn in *; [|discriminate].
    destruct (H' s1) as (A' & B' & C'). cbn in B', C'. rewrite B', C'. auto.
  Qed.
  Lemma xm_when (c : config N) b m : xy_moves c m None None -> xy_moves c (when b m) None None.
  Proof. destruct b; [auto|]. intros _. apply xm_quiet. cbn. auto. Qed.
  Lemma xm_emit (c : config N) i : xy_moves c (emit i) None None. Proof. apply xm_quiet. cbn. auto. Qed.
  Lemma xm_plot (c : config N) e : xy_moves c (plot e) None None. Proof. apply xm_quiet. cbn. auto. Qed.
  Lemma xm_set_up (c : config N) b : xy_moves c (set_up b) None None. Proof. apply xm_quiet. cbn. auto. Qed.
  Lemma xm_ret (c : config N) : xy_moves c (ret tt) None None. Proof. apply xm_quiet. cbn. auto. Qed.
  Lemma xm_line (c : config N) c' b cm : xy_moves c (write_line c' b cm) None None. Proof. apply xm_quiet. cbn. auto. Qed.
  Lemma xm_dwell (c : config N) c' ms cm : xy_moves c (dwell c' ms cm) None None.
  Proof. apply xm_when, xm_line. Qed.

  Lemma xm_gcode (c : config N) cmd args : a_params args = None -> nonempty cmd = true \/ a_vals args = pempty ->
    xy_moves c (gcode_command c cmd args) (vX (a_vals args)) (vY (a_vals args)).
  Proof.
    intros Hp Hn s. unfold gcode_command. rewrite Hp. rewrite andb_false_r.
    destruct (nonempty cmd) eqn:En; cbn [negb].
    - match goal with |- context [fold_left (scan_param c ?b args)] =>
        pose proof (fun k A => scan_moved c b args k scan_order A scan_order_nodup (all_scanned k)
                     (last_val s, is_tool_up s, pempty)) as S end.
      destruct (fold_left _ _ _) as [[lv up] pos]. cbn [fst] in S.
      pose proof (S PX eq_refl) as SX. pose proof (S PY eq_refl) as SY.
      destruct (Nat.ltb 0 _); [destruct (_ || _)|destruct (negb _)]; cbn; auto.
    - destruct Hn as [Hn|Hn]; [congruence|]. rewrite Hn. cbn. auto.
  Qed.
  Lemma xm_gcode2 (c : config N) cmd args x y : a_params args = None -> nonempty cmd = true \/ a_vals args = pempty ->
    vX (a_vals args) = x -> vY (a_vals args) = y -> xy_moves c (gcode_command c cmd args) x y.
  Proof. intros H1 H2 <- <-. now apply xm_gcode. Qed.
  Lemma xm_spindle_on (c : config N) c' a b d e : xy_moves c (spindle_on c' a b d e) None None.
  Proof. apply xm_quiet_l; [apply xm_line|apply xm_when, xm_dwell]. Qed.
  Lemma xm_spindle_off (c : config N) c' a b : xy_moves c (spindle_off c' a b) None None.
  Proof. apply xm_quiet_l; [apply xm_line|apply xm_when, xm_dwell]. Qed.
  Lemma xm_tool_up (c : config N) r w cm : xy_moves c (tool_up c r w cm) None None.
  Proof.
    unfold tool_up. apply xm_quiet_l.
    - destruct (alt_tool_up c); [apply xm_gcode2; try reflexivity; right; reflexivity|].
      apply xm_gcode2; try reflexivity. left. destruct r; reflexivity.
    - apply xm_quiet_l; [apply xm_when, xm_spindle_off|]. apply xm_quiet_l; [apply xm_when, xm_dwell|].
      apply xm_quiet_l; [apply xm_set_up|apply xm_plot].
  Qed.
  Lemma xm_tool_down (c : config N) z f w cm : xy_moves c (tool_down c z f w cm) None None.
  Proof.
    unfold tool_down. apply xm_quiet_l; [apply xm_when, xm_spindle_on|]. apply xm_quiet_l.
    - destruct (alt_tool_down c); [apply xm_gcode2; try reflexivity; right; reflexivity|].
      apply xm_gcode2; try reflexivity. left. reflexivity.
    - apply xm_quiet_l; [apply xm_set_up|]. apply xm_quiet_l; [apply xm_when, xm_dwell|apply xm_plot].
  Qed.
  Lemma xm_comment (c : config N) c' a semi : xy_moves c (comment c' a semi) None None.
  Proof.
    apply xm_when.
    assert (W : forall o, xy_moves c (@write_comment N semi o) None None).
    { intros [s|]; unfold write_comment; [destruct (nonempty s)|]; apply xm_emit. }
    destruct a as [|s|l]; [apply W|apply W|]. induction l as [|x l IH]; [apply xm_ret|].
    apply xm_quiet_l; [apply W|exact IH].
  Qed.
  Lemma xm_rapid (c : config N) x y z a cm : xy_moves c (rapid_move c x y z a cm) x y.
  Proof.
    unfold rapid_move. apply xm_quiet_l.
    - intros s. destruct (match vZ (last_val s) with Some _ => _ | None => _ end); [apply xm_tool_up|apply xm_ret].
    - apply xm_quiet_r; [apply xm_gcode2; try reflexivity; left; reflexivity|apply xm_quiet; cbn; auto].
  Qed.
  Lemma xm_feed (c : config N) x y z a f cm : xy_moves c (feed c x y z a f cm) x y.
  Proof.
    unfold feed. destruct (feed_default c x y z a f) as [f'|] eqn:Ef.
    - apply xm_quiet_r; [apply xm_gcode2; try reflexivity; left; reflexivity|apply xm_quiet; cbn; auto].
    - unfold feed_default in Ef. destruct f, x, y; try discriminate. apply xm_ret.
  Qed.
  Lemma xm_footer (c : config N) : xy_moves c (footer c) None None.
  Proof.
    unfold footer. apply xm_quiet_l; [apply xm_emit|]. apply xm_quiet_l; [|apply xm_quiet_l; [apply xm_line|apply xm_emit]].
    intros s. destruct (axis_offset_reset s); [|apply xm_ret]. apply xm_gcode2; try reflexivity. right. reflexivity.
  Qed.
  (** The header needs a program that has not set a feed rate yet. *)
  Lemma header_ok (c : config N) today : snd (header c today None (@init N)) = Ok tt.
  Proof.
    set (K := fun (m : @M N unit) => forall s, vF (last_val s) = None -> snd (m s) = Ok tt /\ vF (last_val (fst (m s))) = None).
    assert (Kb : forall m m' : @M N unit, K m -> K m' -> K (bind m (fun _ => m'))).
    { intros m m' H H' s Hs. unfold bind. specialize (H s Hs). destruct (m s) as [s1 [[]|e]]; [apply H', H|exact H]. }
    assert (Ke : forall i, K (emit i)) by (intros i s Hs; cbn; auto).
    assert (Kl : forall b cm, K (write_line c b cm)) by (intros b cm s Hs; cbn; auto).
    assert (Kr : K (ret tt)) by (intros s Hs; cbn; auto).
    assert (Kc : forall a semi, K (comment c a semi)).
    { intros a semi. unfold comment, when. destruct (show_comments c); [|exact Kr].
      assert (W : forall o, K (@write_comment N semi o)).
      { intros [s|]; unfold write_comment; [destruct (nonempty s)|]; apply Ke. }
      destruct a as [|s|l]; [apply W|apply W|]. induction l as [|x l IH]; [exact Kr|]. apply Kb; [apply W|exact IH]. }
    assert (Kf : forall m m' : @M N unit, K m -> (forall s, vF (last_val s) = None -> snd (m' s) = Ok tt) ->
               forall s, vF (last_val s) = None -> snd (bind m (fun _ => m') s) = Ok tt).
    { intros m m' H H' s Hs. unfold bind. specialize (H s Hs). destruct (m s) as [s1 [[]|e]]; [apply H', H|apply H]. }
    assert (Kcs : K (comments_all c (header_comments c))).
    { generalize (header_comments c). intros l. induction l as [|x l IH]; [exact Kr|]. apply Kb; auto. }
    assert (Kbl : K (blend_line c)).
    { unfold blend_line. destruct (blend_mode c); [|exact Kr]. destruct (String.eqb _ _).
      - destruct (blend_tolerance c); [destruct (blend_qtolerance c)|]; apply Kl.
      - destruct (String.eqb _ _); auto. }
    assert (Ku : K (if String.eqb (gc_unit c) "mm" then write_line c (Opaque "G21") (Some "Units are in millimeters")
                    else write_line c (Opaque "G20") (Some "Units are in inches"))) by (destruct (String.eqb _ _); apply Kl).
    enough (G : forall s, vF (last_val s) = None -> snd (header c today None s) = Ok tt) by (apply G; reflexivity).
    unfold header. repeat (apply Kf; [first [exact Kr|solve [auto]]|]).
    intros s Hs. unfold bind, feed_rate. rewrite Hs. reflexivity.
  Qed.
  (** The arc call succeeds if the position is known and the hypot of a vector is
      within the tolerance of itself. *)
  Definition self_close (c : config N) : Prop := forall x y u v : N,
    float_eq c (hypot (sub x (add u x)) (sub y (add v y))) (hypot u v) = true.
  Lemma arc_moves (c : config N) cw x y i j a z f cm s x0 y0 : self_close c ->
    vX (last_val s) = Some x0 -> vY (last_val s) = Some y0 ->
    snd (feed_arc c cw x y i j a z f cm s) = Ok tt /\
    moved c (Some x0) (vX (last_val (fst (feed_arc c cw x y i j a z f cm s)))) (Some x) /\
    moved c (Some y0) (vY (last_val (fst (feed_arc c cw x y i j a z f cm s)))) (Some y).
  Proof.
    intros SC Hx Hy. unfold feed_arc. rewrite Hx, Hy. rewrite SC. cbn [negb].
    rewrite <- Hx, <- Hy.
    refine (xm_quiet_r c _ _ (Some x) (Some y) _ _ s).
    - apply xm_gcode2; try reflexivity. left. destruct cw; reflexivity.
    - apply xm_quiet. cbn. auto.
  Qed.
End Moves.

(** ** Total correctness of a job *)
Section Total.
  Context {N : NumOps} {E : Epsilon N}.
  Notation path := (list (cseg N)).

  (** From every state satisfying P the program ends normally, makes calls as
      described by R and ends in a state satisfying Q. *)
  Definition does (P : cstate N -> Prop) (m : @CM N unit) (R : list (@op N) -> Prop) (Q : cstate N -> Prop) : Prop :=
    forall st, P st -> exists st' ops, m st = (st', Ok tt) /\ trace st' = (trace st ++ ops)%list /\ R ops /\ Q st'.

  Lemma does_seq P Q S m m' R R' (R'' : list op -> Prop) :
    does P m R Q -> does Q m' R' S -> (forall a b, R a -> R' b -> R'' (a ++ b)%list) -> does P (cseq m m') R'' S.
  Proof.
    intros H H' HR st Hst. destruct (H st Hst) as (s1 & o1 & E1 & T1 & R1 & Q1).
    destruct (H' s1 Q1) as (s2 & o2 & E2 & T2 & R2 & Q2).
    exists s2, (o1 ++ o2)%list. unfold cseq, cbind. rewrite E1, E2, T2, T1, app_assoc. auto.
  Qed.
  Lemma does_then P Q S m m' R R' : does P m R Q -> does Q m' R' S ->
    does P (cseq m m') (fun ops => exists a b, ops = (a ++ b)%list /\ R a /\ R' b) S.
  Proof. intros H H'. eapply does_seq; [exact H|exact H'|]. intros a b Ha Hb. eauto. Qed.
  Lemma does_call (c : config N) o (P Q : cstate N -> Prop) :
    (forall st, P st -> snd (exec c o (gs st)) = Ok tt /\
       Q (mkcs (fst (exec c o (gs st))) (trace st ++ [o])%list (current_angle st) (feed_distance st))) ->
    does P (call c o) (fun ops => ops = [o]) Q.
  Proof.
    intros H st Hst. destruct (H st Hst) as [A B]. unfold call. destruct (exec c o (gs st)) as [g r]. cbn in *. subst r.
    eexists _, _. split; [reflexivity|]. cbn. auto.
  Qed.
  Lemma does_weaken (P Q P' Q' : cstate N -> Prop) m (R R' : list op -> Prop) : does P m R Q ->
    (forall st, P' st -> P st) -> (forall o, R o -> R' o) -> (forall st, Q st -> Q' st) -> does P' m R' Q'.
  Proof. intros H HP HR HQ st Hst. destruct (H st (HP st Hst)) as (s & o & A & B & C & D). exists s, o. auto. Qed.

  Variable c : config N.
  Variable k : cam N.
  (** The position the generator believes it is at is [v], up to coordinate changes
      that are within the tolerance and therefore not written. *)
  Definition close (v l : N) : Prop := l = v \/ ltb (tolerance c) (abs (sub v l)) = false.
  Definition tracked_at (p : pt N) (st : cstate N) : Prop := exists x y,
    vX (last_val (gs st)) = Some x /\ vY (last_val (gs st)) = Some y /\ close (px p) x /\ close (py p) y.
  Definition known (st : cstate N) : Prop := exists x y,
    vX (last_val (gs st)) = Some x /\ vY (last_val (gs st)) = Some y.
  Lemma tracked_known p st : tracked_at p st -> known st.
  Proof. intros (x & y & A & B & _). exists x, y. auto. Qed.

  Lemma moved_close old new v : moved c old new (Some v) -> exists l, new = Some l /\ close v l.
  Proof. intros [->|(l & _ & -> & H)]; [exists v; split; [reflexivity|left; reflexivity]|exists l; split; [reflexivity|now right]]. Qed.

  (** Quiet calls. *)
  Lemma does_quiet o (W : cstate N -> Prop) :
    (forall st st', vX (last_val (gs st')) = vX (last_val (gs st)) -> vY (last_val (gs st')) = vY (last_val (gs st)) ->
       current_angle st' = current_angle st -> W st -> W st') ->
    xy_moves c (exec c o) None None -> does W (call c o) (fun ops => ops = [o]) W.
  Proof.
    intros HW X. apply does_call. intros st Hst. destruct (X (gs st)) as (A & B & C). split; [exact A|].
    cbn in B, C. eapply HW; [| | |exact Hst]; auto.
  Qed.
  Lemma known_stable st st' : vX (last_val (gs st')) = vX (last_val (gs st)) -> vY (last_val (gs st')) = vY (last_val (gs st)) ->
       current_angle st' = current_angle st -> known st -> known st'.
  Proof. intros A B _ (x & y & X & Y). exists x, y. rewrite A, B. auto. Qed.
  Lemma tracked_stable p st st' : vX (last_val (gs st')) = vX (last_val (gs st)) -> vY (last_val (gs st')) = vY (last_val (gs st)) ->
       current_angle st' = current_angle st -> tracked_at p st -> tracked_at p st'.
  Proof. intros A B _ (x & y & X & Y & Z). exists x, y. rewrite A, B. auto. Qed.

  (** A rapid or feed to a point. *)
  Lemma does_to o x y :
    xy_moves c (exec c o) (Some x) (Some y) -> does (fun _ => True) (call c o) (fun ops => ops = [o]) (tracked_at (P x y)).
  Proof.
    intros X. apply does_call. intros st _. destruct (X (gs st)) as (A & B & C). split; [exact A|].
    apply moved_close in B as (x' & B & B'). apply moved_close in C as (y' & C & C'). exists x', y'. auto.
  Qed.
  Lemma does_rapid p s r : p = s :: r ->
    does (fun _ => True) (rapid_to_path c k p)
      (fun ops => exists a, ops = [ORapid (Some (px (c_p1 s))) (Some (py (c_p1 s))) None (Some a) None])
      (tracked_at (c_p1 s)).
  Proof.
    intros -> st _. cbn [rapid_to_path]. unfold cseq, cbind at 1.
    set (st1 := if enable_tangent k then _ else _).
    assert (H1 : exists st2, (if enable_tangent k then cbind get_angle (fun a => set_angle (add a (calc_rotation a (seg_start_angle s)))) else cret tt) st = (st2, Ok tt)
             /\ trace st2 = trace st).
    { destruct (enable_tangent k); eexists; split; try reflexivity. }
    destruct H1 as (st2 & H1 & T2). subst st1. rewrite H1. unfold cbind, get_angle.
    destruct (does_to (ORapid (Some (px (c_p1 s))) (Some (py (c_p1 s))) None (Some (current_angle st2)) None) (px (c_p1 s)) (py (c_p1 s))
                (xm_rapid c _ _ _ _ _) st2 I) as (st3 & ops & A & B & C & D).
    exists st3, ops. rewrite A, B, T2. destruct (c_p1 s) as [x y]. repeat split; auto. exists (current_angle st2). exact C.
  Qed.

  (** Segments.  [aim]: arcs are required to be kept as arcs. *)
  Definition cut_aim (aim : Prop) (depth : N) (s : cseg N) (o : @op N) : Prop :=
    cuts_segment depth s o /\ (aim -> cuts_exactly depth s o).
  Lemma does_segment s depth (aim : Prop) : self_close c ->
    (aim -> forall st ar, geo s = SArc ar -> tracked_at (ap1 ar) st ->
       forall xy, (vX (last_val (gs st)) = Some (px xy)) -> vY (last_val (gs st)) = Some (py xy) ->
       feq (pdist (center ar) xy) (radius ar) = true) ->
    does (fun st => known st /\ (aim -> tracked_at (c_p1 s) st)) (segment_gcode c k s depth)
      (segment_program_by (cut_aim aim) depth s) (tracked_at (c_p2 s)).
  Proof.
    intros SC Aim st (Kn & At).
    set (st0 := mkcs (gs st) (trace st) (current_angle st) (add (feed_distance st) (s_length (geo s)))).
    set (z := dflt depth (inline_z s)).
    set (Turn := if inline_ignore_a s || negb (enable_tangent k) then get_angle
       else cbind get_angle (fun a => let rotation := calc_rotation a (seg_start_angle s) in
            cbind (if is_zero rotation then cret tt else cseq (set_angle (add a rotation))
              (call c (OFeed None None None (Some (add a rotation)) None None)))
            (fun _ => cbind get_angle (fun a => cret (add a (calc_rotation a (seg_end_angle s))))))).
    set (Cut := fun ea => match geo s with
       | SLine l => call c (OFeed (Some (px (p2 l))) (Some (py (p2 l))) (Some z) (Some ea) None None)
       | SArc a => cbind get_xy (fun xy =>
          let r := pdist (center a) xy in
          if negb (feq r (radius a)) then
            call c (OFeed (Some (px (ap2 a))) (Some (py (ap2 a))) (Some z) (Some ea) None None)
          else
            let arcv := psub (center a) (ap1 a) in
            call c (OArc (is_clockwise a) (px (ap2 a)) (py (ap2 a)) (px arcv) (py arcv) (Some ea) (Some z) None None))
       end).
    assert (Split : segment_gcode c k s depth st = cbind Turn (fun ea => cseq (Cut ea) (set_angle ea)) st0) by reflexivity.
    rewrite Split. clear Split.
    assert (H1 : exists st1 ea rot,
      Turn st0 = (st1, Ok ea)
      /\ trace st1 = (trace st ++ rot)%list /\ (rot = [] \/ exists a, rot = [OFeed None None None (Some a) None None])
      /\ vX (last_val (gs st1)) = vX (last_val (gs st)) /\ vY (last_val (gs st1)) = vY (last_val (gs st))).
    { unfold Turn. destruct (_ || _).
      - exists st0, (current_angle st0), []. rewrite app_nil_r. cbn. auto.
      - unfold cbind at 1, get_angle at 1. cbv zeta. destruct (is_zero _).
        + eexists _, _, []. rewrite app_nil_r. unfold cbind, cret. cbn. auto.
        + unfold cbind at 1, cseq, cbind at 1, set_angle.
          set (rr := add _ _). set (st0' := mkcs _ _ rr _).
          destruct (does_quiet (OFeed None None None (Some rr) None None) (fun st' => vX (last_val (gs st')) = vX (last_val (gs st)) /\ vY (last_val (gs st')) = vY (last_val (gs st)))) with (st := st0')
            as (st1 & ops & A & B & C & D & D').
          * intros a b -> -> _ X. exact X.
          * apply (xm_feed c None None None _ None None).
          * split; reflexivity.
          * rewrite A. eexists st1, _, ops. unfold cbind, get_angle, cret. rewrite B. repeat split; auto. right. rewrite C. eauto. }
    destruct H1 as (st1 & ea & rot & H1 & T1 & Rot & X1 & Y1).
    unfold cbind at 1. rewrite H1.
    destruct Kn as (x & y & Kx & Ky).
    assert (H2 : exists st2 o, Cut ea st1 = (st2, Ok tt) /\ trace st2 = (trace st1 ++ [o])%list /\ tracked_at (c_p2 s) st2 /\ cuts_segment depth s o /\
      (aim -> cuts_exactly depth s o)).
    { assert (Feed : forall q, q = c_p2 s -> let o := OFeed (Some (px q)) (Some (py q)) (Some z) (Some ea) None None in
         exists st2, call c o st1 = (st2, Ok tt) /\ trace st2 = (trace st1 ++ [o])%list /\ tracked_at (c_p2 s) st2 /\ cuts_segment depth s o).
      { intros q -> o.
        destruct (does_to o (px (c_p2 s)) (py (c_p2 s)) (xm_feed c _ _ _ _ _ _) st1 I) as (st2 & ops & A & B & C & D).
        exists st2. rewrite B, C. destruct (c_p2 s) as [qx qy] eqn:Eq. repeat split; auto. exists ea. left.
        unfold c_p2 in Eq. rewrite Eq. reflexivity. }
      unfold Cut. destruct (geo s) as [l|ar] eqn:G.
      - destruct (Feed (p2 l)) as (st2 & A & B & C & D); [unfold c_p2; rewrite G; reflexivity|].
        eexists st2, _. repeat split; eauto. intros _. exists ea. rewrite G. unfold z, cut_height, dflt. destruct (inline_z s); reflexivity.
      - unfold cbind, get_xy. rewrite X1, Y1, Kx, Ky. cbv zeta. destruct (feq (pdist (center ar) (P x y)) (radius ar)) eqn:F; cbn [negb].
        + set (o := OArc _ _ _ _ _ _ _ _ _).
          destruct (arc_moves c (is_clockwise ar) (px (ap2 ar)) (py (ap2 ar)) (px (psub (center ar) (ap1 ar))) (py (psub (center ar) (ap1 ar)))
                     (Some ea) (Some z) None None (gs st1) x y SC) as (A & B & C); [congruence|congruence|].
          assert (HC : call c o st1 = (mkcs (fst (exec c o (gs st1))) (trace st1 ++ [o])%list (current_angle st1) (feed_distance st1), Ok tt)).
          { unfold call, o. cbn [exec]. destruct (feed_arc _ _ _ _ _ _ _ _ _ _ _) as [g r]. cbn in A. subst r. reflexivity. }
          eexists _, o. rewrite HC. split; [reflexivity|]. split; [reflexivity|].
          apply moved_close in B as (x' & B & B'). apply moved_close in C as (y' & C & C'). repeat split.
          * exists x', y'. unfold c_p2. rewrite G. cbn [gs s_p2]. auto.
          * exists ea. right. exists ar. split; [exact G|]. unfold o, z, cut_height, is_clockwise, psub, dflt. destruct (inline_z s); reflexivity.
          * intros _. exists ea. rewrite G. unfold o, z, cut_height, is_clockwise, psub, dflt. destruct (inline_z s); reflexivity.
        + destruct (Feed (ap2 ar)) as (st2 & A & B & C & D); [unfold c_p2; rewrite G; reflexivity|].
          eexists st2, _. repeat split; eauto. intros Ha. exfalso.
          assert (Ta : tracked_at (ap1 ar) st) by (specialize (At Ha); unfold c_p1 in At; rewrite G in At; exact At).
          rewrite (Aim Ha st ar eq_refl Ta (P x y) Kx Ky) in F. discriminate. }
    destruct H2 as (st2 & o & H2 & T2 & At2 & C2 & A2).
    unfold cseq, cbind. rewrite H2. unfold set_angle.
    eexists _, (rot ++ [o])%list. split; [reflexivity|]. cbn [trace gs]. rewrite T2, T1, app_assoc. split; [reflexivity|]. split.
    - exists o. split; [split; [exact C2|exact A2]|]. destruct Rot as [->|(a & ->)]; [left; reflexivity|right; exists a; reflexivity].
    - destruct At2 as (x' & y' & A & B & C & D). exists x', y'. auto.
  Qed.

  (** Paths. *)
  Definition linked (p : path) : Prop := forall a s t b, p = (a ++ s :: t :: b)%list -> c_p2 s = c_p1 t.
  Definition arc_ready (s : cseg N) : Prop := forall st ar, geo s = SArc ar -> tracked_at (ap1 ar) st ->
       forall xy, (vX (last_val (gs st)) = Some (px xy)) -> vY (last_val (gs st)) = Some (py xy) ->
       feq (pdist (center ar) xy) (radius ar) = true.
  Definition path_ready (p : path) : Prop := linked p /\ Forall arc_ready p.
  Hypothesis SC : self_close c.
  Variable aim : Prop.

  Lemma does_segments depth p : (aim -> path_ready p) ->
    does (fun st => known st /\ (aim -> forall s r, p = s :: r -> tracked_at (c_p1 s) st)) (segments_gcode c k p depth)
      (concat_of (segment_program_by (cut_aim aim) depth) p) known.
  Proof.
    induction p as [|s p IH]; intros Hp.
    - intros st (Kn & _). exists st, []. rewrite app_nil_r. repeat split; auto. constructor.
    - cbn [segments_gcode]. eapply does_seq with (Q := tracked_at (c_p2 s)).
      + eapply does_weaken; [apply (does_segment s depth aim SC)| | |].
        * intros Ha. destruct (Hp Ha) as [_ F]. inversion F; subst. assumption.
        * intros st (Kn & At). split; [exact Kn|]. intros Ha. now apply (At Ha s p).
        * intros o Ho. exact Ho.
        * auto.
      + eapply does_weaken; [apply IH| | |].
        * intros Ha. destruct (Hp Ha) as [L F]. split; [|inversion F; assumption].
          intros a x t b ->. apply (L (s :: a) x t b). reflexivity.
        * intros st At. split; [exact (tracked_known _ _ At)|]. intros Ha t r ->.
          destruct (Hp Ha) as [L _]. rewrite <- (L [] s t r eq_refl). exact At.
        * intros o Ho. exact Ho.
        * auto.
      + intros a b Ha Hb. constructor; auto.
  Qed.

  Lemma does_path text p depth : p <> [] -> (aim -> path_ready p) ->
    does (fun _ => True) (cut_path c k (rapid_to_path c k) text p depth) (path_program_by (cut_aim aim) depth p) known.
  Proof.
    intros Hne Hp. destruct p as [|s r]; [contradiction|]. clear Hne.
    assert (Stab : forall x y o, xy_moves c (exec c o) None None ->
              does (tracked_at (P x y)) (call c o) (fun ops => ops = [o]) (tracked_at (P x y))).
    { intros x y o. apply does_quiet. intros st st' A B C. now apply tracked_stable. }
    destruct (c_p1 s) as [x y] eqn:E1.
    unfold cut_path. eapply does_weaken; [|intros st H; exact H| |intros st H; exact H].
    - eapply does_then; [apply (does_quiet (OComment CNone false) (fun _ => True)); [auto|apply xm_comment]|].
      eapply does_then; [apply (does_quiet (OComment (CStr text) false) (fun _ => True)); [auto|apply xm_comment]|].
      eapply does_then; [apply (does_rapid (s :: r) s r eq_refl)|].
      rewrite E1. eapply does_then; [apply (Stab x y); apply xm_tool_down|].
      eapply does_then; [apply (Stab x y); apply xm_comment|].
      eapply does_weaken; [apply (does_segments depth (s :: r) Hp)| |intros o Ho; exact Ho|intros st H; exact H].
      intros st At. split; [exact (tracked_known _ _ At)|]. intros _ t r' [= <- <-]. rewrite E1. exact At.
    - intros ops (a1 & b1 & -> & -> & a2 & b2 & -> & -> & a3 & b3 & -> & (an & ->) & a4 & b4 & -> & -> & a5 & b5 & -> & -> & B).
      exists s, r, text, an, b5. split; [reflexivity|]. split; [reflexivity|exact B].
  Qed.

  (** Passes and the whole job. *)
  Lemma does_pass text pass depth l : Forall (fun p => p <> [] -> aim -> path_ready p) l -> forall i,
    does (fun _ => True) (one_pass c k (rapid_to_path c k) text i pass depth l)
      (concat_of (path_program_by (cut_aim aim) depth) (selected (path_count_start k - i + 1) l)) (fun _ => True).
  Proof.
    induction 1 as [|p l Hp _ IH]; intros i.
    - intros st _. exists st, []. rewrite app_nil_r. repeat split; auto. unfold selected. rewrite skipn_nil. constructor.
    - cbn [one_pass].
      assert (Hsel : selected (path_count_start k - i + 1) (p :: l) =
        ((if negb (match p with [] => true | _ => false end) && Z.leb (path_count_start k) i then [p] else [])
        ++ selected (path_count_start k - (i + 1) + 1) l)%list).
      { unfold selected. destruct (Z.leb_spec (path_count_start k) i) as [L|L].
        - replace (Z.to_nat (path_count_start k - i + 1 - 1)) with 0 by lia.
          replace (Z.to_nat (path_count_start k - (i + 1) + 1 - 1)) with 0 by lia.
          rewrite andb_true_r. destruct p; reflexivity.
        - rewrite andb_false_r.
          replace (Z.to_nat (path_count_start k - i + 1 - 1)) with (S (Z.to_nat (path_count_start k - (i + 1) + 1 - 1))) by lia.
          reflexivity. }
      rewrite Hsel.
      eapply does_seq; [|apply (IH (i + 1)%Z)|].
      + instantiate (1 := concat_of (path_program_by (cut_aim aim) depth) (if negb (match p with [] => true | _ => false end) && Z.leb (path_count_start k) i then [p] else [])).
        destruct (_ && _) eqn:B.
        * eapply does_weaken; [apply does_path|auto| |auto].
          -- destruct p; [discriminate|congruence].
          -- intros Ha. apply Hp; [|exact Ha]. destruct p; [discriminate|congruence].
          -- intros o Ho. rewrite <- (app_nil_r o). constructor; [exact Ho|constructor].
        * intros st _. exists st, []. rewrite app_nil_r. repeat split; auto. constructor.
      + intros a b Ha Hb. clear -Ha Hb. induction Ha as [|x xs o os Hx _ IH]; [exact Hb|].
        rewrite <- app_assoc. constructor; auto.
  Qed.
  Lemma does_loop text l step zd : Forall (fun p => p <> [] -> aim -> path_ready p) l -> forall fuel pass d ds,
    depths fuel c step zd d = Some ds ->
    does (fun _ => True) (depth_loop fuel c k (rapid_to_path c k) text l step zd pass d)
      (concat_of (fun d => concat_of (path_program_by (cut_aim aim) d) (selected (path_count_start k) l)) ds) (fun _ => True).
  Proof.
    intros Hl. induction fuel as [|f IH]; intros pass d ds; cbn [depth_loop depths];
      (destruct (leb zd d); [|intros [= <-] st _; exists st, []; rewrite app_nil_r; repeat split; auto; constructor]);
      [discriminate|].
    destruct (depths f c step zd (next_depth c step zd d)) as [ds'|] eqn:D; [|discriminate]. intros [= <-].
    eapply does_seq; [apply (does_pass text pass d l Hl 1)|apply (IH _ _ ds' D)|].
    intros a b Ha Hb. replace (path_count_start k - 1 + 1)%Z with (path_count_start k) in Ha by lia.
    constructor; auto.
  Qed.
End Total.

Section Job.
  Context {N : NumOps} {E : Epsilon N}.
  Notation path := (list (cseg N)).
  Theorem job_completes fuel (c : config N) k pre today text ct (l l1 l2 : list path) ds (aim : Prop) :
    self_close c ->
    sorted_input k l = Ok l1 -> pre l1 = Ok l2 ->
    (forall n, Forall (fun p => p <> [] -> aim -> path_ready (job_config c n ct) p) l2) ->
    depths fuel c (eff_step k) (z_depth k) (first_depth k) = Some ds ->
    exists st' : cstate N, generate_gcode fuel c k pre (fun c => rapid_to_path c k) today text ct l cam_start = (st', Ok tt) /\    job_program_by (cut_aim aim) (home_when_done k) (path_count_start k) l2 ds (trace st').
  Proof.
    intros SC Hs Hp Hl D. unfold generate_gcode.
    change (match path_sort_method k with Some m => sort_paths l m | None => Ok l end) with (sorted_input k l).
    rewrite Hs. unfold cbind at 1, lift at 1. rewrite Hp. unfold cbind at 1, lift.
    set (c' := job_config c (length l2) ct).
    assert (SC' : self_close c').
    { intros x y u v. unfold c'. destruct (job_config_fields c (length l2) ct) as (_ & _ & Ht & _).
      specialize (SC x y u v). unfold float_eq in *. now rewrite Ht. }
    assert (D' : depths fuel c' (eff_step k) (z_depth k) (first_depth k) = Some ds) by (unfold c'; now rewrite job_config_depths).
    assert (H : does (fun st => gs st = init) (cseq (call c' (OHeader today None)) (cseq (call c' (OToolUp true None None))
      (cseq (depth_loop fuel c' k (rapid_to_path c' k) text l2 (eff_step k) (z_depth k) 1 (first_depth k))
      (cseq (call c' (OToolUp true None None))
      (cseq (cwhen (home_when_done k) (call c' (ORapid (Some (of_Z 0)) (Some (of_Z 0)) None (Some (of_Z 0)) None)))
       (call c' OFooter))))))
      (job_program_by (cut_aim aim) (home_when_done k) (path_count_start k) l2 ds) (fun _ => True)).
    { eapply does_weaken; [|intros st H; exact H| |intros st H; exact H].
      - eapply does_then with (Q := fun _ => True).
        { apply does_call. intros st ->. split; [apply header_ok|exact I]. }
        assert (Qt : forall o, xy_moves c' (exec c' o) None None -> does (fun _ => True) (call c' o) (fun ops => ops = [o]) (fun _ => True)).
        { intros o. apply does_quiet. auto. }
        eapply does_then; [apply Qt, xm_tool_up|].
        eapply does_then; [apply (does_loop c' k SC' aim text l2 _ _ (Hl _) fuel 1 _ ds D')|].
        eapply does_then; [apply Qt, xm_tool_up|].
        eapply does_then; [|apply Qt, xm_footer].
        instantiate (1 := fun ops => ops = (if home_when_done k then [ORapid (Some (of_Z 0)) (Some (of_Z 0)) None (Some (of_Z 0)) None] else [])).
        destruct (home_when_done k); cbn [cwhen].
        + apply does_call. intros st _. split; [|exact I]. apply (xm_rapid c' (Some (of_Z 0)) (Some (of_Z 0)) None (Some (of_Z 0)) None).
        + intros st _. exists st, []. rewrite app_nil_r. auto.
      - intros ops (a1 & b1 & -> & -> & a2 & b2 & -> & -> & a3 & b3 & -> & B & a4 & b4 & -> & -> & a5 & b5 & -> & -> & ->).
        exists today, a3. split; [exact B|]. reflexivity. }
    destruct (H cam_start eq_refl) as (st' & ops & A & B & C & _). exists st'. split; [exact A|].
    rewrite B. exact C.
  Qed.
End Job.
