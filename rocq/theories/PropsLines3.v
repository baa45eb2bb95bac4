(** * PropsLines3: the distances of grid lines with variable and random spacing, and their random turns (C176), over R. *)
From Verif Require Import Num NumR Geom GeomR GeomSpec GeomProofs GeomProofs2 GeomProofs3 GeomProofs5 Lines PropsLines PropsLines2 PropsGeom.
From Coq Require Import ZArith Reals Lra Lia List Bool.
Import ListNotations.
Local Open Scope R_scope.

(** ** Specification *)
Section Spec.
  Context {E : Epsilon ROps}.
  (** how far [o] is in its cycle, when [cycles] cycles fill the extent *)
  Definition cycle_part (extent cycles o t : R) : Prop := 0 <= t < 1 /\ exists n : Z, o / extent * cycles = IZR n + t.
  (** the share of the full spacing there *)
  Definition share (f : formula ROps) (invert : bool) (t : R) : R :=
    let w := match f with FNone => 1 | FLinear => t | FSine => Rabs (Rtrigo_def.sin (2 * PI * t)) | FLog f => f t end in
    if invert then 1 - w else w.
  (** the distance to the next line: the share of the spacing [s], at least the minimum (1/10 if none is given) and at most the maximum
      ([s] if none is given) *)
  Definition gap (l : lineset ROps) (s extent o g : R) : Prop := exists t, cycle_part extent (varspace_cycles l) o t /\
    exists least most, (Rabs (varspace_min l) < EPS /\ least = 1 / 10 \/ EPS <= Rabs (varspace_min l) /\ least = varspace_min l) /\
      (Rabs (varspace_max l) < EPS /\ most = s \/ EPS <= Rabs (varspace_max l) /\ most = varspace_max l) /\
      g = Rmin (Rmax (s * share (spacing_formula l) (varspace_invert l) t) least) most.
  (** line [k] is turned about its middle by the angle drawn for it, in proportion to the jitter *)
  Definition wobbled (l : lineset ROps) (k : nat) (s m : Line_) : Prop :=
    let w := angle_draw l k * angle_jitter l / PI in
    let c := P ((px (p1 s) + px (p2 s)) / 2) ((py (p1 s) + py (p2 s)) / 2) in
    if Rlt_dec (Rabs (angle_jitter l)) EPS then m = s else if Rlt_dec (Rabs w) EPS then m = s
    else m = Ln (turned c w (p1 s)) (turned c w (p2 s)).
  (** The lines from number [k] on, at the distance [o] (up to the extent), and off by [j]: [at_ o] is the edge from which the distance is
      counted, moved by [o]. *)
  Inductive series (l : lineset ROps) (s extent : R) (at_ : R -> Line_) : nat -> R -> R -> list Line_ -> Prop :=
  | series_end k o j : extent <= o -> series l s extent at_ k o j []
  | series_step k o j g m r : o < extent -> gap l s extent o g -> wobbled l k (at_ (o + j)) m ->
      series l s extent at_ (S k) (o + g) (if Rlt_dec 0 (spacing_jitter l) then g * (spacing_draw l k * spacing_jitter l) else j) r ->
      series l s extent at_ k o j (m :: r).
  (** with random distances the extent is larger, for the lines that are moved back into the rectangle *)
  Definition extent_of (l : lineset ROps) (s size : R) : R := if Rlt_dec 0 (spacing_jitter l) then size + s * (1 + spacing_jitter l) else size.
End Spec.

Section C176.
  Context {E : Epsilon ROps}.
  Hypothesis He : 0 < EPS.

  Lemma is_zero_dec (x : R) : @is_zero ROps E x = if Rlt_dec (Rabs x) EPS then true else false.
  Proof. destruct (Rlt_dec _ _); [now apply is_zero_true|apply is_zero_false; lra]. Qed.
  Lemma spacing_gap (l : lineset ROps) (s extent o g : R) : 0 < extent -> scaled_spacing l s o extent = Ok g -> gap l s extent o g.
  Proof.
    intros X. unfold scaled_spacing, pydiv. rnum.
    destruct (Reqb (varspace_cycles l) 0) eqn:Z; [discriminate|]. apply Reqb_false in Z. cbn [rbind].
    set (I := extent / varspace_cycles l) in *. assert (HI : I <> 0) by (unfold I; apply Rmult_integral_contrapositive_currified; [lra|now apply Rinv_neq_0_compat]).
    rewrite (proj2 (Reqb_false I 0)) by exact HI. cbn [rbind].
    set (t := @pymod ROps o I / I). intros H.
    assert (Ct : cycle_part extent (varspace_cycles l) o t).
    { assert (Et : t = o / I - IZR (Zfloor (o / I))).
      { unfold t, pymod. rnum. generalize (IZR (Zfloor (o / I))) as z. intros z. change (T ROps) with R in *. field. exact HI. }
      split; [pose proof (Zfloor_spec (o / I)) as [A B]; rewrite Et; cbn in A, B; cbn; lra|].
      exists (Zfloor (o / I)). rewrite Et. replace (o / extent * varspace_cycles l) with (o / I) by (unfold I; change (T ROps) with R in *; field; lra). cbn. ring. }
    clearbody t. exists t. split; [exact Ct|]. rewrite pymin_R, pymax_R in H. injection H as <-.
    exists (@spacing_min ROps E (varspace_min l)), (@spacing_max ROps E (varspace_max l) s).
    split; [|split].
    - unfold spacing_min. rewrite is_zero_dec. destruct (Rlt_dec _ _); [left; split; [auto|cbn; lra]|right; split; [lra|reflexivity]].
    - unfold spacing_max. rewrite is_zero_dec. destruct (Rlt_dec _ _); [left; split; [auto|reflexivity]|right; split; [lra|reflexivity]].
    - f_equal. f_equal. f_equal. unfold share. change (@of_Z ROps 2) with 2. change (@of_Z ROps 1) with 1. change (@Num.sub ROps) with Rminus.
      destruct (spacing_formula l); [reflexivity|reflexivity| |reflexivity]. replace (2 * PI * t) with (t * PI * 2) by ring. reflexivity.
  Qed.
  Lemma jittered_wobbled (l : lineset ROps) k (s : Line_) : wobbled l k s (angle_jittered l k s).
  Proof.
    unfold wobbled, angle_jittered. cbn zeta. rewrite !is_zero_dec. rnum. destruct (Rlt_dec (Rabs (angle_jitter l)) EPS); [reflexivity|].
    destruct (Rlt_dec _ EPS); [reflexivity|].
    unfold ltransform. rewrite !PropsGeom.C34_rotate.
    replace (midpoint s) with (P ((px (p1 s) + px (p2 s)) / 2) ((py (p1 s) + py (p2 s)) / 2) : Pt); [reflexivity|].
    unfold midpoint, pmul, padd. apply pt_ext; cbn; toR; field.
  Qed.

  Lemma loop_series (l : lineset ROps) (a s extent : R) (start : Line_) : forall fuel k o j out, 0 <= extent ->
    lines_loop fuel k l a s extent start o j = Ok out ->
    exists ms, series l s extent (shifted a start) k o j ms /\ out = flat_map (kept (cliprect l)) ms.
  Proof.
    induction fuel as [|fuel IH]; intros k o j out X H; cbn [lines_loop] in H; rnum; destruct (Rltb o extent) eqn:L; cbn [negb] in H; try discriminate H;
      try (apply Rltb_false in L; injection H as <-; exists []; split; [constructor; lra|reflexivity]).
    apply Rltb_true in L. destruct (Req_dec extent 0) as [Z|Z].
    - destruct (scaled_spacing _ _ _ _) as [g|] eqn:G; [|discriminate H]. exfalso. unfold scaled_spacing, pydiv in G. rnum.
      destruct (Reqb (varspace_cycles l) 0); [discriminate G|]. cbn [rbind] in G. rewrite Z in G. unfold Rdiv at 1 in G. rewrite Rmult_0_l in G.
      rewrite (proj2 (Reqb_true 0 0) eq_refl) in G. discriminate G.
    - destruct (scaled_spacing _ _ _ _) as [g|] eqn:G; [|discriminate H]. cbn [rbind] in H.
      destruct (lines_loop fuel _ _ _ _ _ _ _ _) as [r|] eqn:Q; [|discriminate H]. cbn [rbind] in H.
      apply IH in Q; [|exact X]. destruct Q as (ms & S & ->).
      exists (angle_jittered l k (shifted a start (o + j)) :: ms). split.
      + apply series_step with (g := g); [exact L|apply spacing_gap; [lra|exact G]|apply jittered_wobbled|].
        destruct (Rlt_dec 0 (spacing_jitter l)) as [D|D]; [rewrite (proj2 (Rltb_true 0 (spacing_jitter l))) in S by exact D|rewrite (proj2 (Rltb_false 0 (spacing_jitter l))) in S by lra]; exact S.
      + injection H as <-. cbn [flat_map]. generalize (flat_map (kept (cliprect l)) ms) as r'. intros r'. unfold kept, shifted.
        destruct (clip_line _ _) as [m|]; [|reflexivity]. destruct (is_zero _); reflexivity.
  Qed.

  Lemma series_ext (l : lineset ROps) s extent (f g : R -> Line_) : (forall o, f o = g o) ->
    forall k o j ms, series l s extent f k o j ms -> series l s extent g k o j ms.
  Proof.
    intros F k o j ms Se. induction Se as [k o j X|k o j d m r X G W S IH]; [apply series_end; exact X|].
    apply series_step with (g := d); auto. rewrite <- F. exact W.
  Qed.

  Lemma series_quarter (l : lineset ROps) s extent f k o j ms : series (quarter l) s extent f k o j ms -> series l s extent f k o j ms.
  Proof.
    intros Se. induction Se as [k o j X|k o j d m r X G W S IH]; [apply series_end; exact X|].
    apply series_step with (g := d); auto.
  Qed.

  (** ** C176: horizontal lines are those of the series that starts at the lower edge of the rectangle, vertical ones of that at the left
      edge, each clipped to the rectangle (C41) and left out if nothing remains. *)
  Theorem C176_horizontal (l : lineset ROps) (x0 y0 x1 y1 : R) fuel out : cliprect l = Bx (P x0 y0) (P x1 y1) -> ls_angle l = 0 -> y0 <= y1 -> 0 <= ls_spacing l ->
    make_lines fuel l = Ok out ->
    exists ms, series l (ls_spacing l) (extent_of l (ls_spacing l) (y1 - y0)) (fun o => Ln (P x0 (y0 + o)) (P x1 (y0 + o))) 0 0 0 ms /\
      out = flat_map (kept (cliprect l)) ms.
  Proof.
    intros B A Y S0 H. pose proof PI_RGT_0. unfold make_lines in H. rewrite A, line_angle_id in H by lra.
    unfold axis_spacing in H. rewrite is_zero_true in H by (rewrite Rabs_R0; exact He). cbn [rbind] in H.
    unfold start_line in H. rewrite is_vertical_false, B in H by lra. unfold bwidth, bheight, xmin, xmax, ymin, ymax in H. cbn [b1 b2 px py] in H. rnum.
    rewrite (proj2 (Rltb_false 0 0)) in H by lra. rewrite sin_0, Rmult_0_l, Rabs_R0, Rplus_0_r, Rminus_0_r in H.
    apply loop_series in H.
    - destruct H as (ms & Se & Q). exists ms. split; [|exact Q].
      match type of Se with series _ _ ?e ?f _ _ _ _ => assert (Ee : e = extent_of l (ls_spacing l) (y1 - y0)) end.
      { unfold extent_of. destruct (Rlt_dec 0 (spacing_jitter l)) as [D|D]; [rewrite (proj2 (Rltb_true 0 (spacing_jitter l))) by exact D|rewrite (proj2 (Rltb_false 0 (spacing_jitter l))) by lra]; reflexivity. }
      rewrite Ee in Se. revert Se. apply series_ext. clear. intros o.
      unfold shifted, ladd, padd. rewrite is_vertical_false by (pose proof PI_RGT_0; lra). cbn [p1 p2 px py]. rnum. rewrite !Rplus_0_r. reflexivity.
    - destruct (Rltb 0 (spacing_jitter l)) eqn:D; [apply Rltb_true in D; assert (0 <= ls_spacing l * (1 + spacing_jitter l)) by (apply Rmult_le_pos; lra); change (IZR 1) with 1; lra|lra].
  Qed.
  Theorem C176_vertical (l : lineset ROps) (x0 y0 x1 y1 : R) fuel out : EPS <= 1 -> cliprect l = Bx (P x0 y0) (P x1 y1) -> ls_angle l = 0 -> x0 <= x1 -> 0 <= ls_spacing l ->
    make_lines fuel (quarter l) = Ok out ->
    exists ms, series l (ls_spacing l) (extent_of l (ls_spacing l) (x1 - x0)) (fun o => Ln (P (x0 + o) y0) (P (x0 + o) y1)) 0 0 0 ms /\
      out = flat_map (kept (cliprect l)) ms.
  Proof.
    intros E1 B A Y S0 H. pose proof PI_RGT_0. pose proof PI2_1. unfold make_lines in H. cbn [quarter ls_angle ls_spacing cliprect spacing_jitter] in H. rewrite A in H.
    rnum. rewrite Rplus_0_l in H. change (IZR 2) with 2 in H. rewrite line_angle_id in H by lra.
    unfold axis_spacing in H. rewrite is_zero_false in H by (rewrite Rabs_right; lra). rewrite is_vertical_true in H by lra. unfold pydiv in H. rnum.
    rewrite sin_PI2, (proj2 (Reqb_false 1 0)) in H by lra. cbn [rbind] in H. replace (ls_spacing l / 1) with (ls_spacing l) in H by (unfold Rdiv; rewrite Rinv_1, Rmult_1_r; reflexivity).
    unfold start_line in H. rewrite is_vertical_true, B in H by lra. unfold bwidth, bheight, xmin, xmax, ymin, ymax in H. cbn [b1 b2 px py] in H. rnum.
    rewrite (proj2 (Rltb_false (PI / 2) 0)) in H by lra. rewrite cos_PI2, Rmult_0_l, Rabs_R0, Rplus_0_r, Rminus_0_r in H.
    apply loop_series in H.
    - destruct H as (ms & Se & Q). exists ms. split; [|exact Q].
      match type of Se with series _ _ ?e ?f _ _ _ _ => assert (Ee : e = extent_of l (ls_spacing l) (x1 - x0)) end.
      { unfold extent_of. destruct (Rlt_dec 0 (spacing_jitter l)) as [D|D]; [rewrite (proj2 (Rltb_true 0 (spacing_jitter l))) by exact D|rewrite (proj2 (Rltb_false 0 (spacing_jitter l))) by lra]; reflexivity. }
      rewrite Ee in Se. apply series_quarter. revert Se. apply series_ext. clear. intros o.
      unfold shifted, ladd, padd. rewrite is_vertical_true by (pose proof PI_RGT_0; lra). cbn [p1 p2 px py]. rnum. rewrite !Rplus_0_r. reflexivity.
    - destruct (Rltb 0 (spacing_jitter l)) eqn:D; [apply Rltb_true in D; assert (0 <= ls_spacing l * (1 + spacing_jitter l)) by (apply Rmult_le_pos; lra); change (IZR 1) with 1; lra|lra].
  Qed.
  (** Without jitter no line is left out or shortened. *)
  Theorem C176_no_jitter (l : lineset ROps) (x0 y0 x1 y1 : R) fuel out : EPS <= x1 - x0 -> cliprect l = Bx (P x0 y0) (P x1 y1) -> ls_angle l = 0 -> y0 <= y1 -> 0 <= ls_spacing l ->
    spacing_jitter l = 0 -> angle_jitter l = 0 -> 0 <= varspace_min l -> 0 <= varspace_max l ->
    make_lines fuel l = Ok out -> series l (ls_spacing l) (y1 - y0) (fun o => Ln (P x0 (y0 + o)) (P x1 (y0 + o))) 0 0 0 out.
  Proof.
    intros W B A Y S0 J1 J2 V1 V2 H. destruct (C176_horizontal l x0 y0 x1 y1 fuel out B A Y S0 H) as (ms & Se & ->).
    unfold extent_of in Se. destruct (Rlt_dec 0 (spacing_jitter l)) as [D|_]; [lra|].
    replace (flat_map (kept (cliprect l)) ms) with ms; [exact Se|]. rewrite B. clear H.
    assert (G : forall k o j ms, 0 <= o -> j = 0 -> series l (ls_spacing l) (y1 - y0) (fun o => Ln (P x0 (y0 + o)) (P x1 (y0 + o))) k o j ms ->
      ms = flat_map (kept (Bx (P x0 y0) (P x1 y1))) ms); [|exact (G 0%nat 0 0 ms (Rle_refl 0) eq_refl Se)].
    clear Se ms. intros k o j ms Ho Hj Se. induction Se as [k o j X|k o j g m r X Gp Wb S IH]; [reflexivity|]. subst j.
    cbn [flat_map]. unfold wobbled in Wb. cbn zeta in Wb. destruct (Rlt_dec (Rabs (angle_jitter l)) EPS) as [_|Z]; [|exfalso; apply Z; rewrite J2, Rabs_R0; exact He].
    subst m. rewrite Rplus_0_r. unfold kept at 1. rewrite (clip_h He) by lra. rewrite is_zero_false.
    - cbn [app]. f_equal. apply IH.
      + destruct Gp as (t & _ & lo & hi & L1 & L2 & ->).
        destruct (step_bounds (ls_spacing l * share (spacing_formula l) (varspace_invert l) t) lo hi) as [Sb _].
        assert (0 <= lo) by lra. assert (0 <= hi) by lra. assert (0 <= Rmin lo hi) by (apply Rmin_glb; auto). lra.
      + destruct (Rlt_dec 0 (spacing_jitter l)); [lra|reflexivity].
    - unfold llen, vec, plen, psub. cbn [p1 p2 px py]. rnum. unfold Rhypot.
      match goal with |- EPS <= Rabs (R_sqrt.sqrt ?e) => replace e with (Rsqr (x1 - x0)) by (unfold Rsqr; ring) end.
      rewrite sqrt_Rsqr by lra. rewrite Rabs_right; lra.
  Qed.
End C176.

(** Linearly growing distances in a square of side 8, one cycle, spacing 4, at least 1: lines at 0, 1, 2, 3, 4 1/2 and 6 3/4. *)
Definition grow : lineset ROps := LS (Bx (P 0 0) (P 8 8)) 4 0 0 0 FLinear 1 0 1 false (fun _ => 0) (fun _ => 0).
Definition level (o : R) : Line_ := Ln (P 0 (0 + o)) (P 8 (0 + o)).
Lemma grow_gap {E : Epsilon ROps} (o g : R) : 0 < EPS <= 1 -> 0 <= o < 8 -> g = Rmin (Rmax (4 * (o / 8)) 1) 4 -> gap grow 4 8 o g.
Proof.
  intros He Ho ->. exists (o / 8). split; [split; [lra|exists 0%Z; cbn; lra]|]. exists 1, 4. cbn. rewrite Rabs_R0, Rabs_right by lra.
  split; [right; lra|]. split; [left; lra|reflexivity].
Qed.
Example C176_example {E : Epsilon ROps} : 0 < EPS <= 1 ->
  (exists n, forall fuel, (n <= fuel)%nat -> exists out, make_lines fuel grow = Ok out) /\
  series grow 4 8 level 0 0 0 [level 0; level 1; level 2; level 3; level (9 / 2); level (27 / 4)].
Proof.
  intros He. split.
  { apply C146_ends; cbn; try lra. rewrite line_angle_id; pose proof PI_RGT_0; lra. }
  assert (St : forall k o g m r o', 0 <= o < 8 -> g = Rmin (Rmax (4 * (o / 8)) 1) 4 -> o' = o + g -> m = level o -> series grow 4 8 level (S k) o' 0 r -> series grow 4 8 level k o 0 (m :: r)).
  { intros k o g m r o' Ho Hg -> -> Hr. apply series_step with (g := g); [lra|now apply grow_gap| |].
    - rewrite Rplus_0_r. unfold wobbled. cbn zeta. destruct (Rlt_dec _ EPS) as [_|Z]; [reflexivity|exfalso; apply Z; cbn; rewrite Rabs_R0; lra].
    - destruct (Rlt_dec 0 (spacing_jitter grow)) as [D|_]; [cbn in D; lra|exact Hr]. }
  assert (M : forall x, 1 <= x <= 4 -> Rmin (Rmax x 1) 4 = x) by (intros x Hx; rewrite Rmax_left, Rmin_left; lra).
  apply (St _ _ 1 _ _ 1); [lra| |lra|reflexivity|]. { rewrite Rmax_right, Rmin_left; lra. }
  apply (St _ _ 1 _ _ 2); [lra| |lra|reflexivity|]. { rewrite Rmax_right, Rmin_left; lra. }
  apply (St _ _ 1 _ _ 3); [lra| |lra|reflexivity|]. { rewrite M; lra. }
  apply (St _ _ (3/2) _ _ (9/2)); [lra| |lra|reflexivity|]. { rewrite M; lra. }
  apply (St _ _ (9/4) _ _ (27/4)); [lra| |lra|reflexivity|]. { rewrite M; lra. }
  apply (St _ _ (27/8) _ _ (81/8)); [lra| |lra|reflexivity|]. { rewrite M; lra. }
  constructor. lra.
Qed.
