(** * PropsSvgOut: written path data (C136-C138).  Over R. *)
From Verif Require Import Num NumR Geom GeomR GeomSpec GeomSpec2 GeomProofs Bezier BezierSpec Str Svg SvgSpec SvgProofs SvgProofs2 SvgDocProofs2 GeomSvg GeomSvgSpec SvgOut SvgOutSpec SvgOutProofs
  PropsGeom PropsSvg PropsGeomSvg.
From Coq Require Import ZArith NArith Reals Lra Lia Bool List Ascii String.
Import ListNotations.
Local Open Scope R_scope.

(** ** C136: what create_polypath writes is the given path. *)
Lemma plain_smooth p : plain p -> smooth_directly p.
Proof.
  intros H2. unfold smooth_directly. generalize (@None (segment numeral)). intros b.
  assert (Forall (fun o => match o with Some s => plain_seg s | None => True end) (flat_map segs_of p)) as H.
  { clear - H2. induction H2 as [|c p Hc _ IH]; [constructor|]. cbn [flat_map]. apply Forall_app. split; [|exact IH].
    destruct c as [rel f more|rel]; cbn [segs_of]; [|repeat constructor]. now apply Forall_map. }
  revert b. induction H as [|o l Ho _ IH]; intros b; [exact Logic.I|]. cbn [smooth_after].
  split; [|apply IH]. destruct o as [[]|]; cbn in Ho; tauto.
Qed.
(** Reading the text gives the commands that draw the path, every number rounded to [n] digits. *)
Theorem C136_commands_partial n (path : list Gseg) (close : bool) : path <> [] ->
  Forall (fun g => match g with GArc a => Rabs (sweep a) <= PI | GEArc _ => False | _ => True end) path ->
  exists s ds es, polypath_data n path close = Ok (Some s) /\ parse_path s = (map tuple es, None) /\
    draws_path path close ds /\ Forall2 (near_drawn n) ds es.
Proof.
  intros NE F. destruct (polypath_written n path close F NE) as (s & p & ds & A & B & C & D & W & G & H).
  exists s, ds, (drawing p). split; [exact A|]. split; [now apply C53_parse_path|]. split; assumption.
Qed.
(** Without segments nothing is written. *)
Theorem C136_nothing n close : polypath_data (N:=ROps) n [] close = Ok None.
Proof. reflexivity. Qed.

(** Lines and curves: reading the text back gives, in one path, a segment for every segment, each point of it
    within half a unit of the last digit (in each coordinate), and the closing line. *)
Lemma near_combination n (a b a' b' u : R) : 0 <= u <= 1 -> near n a a' -> near n b b' ->
  near n (a + u * (b - a)) (a' + u * (b' - a')).
Proof.
  intros Hu A B. unfold near in *. set (d := / 2 * / 10 ^ n) in *.
  replace (a' + u * (b' - a') - (a + u * (b - a))) with ((1 - u) * (a' - a) + u * (b' - b)) by ring.
  eapply Rle_trans; [apply Rabs_triang|]. rewrite !Rabs_mult, (Rabs_pos_eq (1 - u)), (Rabs_pos_eq u) by lra.
  assert ((1 - u) * Rabs (a' - a) <= (1 - u) * d) by (apply Rmult_le_compat_l; lra).
  assert (u * Rabs (b' - b) <= u * d) by (apply Rmult_le_compat_l; lra). lra.
Qed.
Lemma near_bern3 n (a b c d a' b' c' d' u : R) : 0 <= u <= 1 -> near n a a' -> near n b b' -> near n c c' -> near n d d' ->
  near n (bern3 a b c d u) (bern3 a' b' c' d' u).
Proof.
  intros Hu A B C D.
  assert (forall x y z w : R, bern3 x y z w u =
    ((x + u * (y - x)) + u * ((y + u * (z - y)) - (x + u * (y - x)))) +
    u * (((y + u * (z - y)) + u * ((z + u * (w - z)) - (y + u * (z - y)))) - ((x + u * (y - x)) + u * ((y + u * (z - y)) - (x + u * (y - x)))))) as Q
    by (intros; unfold bern3; ring).
  rewrite !Q. repeat apply near_combination; auto.
Qed.
Definition near_along n (g h : Gseg) : Prop := forall u, 0 <= u <= 1 -> near_pt n (point_on g u) (point_on h u).
Lemma line_near n (l l' : Line_) : near_pt n (p1 l) (p1 l') -> near_pt n (p2 l) (p2 l') -> near_along n (GLine l) (GLine l').
Proof. intros [A B] [C D] u Hu. split; cbn [point_on at_param px py]; now apply near_combination. Qed.
Lemma curve_near n (b b' : Bez) : near_pt n (z1 b) (z1 b') -> near_pt n (k1 b) (k1 b') -> near_pt n (k2 b) (k2 b') -> near_pt n (z2 b) (z2 b') ->
  near_along n (GCurve b) (GCurve b').
Proof. intros [A B] [C D] [G H] [I J] u Hu. split; cbn [point_on on_bez px py]; now apply near_bern3. Qed.
Lemma near_spot n (p : Pt) (q : xy R) : near_xy n (at_xy p) q -> near_pt n p (spot q).
Proof. intros [A B]. split; assumption. Qed.

Definition straight_or_curved (g : Gseg) : Prop := match g with GLine _ | GCurve _ => True | _ => False end.
Lemma pieces_near n : forall (path : list Gseg) ds es gs (s : xy R),
  Forall straight_or_curved path -> Forall2 drawn_as path ds -> Forall2 (near_drawn n) ds es -> chained path ->
  match path with [] => True | g :: _ => near_pt n (g_p1 g) (spot s) end ->
  Forall2 shows (located s es) gs -> Forall2 (near_along n) path gs.
Proof.
  induction path as [|g path IH]; intros ds es gs s F D Nd Ch St Sh.
  - inversion D; subst. inversion Nd; subst. inversion Sh; subst. constructor.
  - inversion F as [|? ? Fg F']; subst. inversion D as [|? d ? ds' Dg D']; subst. inversion Nd as [|? e ? es' Ng N']; subst.
    inversion Sh as [|? h ? gs' Hg Sh']; subst. cbn [located] in *.
    assert (near_along n g h /\ near_pt n (g_p2 g) (spot (stop e))) as [Q1 Q2].
    { destruct g as [l|a|b|]; try contradiction; cbn [drawn_as] in Dg; subst d; cbn [near_drawn] in Ng.
      - destruct e as [|q| | |]; try contradiction. cbn [shows snd fst] in Hg. destruct Hg as (l' & -> & E1 & E2).
        split; [|apply near_spot; exact Ng]. apply line_near; [rewrite E1; exact St|rewrite E2; apply near_spot; exact Ng].
      - destruct e as [| |a1 b1 q| |]; try contradiction. destruct Ng as (N1 & N2 & N3).
        cbn [shows snd fst] in Hg. destruct Hg as (l' & -> & E1 & E2 & E3 & E4).
        split; [|apply near_spot; exact N3].
        apply curve_near; [rewrite E1; exact St|rewrite E2; now apply near_spot|rewrite E3; now apply near_spot|rewrite E4; now apply near_spot]. }
    constructor; [exact Q1|]. apply (IH ds' es' gs' (stop e)); auto.
    + destruct path as [|h' path]; [exact Logic.I|]. apply Ch.
    + destruct path as [|h' path]; [exact Logic.I|]. destruct Ch as [Ch _]. rewrite <- Ch. exact Q2.
Qed.
Definition moveless (x : GeomSvgSpec.piece) : Prop := match snd x with DMove _ => False | _ => True end.
Lemma runs_moveless l : forall cur, Forall moveless l -> runs cur l = run (cur ++ l).
Proof.
  induction l as [|[s d] l IH]; intros cur F; [now rewrite app_nil_r|]. inversion F as [|? ? Hd F']; subst.
  destruct d; cbn in Hd; try contradiction; cbn [runs]; rewrite IH by exact F'; rewrite <- app_assoc; reflexivity.
Qed.
(** The segments of the path, and the closing line if there is to be one. *)
Definition with_closing (path : list Gseg) (close : bool) : list Gseg :=
  match path with
  | [] => []
  | g :: _ => path ++ (if close then [GLine (Ln (g_p2 (last path g)) (g_p1 g))] else [])
  end.
Lemma chained_snoc (path : list Gseg) (h d : Gseg) : forall g, chained (g :: path) -> g_p2 (last (g :: path) d) = g_p1 h -> chained ((g :: path) ++ [h]).
Proof.
  induction path as [|k path IH]; intros g Ch Hh; [cbn in *; auto|].
  change ((g :: k :: path) ++ [h])%list with (g :: (k :: path) ++ [h])%list.
  assert (chained ((k :: path) ++ [h])) as Q. { apply IH; [apply Ch|]. exact Hh. }
  split; [apply Ch|exact Q].
Qed.
Section C136.
  Context {E : Epsilon ROps}.
  Hypothesis He : 0 < EPS.
  Theorem C136_read_back n (path : list Gseg) (close to_bezier : bool) : path <> [] ->
    Forall straight_or_curved path -> chained path ->
    exists s gs, polypath_data n path close = Ok (Some s) /\ parse_path_geom s to_bezier = Ok [gs] /\
      Forall2 (near_along n) (with_closing path close) gs.
  Proof.
    intros NE F Ch.
    assert (SA : Forall short_arcs path) by (eapply Forall_impl; [|exact F]; intros []; cbn; tauto).
    destruct (polypath_written n path close SA NE) as (s & p & ds & A & B & C & D & W & (g & r & body & -> & G2 & G3) & Nd). subst ds.
    set (fin := if close then [DLine (at_xy (g_p1 g))] else []) in *.
    destruct (drawing p) as [|d0 es] eqn:DR; [inversion Nd|]. inversion Nd as [|? ? ? ? N0 N1]; subst. destruct d0 as [q0| | | |]; try contradiction N0.
    assert (G4 : Forall2 drawn_as (with_closing (g :: r) close) (body ++ fin)).
    { unfold with_closing. apply Forall2_app; [exact G2|]. unfold fin. destruct close; repeat constructor. }
    assert (F4 : Forall straight_or_curved (with_closing (g :: r) close)).
    { unfold with_closing. apply Forall_app. split; [exact F|]. destruct close; repeat constructor. }
    assert (C4 : chained (with_closing (g :: r) close)).
    { unfold with_closing. destruct close; [|now rewrite app_nil_r]. now apply (chained_snoc r _ g). }
    assert (ML : forall l s, Forall2 (near_drawn n) (body ++ fin) l -> Forall moveless (located s l) /\ Forall tame (located s l)).
    { clear - G4 F4. generalize dependent (body ++ fin)%list. generalize dependent (with_closing (g :: r) close). intros l0 F4 l1 F2.
      induction F2 as [|h d l0 l1 Hd F2 IH]; intros l s Nl; inversion Nl as [|? e ? l' Ne Nl']; subst; [split; constructor|].
      inversion F4 as [|? ? Fh F4']; subst. destruct (IH F4' l' (stop e) Nl') as [I1 I2]. cbn [located].
      assert (moveless (s, e) /\ tame (s, e)) as [J1 J2].
      { destruct h; try contradiction; cbn [drawn_as] in Hd; subst d; destruct e; try contradiction Ne; split; exact Logic.I. }
      split; constructor; assumption. }
    destruct (ML es q0 N1) as [M1 M2].
    assert (T : Forall tame (located (XY 0 0) (drawing p))) by (rewrite DR; cbn [located]; constructor; [exact Logic.I|exact M2]).
    destruct (C120_path_partial He p s to_bezier B (plain_smooth p C) D W T) as (gs & Q & Sh). rewrite DR in Sh.
    unfold subpaths in Sh. cbn [located runs stop] in Sh. rewrite runs_moveless in Sh by exact M1. cbn [app run] in Sh.
    assert (exists x l, located q0 es = x :: l) as (x & l & Q1).
    { destruct es as [|e es]; [|do 2 eexists; reflexivity]. inversion N1 as [N1a|]. destruct body; [inversion G2|discriminate N1a]. }
    rewrite Q1 in Sh. cbn [run] in Sh. rewrite <- Q1 in Sh. inversion Sh as [|? g1 ? t1 S1 S2]; subst. inversion S2; subst.
    exists s, g1. split; [exact A|]. split; [exact Q|].
    apply (pieces_near n _ (body ++ fin) es g1 q0); auto.
  Qed.
End C136.
(** An arc of more than half a turn is written with the flag of the short one: no arc that the written command
    describes is the given arc. *)
Theorem C136_large_arc_refuted n (a : Arc_) : PI < Rabs (sweep a) ->
  exists s, polypath_data n [GArc a] false = Ok (Some s) /\
    exists r1 r2 rot ccw p q, parse_path (N:=ROps) s = (map tuple [DMove p; DArc r1 r2 rot false ccw q], None) /\
    near n (radius a) r1 /\ near_xy n (at_xy (ap1 a)) p /\ near_xy n (at_xy (ap2 a)) q /\
    forall c, svg_arc (spot p) (spot q) r1 false ccw c -> sweep c <> sweep a.
Proof.
  intros Ha.
  (* the text does not depend on the size of the sweep, only on its sign *)
  set (a' := mkarc (ap1 a) (ap2 a) (radius a) (if Rltb (sweep a) 0 then - (1) else 1) (center a) : Arc_).
  assert (Q : polypath_data n [GArc a] false = polypath_data n [GArc a'] false).
  { unfold polypath_data. cbn [segments_data segment_data rbind]. cbn [radius ap2 sweep ap1 g_p1 a'].
    replace (@Num.ltb ROps (if Rltb (sweep a) 0 then - (1) else 1) (of_Z 0)) with (@Num.ltb ROps (sweep a) (of_Z 0)); [reflexivity|].
    change (Rltb (sweep a) 0 = Rltb (if Rltb (sweep a) 0 then - (1) else 1) 0). symmetry. destruct (Rltb (sweep a) 0); [apply Rltb_true|apply Rltb_false]; lra. }
  destruct (C136_commands_partial n [GArc a'] false) as (s & ds & es & A & B & (g & r & body & G1 & G2 & G3) & Nd).
  { discriminate. }
  { constructor; [|constructor]. cbn [sweep a']. pose proof PI_RGT_0. pose proof PI2_1.
    destruct (Rltb (sweep a) 0); [rewrite Rabs_Ropp|]; rewrite Rabs_R1; lra. }
  exists s. split; [now rewrite Q|]. inversion G1; subst g r. inversion G2 as [|? d ? ? Hd G2']; subst. inversion G2'; subst.
  cbn [drawn_as] in Hd. destruct Hd as (large & ccw & -> & Hl & Hc). cbn [app] in Nd.
  inversion Nd as [|? e0 ? es0 N0 N1]; subst. inversion N1 as [|? e1 ? es1 N2 N3]; subst. inversion N3; subst.
  destruct e0 as [p| | | |]; try contradiction N0. destruct e1 as [| | | |r1 r2 rot l w q]; try contradiction N2.
  destruct N2 as (K1 & K2 & K3 & <- & <- & K4).
  assert (large = false) as ->.
  { destruct large; [|reflexivity]. destruct Hl as [Hl _]. specialize (Hl eq_refl). cbn [sweep a'] in Hl. pose proof PI2_1.
    destruct (Rltb (sweep a) 0); [rewrite Rabs_Ropp in Hl|]; rewrite Rabs_R1 in Hl; lra. }
  exists r1, r2, rot, ccw, p, q. split; [exact B|]. split; [exact K1|]. split; [exact N0|]. split; [exact K4|].
  intros c (_ & _ & _ & _ & _ & Hs) Es. cbn in Hs. rewrite Es in Hs. lra.
Qed.
(** A triangle with one curved side, written with three digits. *)
Definition c136_path : list Gseg :=
  [GLine (Ln (P 0 0) (P 2 0)); GCurve (Bz (P 2 0) (P 3 1) (P 3 2) (P (1/3) 3))].
Example C136_example : chained c136_path /\ Forall straight_or_curved c136_path /\
  exists s g1 g2 g3, polypath_data 3 c136_path true = Ok (Some s) /\ parse_path_geom (E:=eps6) s true = Ok [[g1; g2; g3]] /\
    Rabs (px (point_on g2 1) - 1/3) <= 5/10000 /\ Rabs (py (point_on g3 1)) <= 5/10000.
Proof.
  assert (Ch : chained c136_path) by (cbn; auto). assert (F : Forall straight_or_curved c136_path) by repeat constructor.
  split; [exact Ch|]. split; [exact F|].
  assert (He : 0 < @EPS ROps eps6) by (unfold EPS, eps6; cbn; lra).
  destruct (@C136_read_back eps6 He 3 c136_path true true ltac:(discriminate) F Ch) as (s & gs & A & B & C).
  cbn [with_closing c136_path app last g_p1 g_p2 z2 p1] in C.
  inversion C as [|? g1 ? r1 N1 C1]; subst. inversion C1 as [|? g2 ? r2 N2 C2]; subst. inversion C2 as [|? g3 ? r3 N3 C3]; subst. inversion C3; subst.
  exists s, g1, g2, g3. split; [exact A|]. split; [exact B|].
  destruct (N2 1 ltac:(lra)) as [Q1 _]. destruct (N3 1 ltac:(lra)) as [_ Q2]. unfold near in Q1, Q2.
  cbn [point_on on_bez at_param px py z1 k1 k2 z2 p1 p2] in Q1, Q2. unfold bern3 in Q1.
  assert (/ 2 * / 10 ^ 3 = 5/10000) as Q by (cbn [pow]; field). rewrite Q in Q1, Q2. split.
  - match type of Q1 with Rabs (?x - ?y) <= _ => replace y with (1/3) in Q1 by field end. exact Q1.
  - match type of Q2 with Rabs (?x - ?y) <= _ => replace y with 0 in Q2 by ring; rewrite Rminus_0_r in Q2 end. exact Q2.
Qed.

(** ** C137: the other writers *)
Local Notation Vxy := SvgOutProofs.Vxy.
Lemma points_written n (ps : list Pt) : ps <> [] -> exists qs, Forall item_ok (flat_map xy_items qs) /\ flat_map xy_items qs <> [] /\
  spells (flat_map xy_items qs) (join_blank (map (fmt_point n) ps)) /\ Forall2 (near_xy n) (map at_xy ps) (map Vxy qs).
Proof.
  induction ps as [|p ps IH]; [congruence|]. intros _. destruct (point_written n p) as (q & Q1 & Q2 & Q3).
  destruct ps as [|p' ps].
  - exists [q]. cbn [flat_map map]. rewrite app_nil_r. split; [exact Q1|]. split; [discriminate|]. split; [exact Q2|]. constructor; [exact Q3|constructor].
  - destruct IH as (qs & A & B & C & D); [discriminate|]. exists (q :: qs). cbn [flat_map].
    split; [apply Forall_app; split; assumption|]. split; [discriminate|].
    split; [|cbn [map] in *; constructor; assumption].
    change (map (fmt_point n) (p :: p' :: ps)) with ([fmt_point n p] ++ map (fmt_point n) (p' :: ps))%list.
    rewrite join_app by discriminate. apply spells_more; [discriminate|exact B|exact Q2|exact C].
Qed.
(** What a list of lines reads as. *)
Lemma lines_sem (qs : list (xy numeral)) : forall st, exists st', start st' = start st /\
  sem_segs (N:=ROps) false (map (fun q => Line q) qs) st = (map (fun q => DLine (Vxy q)) qs, st').
Proof.
  induction qs as [|q qs IH]; intros st; [exists st; split; reflexivity|]. cbn [map sem_segs sem_seg].
  destruct (IH (PS (start st) (Vxy q) AfterOther)) as (st' & S1 & S2). exists st'. split; [exact S1|].
  match goal with |- context[sem_segs false ?l ?s] => change (sem_segs false l s) with (sem_segs (N:=ROps) false (map (fun q => Line q) qs) (PS (start st) (Vxy q) AfterOther)) end.
  rewrite S2. reflexivity.
Qed.
Lemma lines_items (qs : list (xy numeral)) : flat_map seg_items (map (fun q => Line q) qs) = flat_map xy_items qs.
Proof. induction qs as [|q qs IH]; [reflexivity|]. cbn [map flat_map]. now rewrite IH. Qed.

(** A list of commands, each with its text; the texts are joined with blanks. *)
Lemma cmds_written (l : list (pathcmd * pystr)) :
  Forall (fun x => Forall item_ok (cmd_items (fst x)) /\ cmd_items (fst x) <> [] /\ spells (cmd_items (fst x)) (snd x)) l -> l <> [] ->
  Forall item_ok (path_items (map fst l)) /\ path_items (map fst l) <> [] /\ spells (path_items (map fst l)) (join_blank (map snd l)).
Proof.
  intros F NE. induction F as [|[c t] l (A & B & C) F IH]; [congruence|]. cbn [fst snd] in *. destruct l as [|y l].
  - cbn [map fst snd path_items flat_map join_blank]. rewrite app_nil_r. auto.
  - destruct IH as (I1 & I2 & I3); [discriminate|]. cbn [map fst snd]. 
    change (path_items (c :: fst y :: map fst l)) with (cmd_items c ++ path_items (fst y :: map fst l))%list.
    change (join_blank (t :: snd y :: map snd l)) with (t ++ " "%char :: join_blank (snd y :: map snd l))%list.
    split; [apply Forall_app; split; assumption|]. split; [destruct (cmd_items c); [congruence|discriminate]|]. now apply spells_more.
Qed.
Definition good (x : pathcmd * pystr) : Prop :=
  plain_cmd (fst x) /\ Forall item_ok (cmd_items (fst x)) /\ cmd_items (fst x) <> [] /\ spells (cmd_items (fst x)) (snd x).
Lemma reads (q : xy numeral) (t : pystr) (l : list (pathcmd * pystr)) :
  good (Segs false (Move q) [], t) -> Forall good l ->
  parse_path (N:=ROps) (join_blank (t :: map snd l)) = (map tuple (drawing (Segs false (Move q) [] :: map fst l)), None).
Proof.
  intros (_ & G2) F. destruct (plain_path q [] (map fst l) (Forall_nil _) (Forall_nil _)) as [P1 P2].
  { apply Forall_map. eapply Forall_impl; [|exact F]. now intros x []. }
  destruct (cmds_written ((Segs false (Move q) [], t) :: l)) as (A & B & C); [constructor; [exact G2|]; eapply Forall_impl; [|exact F]; now intros x []|discriminate|].
  apply C53_parse_path; auto. exists [], (join_blank (t :: map snd l)). split; [constructor|]. split; [exact C|reflexivity].
Qed.
Lemma good_move n (v : Pt) : exists q, good (Segs false (Move q) [], fmt_move n v) /\ near_xy n (at_xy v) (Vxy q).
Proof.
  destruct (move_written n v) as (q & Q1 & Q2 & Q3). exists q. split; [|exact Q3]. split; [split; repeat constructor|]. split; [exact Q1|]. split; [discriminate|exact Q2].
Qed.
Lemma good_close : good (Close false, L "Z").
Proof.
  split; [split; exact Logic.I|]. split; [constructor; [unfold item_ok, is_letter; cbn; tauto|constructor]|]. split; [discriminate|]. apply (spells_one (Cmd "Z"%char)).
Qed.
Lemma good_lines n (ps : list Pt) : ps <> [] -> exists q qs, good (Segs false (Line q) (map (fun q => Line q) qs), join_blank (L "L" :: map (fmt_point n) ps)) /\
  Forall2 (near_xy n) (map at_xy ps) (map Vxy (q :: qs)).
Proof.
  intros NE. destruct (points_written n ps NE) as (qs & A & B & C & D). destruct qs as [|q1 qs]; [now destruct B|].
  exists q1, qs. split; [|exact D].
  assert (I2 : cmd_items (Segs false (Line q1) (map (fun q => Line q) qs)) = Cmd "L"%char :: flat_map xy_items (q1 :: qs)).
  { cbn [cmd_items letter flat_map]. now rewrite lines_items. }
  unfold good. cbn [fst snd]. rewrite I2. split; [split; [cbn [cmd_ok letter]; apply Forall_map, Forall_forall; reflexivity|]|].
  { constructor; [exact Logic.I|]. apply Forall_map, Forall_forall. intros; exact Logic.I. }
  split; [constructor; [unfold item_ok, is_letter; cbn; tauto|exact A]|]. split; [discriminate|].
  change (L "L" :: map (fmt_point n) ps) with ([L "L"] ++ map (fmt_point n) ps)%list.
  rewrite join_app by (first [discriminate|let Q := fresh in intros Q; apply map_eq_nil in Q; exact (NE Q)]).
  apply (spells_more [Cmd "L"%char]); [discriminate|exact B|apply (spells_one (Cmd "L"%char))|exact C].
Qed.
Lemma good_arc n (rx ry rot : R) large ccw (p : Pt) : exists x y z q,
  good (Segs false (Arc x y z large ccw q) [], fmt_arc (N:=ROps) n rx ry rot large ccw p) /\
  near_drawn n (DArc rx ry rot large ccw (at_xy p)) (DArc (V x) (V y) (V z) large ccw (Vxy q)).
Proof.
  destruct (point_written n (P rx ry)) as (r & R1 & R2 & R3). destruct (fmt_numeral n rot) as (z & Z1 & Z2 & Z3).
  destruct (point_written n p) as (q & Q1 & Q2 & Q3).
  exists (xx r), (yy r), z, q. split.
  - split; [split; repeat constructor|]. cbn [fst snd cmd_items flat_map seg_items letter]. rewrite app_nil_r.
    split; [constructor; [unfold item_ok, is_letter; cbn; tauto|]; inversion R1 as [|? ? R1a R1b]; subst; inversion R1b; subst; repeat (constructor; [assumption || exact Logic.I|]); exact Q1|].
    split; [discriminate|]. apply spells_cmd; [discriminate|].
    change ([Num (xx r); Num (yy r); Num z; Flag large; Flag ccw] ++ xy_items q)%list
      with (xy_items r ++ [Num z] ++ [Flag large] ++ [Flag ccw] ++ xy_items q)%list.
    apply spells_more; try discriminate; [exact R2|]. apply spells_more; try discriminate; [now apply spells_num|].
    apply spells_more; try discriminate; [apply flag_written|]. apply spells_more; try discriminate; [apply flag_written|exact Q2].
  - destruct R3 as [R3 R4]. cbn in R3, R4. repeat split; try assumption; apply Q3.
Qed.
Lemma good_curve n (a b p : Pt) : exists u v q, good (Segs false (Curve u v q) [], fmt_curve n a b p) /\
  near_drawn n (DCurve (at_xy a) (at_xy b) (at_xy p)) (DCurve (Vxy u) (Vxy v) (Vxy q)).
Proof.
  destruct (segment_written n (GCurve (Bz a a b p)) Logic.I) as (t & c & d & e & A1 & A2 & A3 & A4 & A5 & A6 & A7 & A8 & A9).
  destruct (point_written n a) as (u & U1 & U2 & U3). destruct (point_written n b) as (v & V1 & V2 & V3).
  destruct (point_written n p) as (q & Q1 & Q2 & Q3). clear - U1 U2 U3 V1 V2 V3 Q1 Q2 Q3.
  exists u, v, q. split; [|split; [exact U3|split; assumption]]. split; [split; repeat constructor|].
  cbn [fst snd cmd_items flat_map seg_items letter]. rewrite app_nil_r. split; [constructor; [unfold item_ok, is_letter; cbn; tauto|];
      apply Forall_app; split; [exact U1|]; apply Forall_app; split; assumption|].
  split; [discriminate|]. apply spells_cmd; [discriminate|].
  apply spells_more; try discriminate; [exact U2|]. apply spells_more; try discriminate; assumption.
Qed.
(** A polyline from [v] through the points [ps], closed or not. *)
Lemma polyline_written n (v : Pt) (ps : list Pt) (close : bool) : ps <> [] -> exists es,
  parse_path (N:=ROps) (join_blank (L "M" :: fmt_point n v :: L "L" :: map (fmt_point n) ps ++ (if close then [L "Z"] else []))) = (map tuple es, None) /\
  Forall2 (near_drawn n) (DMove (at_xy v) :: map (fun p => DLine (at_xy p)) ps ++ (if close then [DLine (at_xy v)] else [])) es.
Proof.
  intros NE. destruct (good_move n v) as (q & G1 & Q3). destruct (good_lines n ps NE) as (q1 & qs & G2 & D).
  set (fin := if close then [(Close false, L "Z")] else []).
  assert (F : Forall good ((Segs false (Line q1) (map (fun q => Line q) qs), join_blank (L "L" :: map (fmt_point n) ps)) :: fin)).
  { constructor; [exact G2|]. unfold fin. destruct close; repeat constructor; apply good_close. }
  pose proof (reads _ _ _ G1 F) as Q. eexists. split; [etransitivity; [|exact Q]|].
  - f_equal. unfold fin. cbn [map fst snd].
    change (L "M" :: fmt_point n v :: L "L" :: map (fmt_point n) ps ++ (if close then [L "Z"] else []))%list
      with ([L "M"; fmt_point n v] ++ ((L "L" :: map (fmt_point n) ps) ++ (if close then [L "Z"] else [])))%list.
    rewrite join_app by discriminate. change (join_blank [L "M"; fmt_point n v]) with (fmt_move n v).
    destruct close; [|now rewrite app_nil_r]. rewrite join_app by discriminate. reflexivity.
  - unfold drawing. cbn [map fst sem_path sem_cmd sem_segs sem_seg app]. constructor; [exact Q3|].
    match goal with |- context [sem_segs false (map _ qs) ?st] => destruct (lines_sem qs st) as (st' & S1 & S2); rewrite S2 end.
    cbn [start here place val] in S1. rewrite <- app_comm_cons.
    match goal with |- Forall2 _ _ (?h :: ?t ++ ?e) => change (h :: t ++ e) with (map (fun q => DLine (N:=ROps) (Vxy q)) (q1 :: qs) ++ e) end.
    apply Forall2_app.
    + clear - D. revert D. generalize (q1 :: qs). induction ps as [|p ps IH]; intros l D; destruct l as [|q l]; inversion D; subst; constructor; auto.
    + unfold fin. destruct close; cbn [map fst sem_path sem_cmd app]; [|constructor]. constructor; [|constructor]. rewrite S1. exact Q3.
Qed.

Section C137.
  Context {E : Epsilon ROps}.
  (** create_polygon: the vertices in order, back to the first one if asked to and it is not there already, and
      the closing line of the Z command. *)
  Definition polygon_points (vs : list Pt) (close_polygon : bool) : list Pt :=
    match vs with [] => [] | v :: r => r ++ (if close_polygon && negb (peq v (last vs v)) then [v] else []) end.
  Theorem C137_polygon n (v w : Pt) (vs : list Pt) (close_polygon close_path : bool) :
    exists s es, polygon_data n (v :: w :: vs) close_polygon close_path = Some s /\ parse_path s = (map tuple es, None) /\
      Forall2 (near_drawn n)
        (DMove (at_xy v) :: map (fun p => DLine (at_xy p)) (polygon_points (v :: w :: vs) close_polygon) ++ (if close_path then [DLine (at_xy v)] else [])) es.
  Proof.
    destruct (polyline_written n v (polygon_points (v :: w :: vs) close_polygon) close_path) as (es & A & B); [discriminate|].
    eexists _, es. split; [|split; [exact A|exact B]].
    unfold polygon_data, polygon_points. do 5 f_equal. rewrite map_app, <- app_assoc. cbn [map]. do 2 f_equal.
    destruct (close_polygon && negb (peq v (last (v :: w :: vs) v))); reflexivity.
  Qed.
End C137.
(** create_line: from the first point to the second. *)
Theorem C137_line n (a b : Pt) : exists es, parse_path (N:=ROps) (line_data n a b) = (map tuple es, None) /\
  Forall2 (near_drawn n) [DMove (at_xy a); DLine (at_xy b)] es.
Proof.
  destruct (polyline_written n a [b] false) as (es & A & B); [discriminate|]. exists es. split; [|exact B].
  rewrite <- A. reflexivity.
Qed.
(** create_curve: the curve with the given control points. *)
Theorem C137_curve n (a c1 c2 b : Pt) : exists es, parse_path (N:=ROps) (curve_data n a c1 c2 b) = (map tuple es, None) /\
  Forall2 (near_drawn n) [DMove (at_xy a); DCurve (at_xy c1) (at_xy c2) (at_xy b)] es.
Proof.
  destruct (good_move n a) as (q & G1 & Q3). destruct (good_curve n c1 c2 b) as (u & v & w & G2 & Q4).
  eexists. split; [exact (reads _ _ _ G1 (Forall_cons _ G2 (Forall_nil _)))|]. constructor; [exact Q3|]. constructor; [exact Q4|constructor].
Qed.
(** create_circular_arc: an arc of the given radius and direction, always the one of at most half a turn. *)
Theorem C137_circular_arc n (a b : Pt) (r : R) (ccw : bool) : exists es, parse_path (N:=ROps) (circular_arc_data (N:=ROps) n a b r ccw) = (map tuple es, None) /\
  Forall2 (near_drawn n) [DMove (at_xy a); DArc r r 0 false ccw (at_xy b)] es.
Proof.
  destruct (good_move n a) as (q & G1 & Q3). destruct (good_arc n r r 0 false ccw b) as (x & y & z & w & G2 & Q4).
  eexists. split; [exact (reads _ _ _ G1 (Forall_cons _ G2 (Forall_nil _)))|]. constructor; [exact Q3|]. constructor; [exact Q4|constructor].
Qed.
(** create_ellipse: two arcs with the given radii between the ends of the first axis, which lies at [angle];
    the rotation is [angle] in degrees, reduced to less than a turn. *)
Theorem C137_ellipse n (c : Pt) (rx ry angle : R) : exists es rot (k : Z), parse_path (N:=ROps) (ellipse_data (N:=ROps) n c rx ry angle) = (map tuple es, None) /\
  0 <= rot < 360 /\ rot = angle * (180 / PI) + IZR k * 360 /\
  let a := XY (px c + rx * cos angle) (py c + rx * sin angle) in let b := XY (px c - rx * cos angle) (py c - rx * sin angle) in
  Forall2 (near_drawn n) [DMove a; DArc rx ry rot false true b; DArc rx ry rot false true a] es.
Proof.
  set (k := Zfloor (angle / (2 * PI))). set (an := angle - (2 * PI) * IZR k).
  pose proof PI_RGT_0 as HP. pose proof (Zfloor_spec (angle / (2 * PI))) as [K1 K2]. fold k in K1, K2.
  assert (QA : angle = angle / (2 * PI) * (2 * PI)) by (field; lra).
  assert (0 <= an < 2 * PI) as HA by (unfold an; split; rewrite QA at 1; nra).
  assert (Cs : cos an = cos angle). { unfold an. replace angle with (angle - 2 * PI * IZR k + 2 * IZR k * PI) at 2 by ring.
    destruct k as [|p|p]; [f_equal; ring| |].
    - rewrite <- (positive_nat_Z p), <- INR_IZR_INZ. now rewrite cos_period.
    - change (IZR (Z.neg p)) with (- IZR (Z.pos p)). rewrite <- (positive_nat_Z p), <- INR_IZR_INZ.
      rewrite <- (cos_period (angle - 2 * PI * - INR (Pos.to_nat p) + 2 * - INR (Pos.to_nat p) * PI) (Pos.to_nat p)). f_equal. ring. }
  assert (Sn : sin an = sin angle). { unfold an. replace angle with (angle - 2 * PI * IZR k + 2 * IZR k * PI) at 2 by ring.
    destruct k as [|p|p]; [f_equal; ring| |].
    - rewrite <- (positive_nat_Z p), <- INR_IZR_INZ. now rewrite sin_period.
    - change (IZR (Z.neg p)) with (- IZR (Z.pos p)). rewrite <- (positive_nat_Z p), <- INR_IZR_INZ.
      rewrite <- (sin_period (angle - 2 * PI * - INR (Pos.to_nat p) + 2 * - INR (Pos.to_nat p) * PI) (Pos.to_nat p)). f_equal. ring. }
  set (a := P (rx * cos an + px c) (rx * sin an + py c) : Pt). set (b := P (rx * cos (an + PI) + px c) (rx * sin (an + PI) + py c) : Pt).
  set (rot := an * (180 / PI)).
  destruct (good_move n a) as (q & G1 & Q1). destruct (good_arc n rx ry rot false true b) as (x & y & z & w & G2 & Q2).
  destruct (good_arc n rx ry rot false true a) as (x' & y' & z' & w' & G3 & Q3).
  eexists _, rot, (- k)%Z. split; [exact (reads _ _ _ G1 (Forall_cons _ G2 (Forall_cons _ G3 (Forall_nil _))))|].
  split; [|split].
  - unfold rot. assert (0 < 180 / PI) by (apply Rdiv_lt_0_compat; lra). split; [apply Rmult_le_pos; lra|].
    replace 360 with (2 * PI * (180 / PI)) by (field; lra). apply Rmult_lt_compat_r; lra.
  - unfold rot, an. rewrite opp_IZR. field. lra.
  - cbv zeta. replace (XY (px c + rx * cos angle) (py c + rx * sin angle)) with (at_xy a) by (unfold at_xy, a; cbn [px py]; rewrite Cs, Sn; f_equal; ring).
    replace (XY (px c - rx * cos angle) (py c - rx * sin angle)) with (at_xy b) by (unfold at_xy, b; cbn [px py]; rewrite neg_cos, neg_sin, Cs, Sn; f_equal; ring).
    constructor; [exact Q1|]. constructor; [exact Q2|]. constructor; [exact Q3|constructor].
Qed.
(** ** C138: the to_svg_path methods, six digits. *)
Lemma two_written (p : Pt) : exists q, Forall item_ok (xy_items q) /\ spells (xy_items q) (two p) /\ near_xy 6 (at_xy p) (Vxy q).
Proof.
  destruct (fmt_numeral 6 (px p)) as (a & A1 & A2 & A3). destruct (fmt_numeral 6 (py p)) as (b & B1 & B2 & B3).
  exists (XY a b). split; [unfold xy_items; cbn [xx yy]; constructor; [exact A1|]; constructor; [exact B1|]; constructor|]. split; [|split; assumption].
  unfold two. rewrite A2, B2. apply (spells_more [Num a] [Num b]); try discriminate; now apply spells_num.
Qed.
Lemma good_move2 (v : Pt) : exists q, good (Segs false (Move q) [], L "M " ++ two v)%list /\ near_xy 6 (at_xy v) (Vxy q).
Proof.
  destruct (two_written v) as (q & Q1 & Q2 & Q3). exists q. split; [|exact Q3]. split; [split; repeat constructor|].
  cbn [fst snd cmd_items flat_map seg_items letter]. rewrite app_nil_r.
  split; [constructor; [unfold item_ok, is_letter; cbn; tauto|exact Q1]|]. split; [discriminate|]. apply (spells_cmd "M"%char); [discriminate|exact Q2].
Qed.
Theorem C138_line_svg_path (l : Line_) : exists es, parse_path (N:=ROps) (line_svg_path l) = (map tuple es, None) /\
  Forall2 (near_drawn 6) [DMove (at_xy (p1 l)); DLine (at_xy (p2 l))] es.
Proof.
  destruct (good_move2 (p1 l)) as (q & G1 & Q3). destruct (two_written (p2 l)) as (w & W1 & W2 & W3).
  assert (G2 : good (Segs false (Line w) [], L "L " ++ two (p2 l))%list).
  { split; [split; repeat constructor|]. cbn [fst snd cmd_items flat_map seg_items letter]. rewrite app_nil_r.
    split; [constructor; [unfold item_ok, is_letter; cbn; tauto|exact W1]|]. split; [discriminate|]. apply (spells_cmd "L"%char); [discriminate|exact W2]. }
  eexists. split.
  - pose proof (reads _ _ _ G1 (Forall_cons _ G2 (Forall_nil _))) as Q. exact Q.
  - constructor; [exact Q3|]; constructor; [exact W3|constructor].
Qed.
Theorem C138_curve_svg_path (b : Bez) : exists es, parse_path (N:=ROps) (bezier_svg_path b) = (map tuple es, None) /\
  Forall2 (near_drawn 6) [DMove (at_xy (z1 b)); DCurve (at_xy (k1 b)) (at_xy (k2 b)) (at_xy (z2 b))] es.
Proof.
  destruct (good_move2 (z1 b)) as (q & G1 & Q3). destruct (two_written (k1 b)) as (u & U1 & U2 & U3). destruct (two_written (k2 b)) as (v & V1 & V2 & V3).
  destruct (two_written (z2 b)) as (w & W1 & W2 & W3).
  assert (G2 : good (Segs false (Curve u v w) [], L "C " ++ two (k1 b) ++ " "%char :: two (k2 b) ++ " "%char :: two (z2 b))%list).
  { split; [split; repeat constructor|]. cbn [fst snd cmd_items flat_map seg_items letter]. rewrite app_nil_r. split; [constructor; [unfold item_ok, is_letter; cbn; tauto|];
      apply Forall_app; split; [exact U1|]; apply Forall_app; split; assumption|].
    split; [discriminate|]. apply (spells_cmd "C"%char); [discriminate|].
    apply spells_more; try discriminate; [exact U2|]. apply spells_more; try discriminate; assumption. }
  eexists. split.
  - pose proof (reads _ _ _ G1 (Forall_cons _ G2 (Forall_nil _))) as Q. exact Q.
  - constructor; [exact Q3|]; constructor; [split; [exact U3|split; [exact V3|exact W3]]|constructor].
Qed.
(** Arc.to_svg_path: for an arc of at most half a turn, the command that draws it. *)
Theorem C138_arc_svg_path_partial (a : Arc_) : Rabs (sweep a) <= PI -> exists es d, parse_path (N:=ROps) (arc_svg_path a) = (map tuple es, None) /\
  drawn_as (GArc a) d /\ Forall2 (near_drawn 6) [DMove (at_xy (ap1 a)); d] es.
Proof.
  intros Hs. destruct (good_move2 (ap1 a)) as (q & G1 & Q3). destruct (fmt_numeral 6 (radius a)) as (r & R1 & R2 & R3).
  destruct (two_written (ap2 a)) as (w & W1 & W2 & W3).
  set (z := Numeral NoSign [D0] (Some [D0]) None). set (ccw := negb (Rltb (sweep a) 0)).
  assert (Z1 : V z = 0) by (unfold V, numeral_value, z; cbn; lra).
  assert (G2 : good (Segs false (Arc r r z false ccw w) [],
    L "A " ++ fmt_float (N:=ROps) 6 (radius a) ++ " "%char :: fmt_float (N:=ROps) 6 (radius a) ++ L " 0.0 0 " ++ fmt_flag ccw ++ " "%char :: two (ap2 a))%list).
  { split; [split; repeat constructor|]. cbn [fst snd cmd_items flat_map seg_items letter]. rewrite app_nil_r.
    split; [constructor; [unfold item_ok, is_letter; cbn; tauto|]; constructor; [exact R1|]; constructor; [exact R1|]; constructor; [|constructor; [exact Logic.I|constructor; [exact Logic.I|exact W1]]]|].
    { split; [discriminate|exact Logic.I]. }
    split; [discriminate|]. apply (spells_cmd "A"%char); [discriminate|].
    change ([Num r; Num r; Num z; Flag false; Flag ccw] ++ xy_items w)%list with ([Num r] ++ [Num r] ++ [Num z] ++ [Flag false] ++ [Flag ccw] ++ xy_items w)%list.
    apply spells_more; try discriminate; [now apply spells_num|]. apply spells_more; try discriminate; [now apply spells_num|].
    change (spells ([Num z] ++ [Flag false] ++ [Flag ccw] ++ xy_items w) (L "0.0" ++ " "%char :: fmt_flag false ++ " "%char :: fmt_flag ccw ++ " "%char :: two (ap2 a))).
    apply spells_more; try discriminate; [now apply spells_num|].
    apply spells_more; try discriminate; [apply flag_written|]. apply spells_more; try discriminate; [apply flag_written|exact W2]. }
  eexists _, (DArc (radius a) (radius a) 0 false ccw (at_xy (ap2 a))). split; [|split].
  - pose proof (reads _ _ _ G1 (Forall_cons _ G2 (Forall_nil _))) as Q. exact Q.
  - exists false, ccw. split; [reflexivity|]. split; [split; [discriminate|intros Hl; exfalso; apply (Rlt_not_le _ _ Hl), Hs]|].
    unfold ccw. rewrite negb_true_iff, Rltb_false. reflexivity.
  - unfold drawing. cbn [map fst sem_path sem_cmd sem_segs sem_seg app]. constructor; [exact Q3|]. constructor; [|constructor].
    repeat (split; [exact R3|]). split; [|split; [reflexivity|split; [reflexivity|exact W3]]].
    change (numeral_value z) with (V z). unfold near. rewrite Z1, Rminus_0_r, Rabs_R0. assert (0 < 10 ^ 6) by (apply pow_lt; lra). assert (0 < / 10 ^ 6) by now apply Rinv_0_lt_compat. lra.
Qed.
(** An arc of more than half a turn is written as the short one. *)
Theorem C138_arc_svg_path_refuted (a : Arc_) : PI < Rabs (sweep a) ->
  exists p r1 r2 rot ccw q, parse_path (N:=ROps) (arc_svg_path a) = (map tuple [DMove p; DArc r1 r2 rot false ccw q], None) /\
    forall d, drawn_as (GArc a) d -> ~ near_drawn 6 d (DArc r1 r2 rot false ccw q).
Proof.
  intros Ha.
  set (a' := mkarc (ap1 a) (ap2 a) (radius a) (if Rltb (sweep a) 0 then - (1) else 1) (center a) : Arc_).
  assert (Q : arc_svg_path a = arc_svg_path a').
  { unfold arc_svg_path. cbn [radius ap2 sweep ap1 a'].
    replace (@Num.ltb ROps (if Rltb (sweep a) 0 then - (1) else 1) (of_Z 0)) with (@Num.ltb ROps (sweep a) (of_Z 0)); [reflexivity|].
    change (Rltb (sweep a) 0 = Rltb (if Rltb (sweep a) 0 then - (1) else 1) 0). symmetry. destruct (Rltb (sweep a) 0); [apply Rltb_true|apply Rltb_false]; lra. }
  destruct (C138_arc_svg_path_partial a') as (es & d & A & (large & ccw & -> & B & _) & C).
  { cbn [sweep a']. pose proof PI_RGT_0. pose proof PI2_1. destruct (Rltb (sweep a) 0); [rewrite Rabs_Ropp|]; rewrite Rabs_R1; lra. }
  inversion C as [|? e0 ? r0 C1 C2]; subst. inversion C2 as [|? e1 ? r1 C3 C4]; subst. inversion C4; subst.
  destruct e0 as [p| | | |]; try contradiction C1. destruct e1 as [| | | |x y z l c w]; try contradiction C3. destruct C3 as (K1 & K2 & K3 & <- & <- & K4).
  assert (large = false) as ->.
  { destruct large; [|reflexivity]. destruct B as [B _]. specialize (B eq_refl). cbn [sweep a'] in B. pose proof PI2_1.
    destruct (Rltb (sweep a) 0); [rewrite Rabs_Ropp in B|]; rewrite Rabs_R1 in B; lra. }
  exists p, x, y, z, ccw, w. split; [rewrite Q; exact A|]. intros d (l & c & -> & Hl & _) (_ & _ & _ & Nl & _). subst l. destruct Hl as [_ Hl]. now specialize (Hl Ha).
Qed.
(** A square of side 1/3, written with two digits and closed: five commands. *)
Example C137_example : exists s es, polygon_data (N:=ROps) (E:=eps6) 2 [P 0 0; P (1/3) 0; P (1/3) (1/3); P 0 (1/3)] true true = Some s /\
  parse_path (N:=ROps) s = (map tuple es, None) /\ List.length es = 6%nat.
Proof.
  destruct (@C137_polygon eps6 2 (P 0 0) (P (1/3) 0) [P (1/3) (1/3); P 0 (1/3)] true true) as (s & es & A & B & C).
  exists s, es. split; [exact A|]. split; [exact B|].
  assert (List.length es = List.length (DMove (N:=ROps) (at_xy (P 0 0)) :: map (fun p => DLine (at_xy p)) (@polygon_points eps6 [P 0 0; P (1/3) 0; P (1/3) (1/3); P 0 (1/3)] true) ++ [DLine (at_xy (P 0 0))])) as Q.
  { clear - C. induction C; [reflexivity|]. cbn [List.length]. now rewrite IHC. }
  rewrite Q. unfold polygon_points. cbn [last app].
  assert (@peq ROps eps6 (P 0 0) (P 0 (1/3)) = false) as ->; [|reflexivity].
  apply Rltb_false. unfold peq, EPS, eps6; cbn; lra.
Qed.
