(** * PropsSineWave: the sine wave extension, from its options to the document (C175).  Specification: [InkSpec], [SvgOutSpec], [PropsInk3],
    [PropsInkFlip] and the statement below; the curves of the wave are characterized by C71. *)
From Verif Require Import Num NumR Str Geom GeomR GeomSpec Bezier BezierSpec Svg SvgSpec SvgProofs SvgDoc SvgDocSpec SvgDocProofs SvgDocProofs2 GeomSvg GeomSvgSpec SvgOut SvgOutSpec PropsSvgOut PropsBezier Css Ink InkSpec InkProofs PropsInk PropsInk3 PropsInkFlip SineWave.
From Coq Require Import String Ascii ZArith NArith List Bool Lia Reals Lra.
Import ListNotations.
Local Open Scope R_scope.

(** every object of the document differs from a new one *)
Definition unused (u : nat) (doc : xml) : Prop := forall ups n, at_node doc ups n -> x_uid n <> u.
Lemma unused_kids u n : ~ In u (map (fun c => x_uid (snd c)) (walk [] n)) -> forall k, add_child u k n = n.
Proof.
  assert (G : forall n ups, ~ In u (map (fun c => x_uid (snd c)) (walk ups n)) -> forall k, add_child u k n = n); [|exact (G n [])]. clear n.
  induction n as [v t a l IH] using xml_ind'. intros ups H k. rewrite walk_eq in H. cbn [map snd x_uid x_kids] in H. cbn [add_child].
  destruct (Nat.eqb u v) eqn:Q; [apply Nat.eqb_eq in Q; subst v; exfalso; apply H; left; reflexivity|]. f_equal.
  transitivity (map (fun n => n) l); [|apply map_id]. apply map_ext_in. intros c Hc. rewrite Forall_forall in IH. apply (IH c Hc (Xml v t a l :: ups)).
  intros I0. apply H. right. unfold kids_walk. apply in_map_iff in I0 as (d & D1 & D2). apply in_map_iff. exists d. split; [exact D1|]. apply in_flat_map. exists c. auto.
Qed.
Lemma unused_walk u doc : unused u doc -> ~ In u (map (fun c => x_uid (snd c)) (walk [] doc)).
Proof.
  intros H I0. apply in_map_iff in I0 as ([ups n] & E & I0). apply (H ups n); [exact (walk_at doc [] doc (at_root doc) _ I0)|exact E].
Qed.
Lemma add_last u k doc t a l : unused u doc -> add_child u k (append_kid doc (Xml u t a l)) = append_kid doc (Xml u t a (l ++ [k])).
Proof.
  intros H. destruct doc as [v t' a' m]. cbn [append_kid add_child]. assert (Nv : v <> u) by (apply (H [] (Xml v t' a' m)); constructor).
  destruct (Nat.eqb u v) eqn:Q; [apply Nat.eqb_eq in Q; congruence|]. f_equal. rewrite map_app. f_equal.
  - transitivity (map (fun n => n) m); [|apply map_id]. apply map_ext_in. intros c Hc. apply unused_kids. intros I0.
    apply (unused_walk u _ H). rewrite walk_eq. cbn [map x_kids]. right. unfold kids_walk.
    assert (Wm : forall n r1 r2, map (fun c => x_uid (snd c)) (walk r1 n) = map (fun c => x_uid (snd c)) (walk r2 n)).
    { clear. induction n as [u t a k IH] using xml_ind'. intros r1 r2. rewrite !walk_eq. cbn [map snd x_kids]. f_equal. unfold kids_walk.
      rewrite !flat_map_concat_map, !concat_map, !map_map. f_equal. apply map_ext_in. intros c Hc. rewrite Forall_forall in IH. apply IH, Hc. }
    rewrite (Wm c [] [Xml v t' a' m]) in I0. apply in_map_iff in I0 as (d & D1 & D2). apply in_map_iff. exists d. split; [exact D1|]. apply in_flat_map. exists c. auto.
  - cbn [map add_child]. now rewrite Nat.eqb_refl.
Qed.
(** a chain of curves *)
Lemma chain_chained (l : list Bez) : forall s e, bez_chain l s e -> chained (map (fun q => GCurve q) l) /\ match l with [] => True | q :: _ => z1 q = s end.
Proof.
  induction l as [|q l IH]; intros s e H; [split; exact Logic.I|]. destruct H as [H1 H2]. split; [|exact H1]. destruct (IH _ _ H2) as [C1 C2].
  destruct l as [|q' l]; [exact Logic.I|]. cbn [map]. split; [symmetry; exact C2|exact C1].
Qed.

(** ** C175: the extension adds one layer at the end of the document and changes nothing else of it; the layer has the name 'sine wave', is
    flipped about the height of the view (see C126), and contains one path, whose attribute, read back, is the wave: 4 * cycles curves that
    follow each other from the origin point over cycles * wavelength, each of their points up to half a unit of the last decimal.  Without
    cycles the layer is empty. *)
Definition sine_layer (l : xml) (u : nat) (h H : R) : Prop :=
  x_uid l = u /\ has l label (text "sine wave") /\ has l "{http://www.inkscape.org/namespaces/inkscape}groupmode" (text "layer") /\
  flips l h /\ Rabs (h - H) <= H / 199999 /\ (forall z k, (z < 1000000)%Z -> (k <= 9)%nat -> H = IZR z / 10 ^ k -> h = H).
Section C175.
  Context {E : Epsilon ROps}.
  Hypothesis He : 0 < EPS.
  Theorem C175_sine_wave n doc u v H style (amplitude wavelength : R) (cycles : nat) (origin : GeomSpec.Pt) :
    proper_doc doc -> no_layer doc (text "sine wave") -> unused u doc -> 1 / 10000 <= H -> H < 999999 ->
    exists doc' l h, sinewave n doc u v H style amplitude wavelength cycles origin = Ok doc' /\ appended doc l doc' /\ sine_layer l u h H /\
      match cycles with
      | O => x_kids l = []
      | _ => exists p d gs wave, x_kids l = [p] /\ x_uid p = v /\ x_tag p = Some (text ("{" ++ svg_uri ++ "}path")) /\ x_kids p = [] /\
          has p "d" d /\ has p "style" style /\ parse_path_geom d false = Ok [gs] /\
          wave = bezier_sine_wave amplitude wavelength cycles origin /\ List.length wave = (4 * cycles)%nat /\
          bez_chain wave origin (P (px origin + INR cycles * wavelength) (py origin)) /\
          Forall2 (near_along n) (map (fun q => GCurve q) wave) gs
      end.
  Proof.
    intros W NL Hu H1 H2.
    destruct (C126_flip doc u (text "sine wave") None true true None H W NL H1 H2) as (doc' & l & h & C & A & Nl & Fl & B1 & B2).
    destruct (C71_sine_wave amplitude wavelength cycles origin) as (L1 & Ch). set (wave := bezier_sine_wave amplitude wavelength cycles origin) in *.
    destruct (chain_chained _ _ _ Ch) as (Chd & _). unfold sinewave. match goal with |- context [create_layer ?a ?b ?c ?d ?e ?f ?g ?h] => match type of C with ?x = _ => change (create_layer a b c d e f g h) with x end end. rewrite C. cbn [rbind]. fold wave.
    destruct Nl as (Nu & Nk & Nlab & Ng & _). destruct l as [lu lt la lk]. cbn [x_uid x_kids] in Nu, Nk. subst lu lk.
    assert (Ad : doc' = append_kid doc (Xml u lt la [])).
    { destruct A as (A1 & A2 & A3 & A4), doc as [du dt da dk], doc' as [eu et ea ek]. cbn in A1, A2, A3, A4 |- *. congruence. }
    assert (SL : forall k, sine_layer (Xml u lt la k) u h H).
    { intros k. split; [reflexivity|]. split; [exact Nlab|]. split; [exact Ng|]. split; [exact Fl|]. split; [exact B1|exact B2]. }
    unfold create_polypath. destruct wave as [|q wave'] eqn:Ew.
    - destruct cycles; [|cbn in L1; lia]. cbn [map]. exists doc', (Xml u lt la []), h. split; [reflexivity|]. split; [exact A|]. split; [apply SL|reflexivity].
    - rewrite <- Ew in *.
      assert (NE : map (fun q => GCurve q) wave <> []) by (rewrite Ew; discriminate).
      assert (SC : Forall straight_or_curved (map (fun q => GCurve q) wave)) by (apply Forall_forall; intros g Hg; apply in_map_iff in Hg as (x & <- & _); exact Logic.I).
      destruct (C136_read_back He n _ false false NE SC Chd) as (d & gs & D1 & D2 & D3). rewrite D1. cbn [rmap].
      set (p := Xml v (Some (L (SVG_NS ++ "path"))) [(L "d", d); (L "style", style)] []).
      assert (F : with_closing (map (fun q => GCurve q) wave) false = map (fun q => GCurve q) wave) by (rewrite Ew; cbn [map with_closing]; apply app_nil_r).
      rewrite F in D3. exists (append_kid doc (Xml u lt la [p])), (Xml u lt la [p]), h.
      split; [unfold create_path; fold p; cbn [x_uid]; rewrite Ad; f_equal; apply (add_last u p doc lt la [] Hu)|]. split; [apply append_appended|]. split; [apply SL|].
      destruct cycles; [rewrite Ew in L1; discriminate L1|]. exists p, d, gs, wave. repeat (split; [first [reflexivity|assumption|left; reflexivity|right; left; reflexivity]|]). exact D3.
  Qed.
End C175.
Example C175_example : proper_doc layered /\ no_layer layered (text "sine wave") /\ unused 9 layered /\ 1 / 10000 <= 744.094 < 999999.
Proof.
  split; [|split; [|split; [|lra]]].
  - intros ups n A. nodes A; unfold proper; cbn; repeat constructor; cbn; intuition discriminate.
  - intros ups n A [_ H]. nodes A; unfold has in H; cbn in H; intuition discriminate.
  - intros ups n A. nodes A; cbn; lia.
Qed.
