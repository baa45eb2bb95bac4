(** * PreviewSpec: what the preview of a program should show.
    Shared with the model: the recorded plotter calls ([plot_event]) and the drawn elements ([element]). *)
From Verif Require Import Num NumR Geom GeomSpec Gcode Preview.
From Coq Require Import ZArith Reals List Bool.
Import ListNotations.
Local Open Scope R_scope.

(** ** The tool path *)
(** Rapid moves, straight cuts and circular cuts (start, end, radius, counter-clockwise). *)
Inductive stroke := Travel (a b : Pt) | Cut (a b : Pt) | Bend (a b : Pt) (r : R) (ccw : bool).
(** The strokes of the motion calls [es] made with the tool at [from]: each one begins where the previous call
    ended; a feed that moves X, Y by at most [eps] shows nothing. *)
Inductive shown (eps : R) : Pt -> list (plot_event ROps) -> list stroke -> Prop :=
| shown_nil p : shown eps p [] []
| shown_move p x y z a es l : shown eps (P x y) es l -> shown eps p (PlotMove (Some x) (Some y) z a :: es) (Travel p (P x y) :: l)
| shown_feed p x y z a es l : eps < euclid p (P x y) -> shown eps (P x y) es l ->
    shown eps p (PlotFeed (Some x) (Some y) z a :: es) (Cut p (P x y) :: l)
| shown_still p x y z a es l : euclid p (P x y) <= eps -> shown eps (P x y) es l ->
    shown eps p (PlotFeed (Some x) (Some y) z a :: es) l
| shown_arc p cx cy x y z a cw es l : shown eps (P x y) es l ->
    shown eps p (PlotArc cx cy (Some x) (Some y) z a cw :: es) (Bend p (P x y) (euclid (P cx cy) p) (negb cw) :: l)
| shown_down p es l : shown eps p es l -> shown eps p (PlotDown :: es) l
| shown_up p es l : shown eps p es l -> shown eps p (PlotUp :: es) l.

Definition layer_of (e : element ROps) : layer := match e with ELine l _ _ _ => l | EArc l _ _ _ _ _ => l | EPath l _ _ => l end.
Definition on_layer (ly : layer) (l : list (element ROps)) : list (element ROps) :=
  filter (fun e => match ly, layer_of e with PathLayer, PathLayer | ToolLayer, ToolLayer | DebugLayer, DebugLayer => true | _, _ => false end) l.
Definition stroke_element (k : stroke) : element ROps :=
  match k with
  | Travel a b => ELine PathLayer Moveline a b
  | Cut a b => ELine PathLayer Feedline a b
  | Bend a b r f => EArc PathLayer Feedarc a b r f
  end.

(** ** Tool marks *)
(** The mark of a tool of width [w], trailing the spindle by [off], at [p] with the tool turned to [angle]. *)
Definition trailing (off angle : R) (p : Pt) : Pt := P (px p - off * cos angle) (py p - off * sin angle).
Definition blade (w angle : R) (q : Pt) : Line_ :=
  Ln (P (px q - w / 2 * sin angle) (py q + w / 2 * cos angle)) (P (px q + w / 2 * sin angle) (py q - w / 2 * cos angle)).
(** The place of a segment at fraction [u]. *)
Definition along (sg : seg ROps) (u : R) : Pt :=
  match sg with SLine l => at_param l u | SArc a => turned (center a) (u * sweep a) (ap1 a) end.
Definition seg_length (sg : seg ROps) : R := match sg with SLine l => seg_len l | SArc a => Rabs (sweep a) * radius a end.

(** Every motion call gives X and Y, and the angle where [need_a]. *)
Definition placed (need_a : bool) (e : plot_event ROps) : Prop :=
  match e with
  | PlotMove x y _ a | PlotFeed x y _ a | PlotArc _ _ x y _ a _ => x <> None /\ y <> None /\ (need_a = true -> a <> None)
  | PlotDown | PlotUp => True
  end.
(** The [i]-th of the marks of a segment passed in [n] equal steps while the tool turns from [a] to [b]. *)
Record mark := mkmark { m_spindle : Pt; m_tool : Pt; m_blade : Line_ }.
Definition ith_mark (w off : R) (sg : seg ROps) (a b : R) (n i : nat) : mark :=
  let angle := a + INR i / INR n * (b - a) in
  let p := along sg (INR i / INR n) in
  let q := trailing off angle p in mkmark p q (blade w angle q).
Definition marks_of (w off : R) (sg : seg ROps) (a b : R) (n : nat) : list mark := map (ith_mark w off sg a b n) (seq 0 (S n)).
(** What is drawn for a list of marks: the spindle-to-tool lines if there is a trail, and every mark that is not
    within [eps] of the one before it. *)
Inductive mark_lines (trail : bool) (eps : R) : option Line_ -> list mark -> list (element ROps) -> Prop :=
| ml_nil o : mark_lines trail eps o [] []
| ml_new o m r es : (forall l, o = Some l -> ~ (euclid (p1 (m_blade m)) (p1 l) < eps /\ euclid (p2 (m_blade m)) (p2 l) < eps)) ->
    mark_lines trail eps (Some (m_blade m)) r es ->
    mark_lines trail eps o (m :: r) ((if trail then [ELine ToolLayer Tooloffset (m_spindle m) (m_tool m)] else []) ++
      [ELine ToolLayer Toolmark (p1 (m_blade m)) (p2 (m_blade m))] ++ es)
| ml_same l m r es : euclid (p1 (m_blade m)) (p1 l) < eps -> euclid (p2 (m_blade m)) (p2 l) < eps ->
    mark_lines trail eps (Some (m_blade m)) r es ->
    mark_lines trail eps (Some l) (m :: r) ((if trail then [ELine ToolLayer Tooloffset (m_spindle m) (m_tool m)] else []) ++ es).

(** ** Chains of lines *)
Fixpoint chain (p : Pt) (l : list Line_) (q : Pt) : Prop :=
  match l with [] => p = q | x :: r => p1 x = p /\ chain (p2 x) r q end.
