(** * PropsLineExt: the general equation of a line and the intersection test (C179).  Over R. *)
From Verif Require Import Num NumR Geom GeomR GeomSpec GeomProofs LineExt.
From Coq Require Import ZArith Reals Lra Lia Bool List.
Local Open Scope R_scope.

(** The coefficients: a point is on the line exactly if a x + b y + c = 0, and on its left exactly if that is positive. *)
Theorem C179_coefficients_partial (l : Line_) : p1 l <> p2 l -> forall a b c : R, general_coefficients l = (a, b, c) ->
  forall q : Pt, (on_line l q <-> a * px q + b * py q + c = 0) /\ a * px q + b * py q + c = side l q.
Proof.
  intros D a b c E q. destruct l as [[x1 y1] [x2 y2]]. destruct q as [x y]. unfold general_coefficients, cross in E. cbn [p1 p2 px py] in *.
  change (T ROps) with R in *. injection E as <- <- <-. rnum.
  assert (S : (y1 - y2) * x + (x2 - x1) * y + (x1 * y2 - x2 * y1) = (x2 - x1) * (y - y1) - (y2 - y1) * (x - x1)) by ring.
  split; [|exact S]. unfold on_line, at_param. cbn [p1 p2 px py]. split.
  - intros (u & Q). injection Q as -> ->. rnum. ring.
  - intros Q. rewrite S in Q. clear S.
    destruct (Req_dec x1 x2) as [X|X].
    + assert (Y : y2 - y1 <> 0) by (intros Y; apply D; f_equal; lra). exists ((y - y1) / (y2 - y1)). f_equal.
      * rewrite X in *. assert (W : (y2 - y1) * (x - x2) = 0) by lra. apply Rmult_integral in W. destruct W as [W|W]; [contradiction|]. lra.
      * field. exact Y.
    + assert (Y : x2 - x1 <> 0) by lra. exists ((x - x1) / (x2 - x1)). f_equal.
      * field. exact Y.
      * apply (Rmult_eq_reg_l (x2 - x1)); [|exact Y]. transitivity ((x2 - x1) * (y - y1) + (x2 - x1) * y1); [ring|].
        replace ((x2 - x1) * (y - y1)) with ((y2 - y1) * (x - x1)) by lra. field. exact Y.
Qed.
(** But the call never returns them, and the intersection test never answers. *)
Theorem C179_general_equation_refuted (l : Line_) : general_equation l = Raise TypeError.
Proof. reflexivity. Qed.
Theorem C179_intersects_refuted (l o : Line_) segment : line_intersects l o segment = Raise AttributeError.
Proof. reflexivity. Qed.
Example C179_example : p1 (Ln (P 0 1) (P 2 2) : Line_) <> p2 (Ln (P 0 1) (P 2 2) : Line_) /\ on_line (Ln (P 0 1) (P 2 2)) (P 4 3) /\
  general_coefficients (N:=ROps) (Ln (P 0 1) (P 2 2)) = (1 - 2, 2 - 0, 0 * 2 - 2 * 1).
Proof.
  split; [intros Q; injection Q as Q _; lra|]. split; [|reflexivity]. exists 2. unfold at_param. cbn [p1 p2 px py]. rnum. f_equal; lra.
Qed.
