(** * GraphR: the [geo] record of planargraph.py over the reals, built from the model of point.py, util.py and polygon.py.
    Points are compared exactly (Leibniz equality); see the first simplification in [Graph]. *)
From Verif Require Import Num NumR Geom Polygon Graph PropsGraph PropsGraph2.
From Coq Require Import Reals Lra List Bool.
Import ListNotations.

Definition rpt_eq (a b : pt ROps) : {a = b} + {a <> b}.
Proof.
  destruct a as [a1 a2], b as [b1 b2]. destruct (Req_EM_T a1 b1) as [->|N]; [|right; congruence].
  destruct (Req_EM_T a2 b2) as [->|N]; [left; reflexivity|right; congruence].
Defined.
(** sort_edges' key (62-70): angle2 from the point one unit to the right, normalised *)
Section WithEpsilon.
Context {E : Epsilon ROps}.
Definition rkey (o a : pt ROps) : T ROps := normalize_angle (angle2 o (P (Num.add (px o) (Num.of_Z 1)) (py o)) a) Num.pi.
(** _get_exit_edge_node's key (488-490) *)
Definition rturn (p c a : pt ROps) : T ROps := Num.abs (angle2 c p a).
Definition rgeo : geo (pt ROps) :=
  mkgeo rpt_eq (fun a b => Num.ltb (py a) (py b)) (fun o a b => Num.leb (rkey o a) (rkey o b))
    (fun p c a b => Num.ltb (rturn p c a) (rturn p c b)) (fun l => Num.ltb (Num.of_Z 0) (area l))
    (fun l p => poly_inside l p).

Lemma rgeo_order : y_order rgeo.
Proof.
  split; cbn; intros *; rewrite ?Rltb_true, ?Rltb_false; lra.
Qed.
Lemma rgeo_turns : turn_order rgeo.
Proof.
  intros u v. split; cbn; intros *; rewrite !Rltb_true, ?Rltb_false; lra.
Qed.
End WithEpsilon.
