(** * PropsMotion: between two positions asked for the machine is told of no other (C130). *)
From Coq Require Import String Ascii ZArith NArith List Bool Lia.
From Verif Require Import Num NumF64 Str Gcode GcodeSpec GcodeProofs GcodeProofs4 MotionProofs PropsGcode.
Import ListNotations.
Local Open Scope list_scope.

(** Where the machine is in X and Y. *)
Definition xy_at {N : NumOps} (c : config N) (m : machine) : option decimal * option decimal := (mpos m (out_name c PX), mpos m (out_name c PY)).
(** While a call is carried out the machine is, after every line, where it was before the call or where it is after it. *)
Theorem C130_one_move {N : NumOps} (c : config N) ops o done rest :
  plain_config c -> Forall tracked_op (ops ++ [o]) ->
  out (run c (ops ++ [o]) init) = out (run c ops init) ++ done ++ rest ->
  exists before now after,
    replay (axis_letters c) (out (run c ops init)) machine0 = Some before /\
    replay (axis_letters c) (out (run c ops init) ++ done) machine0 = Some now /\
    replay (axis_letters c) (out (run c (ops ++ [o]) init)) machine0 = Some after /\
    (xy_at c now = xy_at c before \/ xy_at c now = xy_at c after).
Proof.
  intros PC F E. destruct (one_move c (proj1 PC) ops o done rest PC F E) as (m0 & m & m1 & A & B & C & D).
  exists m0, m, m1. repeat split; auto. unfold xy_at. destruct D as [[D1 D2]|[D1 D2]]; [left|right]; congruence.
Qed.
(** Hence after every line of a program the machine is where some whole number of the calls takes it; and in order. *)
Lemma run_app {N : NumOps} (c : config N) a b s : run c (a ++ b) s = run c b (run c a s).
Proof. apply fold_left_app. Qed.
Lemma run_extends {N : NumOps} (c : config N) ops o : plain_config c -> Forall tracked_op (ops ++ [o]) ->
  exists l, out (run c (ops ++ [o]) init) = out (run c ops init) ++ l.
Proof.
  intros PC F. apply Forall_app in F as [F1 F2]. inversion F2 as [|? ? Ho _]; subst.
  assert (Ti : track_inv c (run c ops init)) by (apply (run_pres (track_inv c) tracked_op); auto; [intros; now apply track_exec|apply track_init]).
  destruct (once_exec c (proj1 PC) o (run c ops init) PC Ho Ti) as (l1 & l2 & l3 & L & _). rewrite run_app. cbn [run fold_left]. rewrite L. eauto.
Qed.
Theorem C130_only_there {N : NumOps} (c : config N) ops : plain_config c -> Forall tracked_op ops ->
  forall done rest, out (run c ops init) = done ++ rest ->
  exists calls later now there, ops = calls ++ later /\
    replay (axis_letters c) done machine0 = Some now /\
    replay (axis_letters c) (out (run c calls init)) machine0 = Some there /\ xy_at c now = xy_at c there.
Proof.
  intros PC. induction ops as [|o ops IH] using rev_ind; intros F done rest E.
  - exists [], [], machine0, machine0. cbn in E. destruct done; [|discriminate]. auto.
  - pose proof F as F'. apply Forall_app in F' as [F1 _]. destruct (run_extends c ops o PC F) as (l & L).
    assert (C : (exists r, out (run c ops init) = done ++ r) \/ exists d, done = out (run c ops init) ++ d).
    { rewrite L in E. apply app_eq_app in E as (x & [[E1 E2]|[E1 E2]]); eauto. }
    destruct C as [(r & Hr)|(d & ->)].
    + destruct (IH F1 done r Hr) as (calls & later & now & there & -> & A & B & D). exists calls, (later ++ [o]), now, there. rewrite app_assoc. auto.
    + rewrite <- app_assoc in E. destruct (C130_one_move c ops o d rest PC F E) as (m0 & m & m1 & A & B & D & [G|G]).
      * exists ops, [o], m, m0. auto.
      * exists (ops ++ [o]), [], m, m1. rewrite app_nil_r. auto.
Qed.
(** A program with motion. *)
Example C130_example : plain_config demo_cfg /\ Forall tracked_op demo /\ (length demo <= length (out (run demo_cfg demo init)))%nat.
Proof. split; [apply demo_plain|]. split; [apply demo_plain|]. vm_compute. lia. Qed.
