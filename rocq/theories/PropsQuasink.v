(** * PropsQuasink: the tiling extension (C165 - C169). *)
From Verif Require Import Num NumR Geom GeomR GeomSpec GeomProofs GeomProofs5 Ellipse Quasi Quasink QuasinkSpec VoronoiProofs GeomProofs2 PropsGeom.
From Coq Require Import ZArith Reals Lra Lia Bool List Psatz Permutation.
Import ListNotations.
Local Open Scope R_scope.

Ltac qbind H := let a := fresh "x" in let E := fresh "B" in apply VoronoiProofs.bind_ok in H; destruct H as (a & E & H).

Lemma Forall2_in_r {A B} (P : A -> B -> Prop) l l' : Forall2 P l l' -> forall y, In y l' -> exists x, In x l /\ P x y.
Proof. induction 1 as [|a b l l' H F IH]; intros y K; [destruct K|]. destruct K as [<-|K]; [exists a; split; [now left|exact H]|]. destruct (IH y K) as (x & X & Y). exists x. split; [now right|exact Y]. Qed.
Lemma Forall2_in_l {A B} (P : A -> B -> Prop) l l' : Forall2 P l l' -> forall x, In x l -> exists y, In y l' /\ P x y.
Proof. induction 1 as [|a b l l' H F IH]; intros x K; [destruct K|]. destruct K as [<-|K]; [exists b; split; [now left|exact H]|]. destruct (IH x K) as (y & X & Y). exists y. split; [now right|exact Y]. Qed.
Lemma euclid_refl (p : Pt) : euclid p p = 0.
Proof. apply euclid_zero. reflexivity. Qed.
(** ** C167: chains of segments (every number type) *)
Section Chains.
  Context {N : NumOps} {E : Epsilon N}.
  Let turn := either_way (lreversed (N:=N)).
  Let joins (a b : line N) : Prop := peq (p2 a) (p1 b) = true \/ peq (p1 b) (p2 a) = true.
  Lemma last_cons (d h : line N) l : last (h :: l) d = last l h.
  Proof. revert d h. induction l as [|x l IH]; intros d h; [reflexivity|]. cbn [last] in *. destruct l; [reflexivity|]. apply (IH d h). Qed.
  Lemma linked_snoc l h s : linked joins (h :: l) -> joins (last l h) s -> linked joins ((h :: l) ++ [s]).
  Proof.
    revert h. induction l as [|x l IH]; intros h L J.
    - cbn. auto.
    - cbn [linked app] in *. destruct L as (A & L). split; [exact A|]. apply (IH x L). rewrite <- (last_cons h x l). exact J.
  Qed.
  Lemma linked_cons l h s : linked joins (h :: l) -> joins s h -> linked joins (s :: h :: l).
  Proof. intros. split; auto. Qed.
  Lemma connect_some chain s c : connect_segment chain s = Some c -> linked joins chain ->
    linked joins c /\ exists s', turn s s' /\ Permutation c (s' :: chain).
  Proof.
    unfold connect_segment. destruct chain as [|h t]; [intros [= <-] _; split; [exact I|exists s; split; [now left|reflexivity]]|]. rewrite last_cons.
    intros H L. destruct (peq (p1 s) _) eqn:E1; [|destruct (peq (p2 s) _) eqn:E2; [|destruct (peq (p2 s) (p1 h)) eqn:E3; [|destruct (peq (p1 s) (p1 h)) eqn:E4; [|discriminate]]]]; injection H as <-.
    - split; [apply linked_snoc; [exact L|right; exact E1]|]. exists s. split; [now left|]. symmetry. apply Permutation_cons_append.
    - split; [apply linked_snoc; [exact L|right; exact E2]|]. exists (lreversed s). split; [now right|]. symmetry. apply Permutation_cons_append.
    - split; [apply linked_cons; [exact L|left; exact E3]|]. exists s. split; [now left|reflexivity].
    - split; [apply linked_cons; [exact L|left; exact E4]|]. exists (lreversed s). split; [now right|reflexivity].
  Qed.
  Lemma connect_nonempty chain s c : connect_segment chain s = Some c -> c <> [].
  Proof.
    unfold connect_segment. destruct chain as [|h t]; [intros [= <-]; discriminate|]. intros H.
    repeat match type of H with context [if ?b then _ else _] => destruct b end; try discriminate; injection H as <-; discriminate.
  Qed.
  Lemma round_spec l : forall chain c u, chain_round chain l = (c, u) -> linked joins chain ->
    linked joins c /\ (length u <= length l)%nat /\ (chain <> [] -> c <> []) /\ (chain = [] -> l <> [] -> c <> [] /\ (length u < length l)%nat) /\
    exists l1 l1', Permutation l (l1 ++ u) /\ Forall2 turn l1 l1' /\ Permutation c (chain ++ l1').
  Proof.
    induction l as [|s r IH]; cbn [chain_round]; intros chain c u H L.
    - injection H as <- <-. split; [exact L|]. split; [auto|]. split; [auto|]. split; [intros _ []; reflexivity|].
      exists [], []. split; [reflexivity|]. split; [apply Forall2_nil|]. rewrite app_nil_r. reflexivity.
    - destruct (connect_segment chain s) as [c1|] eqn:C.
      + destruct (connect_some _ _ _ C L) as (L1 & s' & T & P). pose proof (connect_nonempty _ _ _ C) as Ne.
        destruct (IH _ _ _ H L1) as (A & B & D & _ & l1 & l1' & P1 & F & P2).
        split; [exact A|]. split; [cbn; lia|]. split; [intros _; apply D; exact Ne|]. split; [intros _ _; split; [apply D; exact Ne|cbn; lia]|].
        exists (s :: l1), (s' :: l1'). split; [cbn; now constructor|]. split; [now constructor|].
        rewrite P2, P. cbn. apply Permutation_middle.
      + destruct (chain_round chain r) as [c0 u0] eqn:Q. injection H as <- <-.
        destruct (IH _ _ _ Q L) as (A & B & D & _ & l1 & l1' & P1 & F & P2).
        split; [exact A|]. split; [cbn; lia|]. split; [exact D|]. split; [intros ->; discriminate|].
        exists l1, l1'. split; [|auto]. rewrite P1. apply Permutation_middle.
  Qed.
  Lemma round_still l : forall chain c u, chain_round chain l = (c, u) -> length l = length u -> linked joins chain -> c = chain /\ u = l /\ Forall (fun s => connect_segment chain s = None) l.
  Proof.
    induction l as [|s r IH]; cbn [chain_round]; intros chain c u H Q L; [injection H as <- <-; auto|].
    destruct (connect_segment chain s) as [c1|] eqn:C.
    - destruct (round_spec _ _ _ _ H (proj1 (connect_some _ _ _ C L))) as (_ & B & _). cbn in Q. lia.
    - destruct (chain_round chain r) as [c0 u0] eqn:Z. injection H as <- <-. cbn in Q. destruct (IH _ _ _ Z ltac:(lia) L) as (-> & -> & F). auto.
  Qed.
  Lemma chain_loop_spec fuel : forall chain l c u, chain_loop fuel chain l = Ok (c, u) -> linked joins chain ->
    linked joins c /\ (length u <= length l)%nat /\ (chain <> [] -> c <> []) /\ (chain = [] -> l <> [] -> c <> [] /\ (length u < length l)%nat) /\
    Forall (fun s => connect_segment c s = None) u /\
    exists l1 l1', Permutation l (l1 ++ u) /\ Forall2 turn l1 l1' /\ Permutation c (chain ++ l1').
  Proof.
    induction fuel as [|n IH]; cbn [chain_loop]; intros chain l c u H L; [discriminate|].
    destruct (chain_round chain l) as [c0 u0] eqn:Q. pose proof (round_spec _ _ _ _ Q L) as S. destruct (Nat.eqb_spec (length l) (length u0)) as [K|K].
    - injection H as <- <-. destruct (round_still _ _ _ _ Q K L) as (-> & -> & F). tauto.
    - destruct S as (A & B & D & D' & l1 & l1' & P1 & F & P2). destruct (IH _ _ _ _ H A) as (A2 & B2 & D2 & D2' & G & l2 & l2' & P3 & F2 & P4).
      split; [exact A2|]. split; [lia|]. split; [intros Z; apply D2, D, Z|].
      split; [intros Z1 Z2; destruct (D' Z1 Z2) as (Y1 & Y2); split; [apply D2, Y1|lia]|]. split; [exact G|].
      exists (l1 ++ l2), (l1' ++ l2'). split; [rewrite P1, P3; now rewrite app_assoc|]. split; [now apply Forall2_app|]. rewrite P4, P2. now rewrite app_assoc.
  Qed.
  Lemma chain_loop_ends fuel : forall chain l, (length l < fuel)%nat -> linked joins chain -> exists c u, chain_loop fuel chain l = Ok (c, u).
  Proof.
    induction fuel as [|n IH]; intros chain l F L; [lia|]. cbn [chain_loop]. destruct (chain_round chain l) as [c0 u0] eqn:Q.
    destruct (round_spec _ _ _ _ Q L) as (A & B & _). destruct (Nat.eqb_spec (length l) (length u0)); [eauto|]. apply IH; [lia|exact A].
  Qed.
  (** no segment of [later] meets an end of [c] *)
  Definition maximal (c later : list (line N)) : Prop := Forall (fun s => connect_segment c s = None) later.
  Lemma chains_loop_spec fuel : forall l cs, chains_loop fuel l = Ok cs ->
    Forall (fun c => c <> [] /\ linked joins c) cs /\
    (exists l', Permutation (concat cs) l' /\ exists l0, Permutation l l0 /\ Forall2 turn l0 l') /\
    (forall a c b, cs = a ++ c :: b -> forall s', In s' (concat b) -> exists s, turn s s' /\ connect_segment c s = None).
  Proof.
    induction fuel as [|n IH]; intros l cs H.
    - destruct l; [|discriminate]. injection H as <-. split; [constructor|]. split; [exists []; split; [constructor|exists []; split; constructor]|].
      intros a c b Q. destruct a; discriminate.
    - destruct l as [|s r]; [injection H as <-; split; [constructor|]; split; [exists []; split; [constructor|exists []; split; constructor]|]; intros a c b Q; destruct a; discriminate|].
      cbn [chains_loop] in H. remember (s :: r) as l. qbind H. destruct x as [c u]. qbind H.
      destruct (chain_loop_spec _ _ _ _ _ B I) as (A & _ & _ & D & G & l1 & l1' & P1 & F & P2).
      destruct (D eq_refl ltac:(subst; discriminate)) as (Ne & _). destruct (IH _ _ B0) as (I1 & (l2 & P3 & l0 & P4 & F2) & M).
      destruct c as [|h t]; [contradiction|]. injection H as <-. cbn [app] in P2. split; [constructor; [split; [discriminate|exact A]|exact I1]|]. split.
      + exists (l1' ++ l2). split; [cbn [concat]; now rewrite P2, P3|]. exists (l1 ++ l0). split; [now rewrite P1, P4|now apply Forall2_app].
      + intros a c b Q s' Hs. destruct a as [|a0 a]; cbn in Q; injection Q as <- Q.
        * subst b. apply (Permutation_in _ P3) in Hs. clear - Hs P4 F2 G.
          destruct (Forall2_in_r _ _ _ F2 _ Hs) as (s0 & Z1 & Z2).
          exists s0. split; [exact Z2|]. rewrite Forall_forall in G. apply G. eapply Permutation_in; [symmetry; exact P4|exact Z1].
        * apply (M a c b Q s' Hs).
  Qed.
  Lemma chains_loop_ends fuel : forall l, (length l <= fuel)%nat -> exists cs, chains_loop fuel l = Ok cs.
  Proof.
    induction fuel as [|n IH]; intros l F; [destruct l; [exists []; reflexivity|cbn in F; lia]|]. destruct l as [|s r]; [exists []; reflexivity|].
    cbn [chains_loop]. remember (s :: r) as l. destruct (chain_loop_ends (S (length l)) [] l ltac:(lia) I) as (c & u & Q). rewrite Q. cbn [rbind].
    destruct (chain_loop_spec _ _ _ _ _ Q I) as (_ & _ & _ & D & _). destruct (D eq_refl ltac:(subst; discriminate)) as (_ & K).
    destruct (IH u ltac:(lia)) as (cs & ->). cbn [rbind]. eauto.
  Qed.
End Chains.

(** Each chain [c] of segments is drawn as the polyline through its first point and all its ends; every segment is in exactly one chain, as it is or
    turned round, each begins where the one before it in its chain ends, and no segment of a later chain meets an end of an earlier one. *)
Theorem C167_chains `{E : Epsilon ROps} (l : list Line_) out : 0 < EPS -> create_chains l = Ok out -> exists cs : list (list Line_),
  out = map (fun c => match c with [] => [] | s :: _ => p1 s :: map p2 c end) cs /\ Forall (fun c => c <> []) cs /\
  (exists l1 l2, Permutation l l1 /\ Forall2 (either_way (fun s => Ln (p2 s) (p1 s))) l1 l2 /\ Permutation (concat cs) l2) /\
  Forall (linked (fun a b => euclid (p2 a) (p1 b) < EPS)) cs /\
  (forall a h t b s, cs = a ++ (h :: t) :: b -> In s (concat b) -> forall e, e = p1 h \/ e = p2 (last t h) -> EPS <= euclid (p1 s) e /\ EPS <= euclid (p2 s) e).
Proof.
  intros He H. unfold create_chains in H. destruct (chains_loop (length l) l) as [cs|] eqn:Q; [|discriminate]. injection H as <-. exists cs.
  destruct (chains_loop_spec _ _ _ Q) as (A & (l2 & P1 & l1 & P2 & F) & M). split; [reflexivity|]. split; [eapply Forall_impl; [|exact A]; cbn; tauto|].
  split; [exists l1, l2; split; [exact P2|]; split; [exact F|exact P1]|]. split.
  - eapply Forall_impl; [|exact A]. cbn. intros c (_ & L). clear - L He. induction c as [|x [|y c] IH]; cbn in *; auto. destruct L as (J & L). split; [|apply IH; exact L].
    destruct J as [J|J]; apply (peq_true He) in J; [exact J|rewrite euclid_sym; exact J].
  - intros a h t b s Q' Hs e He'. destruct (M a (h :: t) b Q' s Hs) as (s0 & T & C). unfold connect_segment in C. rewrite last_cons in C.
    destruct (peq (p1 s0) _) eqn:E1; [discriminate|]. destruct (peq (p2 s0) (p2 (last t h))) eqn:E2; [discriminate|]. destruct (peq (p2 s0) (p1 h)) eqn:E3; [discriminate|]. destruct (peq (p1 s0) (p1 h)) eqn:E4; [discriminate|].
    apply (peq_false He) in E1, E2, E3, E4. destruct T as [->| ->]; cbn [lreversed p1 p2]; destruct He' as [->| ->]; split; assumption.
Qed.
Theorem C167_ends {N : NumOps} {E : Epsilon N} (l : list (line N)) : exists out, create_chains l = Ok out.
Proof. destruct (chains_loop_ends (length l) l (le_n _)) as (cs & Q). unfold create_chains. rewrite Q. cbn. eauto. Qed.
Example C167_example : create_chains (E:=eps6) [Ln (P 0 0) (P 1 0); Ln (P 5 5) (P 6 6); Ln (P 2 2) (P 1 0); Ln (P 0 0) (P (-1) 3)]%R = Ok [[P (-1) 3; P 0 0; P 1 0; P 2 2]; [P 5 5; P 6 6]]%R.
Proof.
  assert (He : 0 < EPS (Epsilon:=eps6)) by (unfold EPS, eps6; cbn; lra). assert (He1 : EPS (Epsilon:=eps6) < 1) by (unfold EPS, eps6; cbn; lra).
  assert (Y : forall p : Pt, peq (E:=eps6) p p = true) by (intros; apply (peq_true He); rewrite euclid_refl; exact He).
  assert (Z : forall a b c d : R, 1 <= (a - c) * (a - c) + (b - d) * (b - d) -> peq (E:=eps6) (P a b : Pt) (P c d : Pt) = false).
  { intros a b c d H. apply (peq_false He). unfold euclid. cbn [px py]. apply Rle_trans with 1; [lra|]. rewrite <- sqrt_1 at 1. apply sqrt_le_1_alt. unfold Rsqr. exact H. }
  unfold create_chains. cbn [length chains_loop chain_loop chain_round connect_segment last app p1 p2 lreversed].
  repeat (first [rewrite Y|rewrite Z by lra]; cbn [chain_round connect_segment last app p1 p2 lreversed Nat.eqb length chains_loop chain_loop rbind rmap map polyline]).
  reflexivity.
Qed.

(** ** C165: spherical projection *)
Section Sphere.
  Variables (c : Pt) (r : R).
  Hypothesis Hr : 0 < r.
  Lemma psub_len (p : Pt) : plen (psub p c) = euclid p c.
  Proof. unfold plen, psub, euclid. cbn [px py]. reflexivity. Qed.
  Definition seen (h : R) : R := r * sin (h * (PI / 2) / r).
  Lemma seen_range h : 0 <= h <= r -> 0 <= seen h <= r.
  Proof.
    intros H. unfold seen. assert (A : 0 <= h * (PI / 2) / r <= PI / 2).
    { pose proof PI_RGT_0. split; [apply Rmult_le_pos; [nra|left; now apply Rinv_0_lt_compat]|]. apply Rmult_le_reg_r with r; [exact Hr|]. unfold Rdiv. rewrite (Rmult_assoc _ (/ r) r), Rinv_l by lra. nra. }
    assert (0 <= sin (h * (PI / 2) / r)) by (apply sin_ge_0; lra). pose proof (SIN_bound (h * (PI / 2) / r)). split; nra.
  Qed.
  Lemma seen_rim : seen r = r.
  Proof. unfold seen. replace (r * (PI / 2) / r) with (PI / 2) by (field; lra). rewrite sin_PI2. ring. Qed.
  Lemma seen_incr h k : 0 <= h -> h < k -> k <= r -> seen h < seen k.
  Proof.
    intros A B C. unfold seen. apply Rmult_lt_compat_l; [exact Hr|]. pose proof PI_RGT_0.
    assert (M : forall x, 0 <= x <= r -> 0 <= x * (PI / 2) / r <= PI / 2).
    { intros x Hx. split; [apply Rmult_le_pos; [nra|left; now apply Rinv_0_lt_compat]|]. apply Rmult_le_reg_r with r; [exact Hr|]. unfold Rdiv. rewrite (Rmult_assoc _ (/ r) r), Rinv_l by lra. nra. }
    pose proof (M h ltac:(lra)). pose proof (M k ltac:(lra)). apply sin_increasing_1; try lra.
    unfold Rdiv. apply Rmult_lt_compat_r; [now apply Rinv_0_lt_compat|]. apply Rmult_lt_compat_r; lra.
  Qed.
End Sphere.
(** Points farther than the radius are not moved; *)
Theorem C165_outside (c p : Pt) (r : R) invert : r < euclid p c -> project (Sphere c r invert) p = Ok p.
Proof. intros H. unfold project. rewrite psub_len. rnum. destruct (Rltb r (euclid p c)) eqn:Q; [reflexivity|]. apply Rltb_false in Q. lra. Qed.
(** the others move along the ray from the centre to where a sphere is seen from above: the distance from the centre becomes r sin(pi/2 h/r), *)
Theorem C165_sphere (c p : Pt) (r : R) : 0 < r -> 0 < euclid p c <= r -> exists q, project (Sphere c r false) p = Ok q /\
  euclid q c = r * sin (PI / 2 * (euclid p c / r)) /\ euclid q c <= r /\ (exists k, 0 <= k /\ q = moved (k * (px p - px c)) (k * (py p - py c)) c).
Proof.
  intros Hr Hh. unfold project. rewrite psub_len. rnum. destruct (Rltb r (euclid p c)) eqn:Q; [apply Rltb_true in Q; lra|].
  unfold pydiv. rnum. destruct (Reqb r 0) eqn:Z; rbool; [lra|]. cbn [rbind]. destruct (Reqb (euclid p c) 0) eqn:Z2; rbool; [lra|]. cbn [rbind].
  set (h := euclid p c) in *. pose proof (seen_range r Hr h ltac:(lra)) as S. set (k := r * sin (h * (PI / 2) / r) / h).
  assert (K : 0 <= k) by (unfold k; apply Rmult_le_pos; [apply S|left; apply Rinv_0_lt_compat; lra]).
  eexists. split; [reflexivity|]. assert (L : euclid (padd (pmul (psub p c) k) c) c = k * h).
  { unfold euclid. cbn [padd pmul psub px py]. rnum. replace ((px p - px c) * k + px c - px c) with (k * (px p - px c)) by ring. replace ((py p - py c) * k + py c - py c) with (k * (py p - py c)) by ring.
    rewrite !Rsqr_mult, <- Rmult_plus_distr_l, sqrt_mult_alt by apply Rle_0_sqr. rewrite sqrt_Rsqr by exact K. reflexivity. }
  rewrite L. assert (KH : k * h = seen r h) by (unfold k, seen; field; lra). split; [|split].
  - rewrite KH. unfold seen. f_equal. f_equal. field. lra.
  - rewrite KH. apply S.
  - exists k. split; [exact K|]. apply pt_ext; cbn [padd pmul psub px py moved]; rnum; toR; ring.
Qed.
(** so the order of distances is kept and the rim stays where it is *)
Theorem C165_order (c p p' q q' : Pt) (r : R) : 0 < r -> 0 < euclid p c -> euclid p c < euclid p' c <= r ->
  project (Sphere c r false) p = Ok q -> project (Sphere c r false) p' = Ok q' -> euclid q c < euclid q' c.
Proof.
  intros Hr A B H H'. destruct (C165_sphere c p r Hr) as (x & X & L & _); [lra|]. destruct (C165_sphere c p' r Hr) as (x' & X' & L' & _); [lra|].
  rewrite H in X. rewrite H' in X'. injection X as <-. injection X' as <-. rewrite L, L'.
  pose proof (seen_incr r Hr (euclid p c) (euclid p' c) ltac:(lra) ltac:(lra) ltac:(lra)) as K. unfold seen in K.
  replace (PI / 2 * (euclid p c / r)) with (euclid p c * (PI / 2) / r) by (field; lra). replace (PI / 2 * (euclid p' c / r)) with (euclid p' c * (PI / 2) / r) by (field; lra). exact K.
Qed.
Theorem C165_rim (c p : Pt) (r : R) : 0 < r -> euclid p c = r -> project (Sphere c r false) p = Ok p.
Proof.
  intros Hr H. unfold project. rewrite psub_len. rnum. rewrite H. destruct (Rltb r r) eqn:Q; [reflexivity|].
  unfold pydiv. rnum. destruct (Reqb r 0) eqn:Z; rbool; [lra|]. cbn [rbind].
  replace (r * (PI / 2) / r) with (PI / 2) by (field; lra). rewrite sin_PI2. replace (r * 1 / r) with 1 by (field; lra). f_equal. apply pt_ext; cbn [padd pmul psub px py]; rnum; toR; ring.
Qed.
(** inverted: the distance h becomes h sin(pi/2 h/r), never more *)
Theorem C165_inverted (c p : Pt) (r : R) : 0 < r -> euclid p c <= r -> exists q, project (Sphere c r true) p = Ok q /\
  euclid q c = euclid p c * sin (PI / 2 * (euclid p c / r)) /\ euclid q c <= euclid p c.
Proof.
  intros Hr Hh. unfold project. rewrite psub_len. rnum. destruct (Rltb r (euclid p c)) eqn:Q; [apply Rltb_true in Q; lra|].
  unfold pydiv. rnum. destruct (Reqb r 0) eqn:Z; rbool; [lra|]. cbn [rbind]. pose proof (euclid_pos p c) as Nn.
  set (h := euclid p c) in *. pose proof (seen_range r Hr h ltac:(lra)) as S. set (k := sin (h * (PI / 2) / r)).
  assert (K : 0 <= k <= 1) by (unfold seen in S; fold k in S; split; nra).
  eexists. split; [reflexivity|]. assert (L : euclid (padd (pmul (psub p c) k) c) c = k * h).
  { unfold euclid. cbn [padd pmul psub px py]. rnum. replace ((px p - px c) * k + px c - px c) with (k * (px p - px c)) by ring. replace ((py p - py c) * k + py c - py c) with (k * (py p - py c)) by ring.
    rewrite !Rsqr_mult, <- Rmult_plus_distr_l, sqrt_mult_alt by apply Rle_0_sqr. rewrite sqrt_Rsqr by apply K. reflexivity. }
  rewrite L. split; [|nra]. rewrite Rmult_comm. f_equal. unfold k. f_equal. field. lra.
Qed.
(** False of the code: the centre itself has no projection. *)
Theorem C165_centre_refuted (c : Pt) (r : R) : 0 <= r -> project (Sphere c r false) c = Raise ZeroDivisionError.
Proof.
  intros Hr. unfold project. rewrite psub_len, euclid_refl. rnum. destruct (Rltb r 0) eqn:Q; [apply Rltb_true in Q; lra|].
  unfold pydiv. rnum. destruct (Reqb r 0) eqn:Z; [reflexivity|]. cbn [rbind]. destruct (Reqb 0 0) eqn:Z2; rbool; [reflexivity|lra].
Qed.
Example C165_example : exists q, project (Sphere (P 1 1)%R 10 false) (P 4 5)%R = Ok q /\ euclid q (P 1 1)%R = 10 * sin (PI / 2 * (5 / 10)).
Proof.
  assert (L : euclid (P 4 5)%R (P 1 1)%R = 5).
  { unfold euclid. cbn [px py]. replace ((4 - 1)² + (5 - 1)²) with (5 * 5) by (unfold Rsqr; ring). apply sqrt_square. lra. }
  destruct (C165_sphere (P 1 1)%R (P 4 5)%R 10) as (q & A & B & _); [lra|lra|]. rewrite L in B. eauto.
Qed.

(** ** C166: the plotter *)
Section Plotter.
  Context {N : NumOps} {E : Epsilon N}.
  Lemma transform_spec c (l : list (pt N)) : forall qs n, transform_loop c l = Ok (qs, n) ->
    Forall2 (fun p q => place c p = Ok q) l qs /\
    exists bs, Forall2 (fun q b => region_inside (pc_region c) q = Ok b) qs bs /\ n = Z.of_nat (count_occ Bool.bool_dec bs false).
  Proof.
    induction l as [|p r IH]; cbn [transform_loop]; intros qs n H; [injection H as <- <-; split; [constructor|exists []; split; [constructor|reflexivity]]|].
    qbind H. rename x into q. qbind H. rename x into b. qbind H. destruct x as [qs0 n0]. injection H as <- <-.
    destruct (IH _ _ B1) as (F & bs & G & ->). split; [now constructor|]. exists (b :: bs). split; [now constructor|]. destruct b; cbn [count_occ]; destruct (Bool.bool_dec _ _); try discriminate; lia.
  Qed.
  Lemma count_zero bs : count_occ Bool.bool_dec bs false = O -> Forall (eq true) bs.
  Proof. induction bs as [|[] bs IH]; cbn; intros H; [constructor|constructor; auto|discriminate]. Qed.
  Lemma count_some bs : count_occ Bool.bool_dec bs false <> O -> In false bs.
  Proof. intros H. apply (count_occ_In Bool.bool_dec). lia. Qed.
  Lemma Forall2_true c qs bs : Forall2 (fun q b => region_inside (pc_region c) q = Ok b) qs bs -> Forall (eq true) bs -> Forall (fun q : pt N => region_inside (pc_region c) q = Ok true) qs.
  Proof. induction 1 as [|q b qs bs A F IH]; intros G; [constructor|]. inversion_clear G. subst b. constructor; auto. Qed.
  Lemma plot_transform_spec c (l xs : list (pt N)) : pc_all c = true -> plot_transform c l = Ok xs ->
    (xs <> [] /\ appears c l xs) \/ (xs = [] /\ (sticks_out c l \/ l = [])).
  Proof.
    intros Ha H. unfold plot_transform in H. qbind H. destruct x as [qs n]. injection H as <-. destruct (transform_spec _ _ _ _ B) as (F & bs & G & ->). rewrite Ha. cbn [andb].
    destruct (count_occ Bool.bool_dec bs false) as [|k] eqn:Q.
    - change (Z.of_nat 0) with 0%Z. cbn [Z.gtb Z.compare orb]. destruct l as [|p l].
      + right. inversion F. subst. auto.
      + left. inversion F; subst. split; [discriminate|]. split; [constructor; auto|]. split; [apply (Forall2_true _ _ _ G), count_zero, Q|discriminate].
    - right. destruct (Z.gtb_spec (Z.of_nat (S k)) 0); [|lia]. cbn [orb]. split; [reflexivity|left].
      assert (In false bs) as K by (apply count_some; lia). destruct (Forall2_in_r _ _ _ G _ K) as (q & Q1 & Q2). destruct (Forall2_in_r _ _ _ F _ Q1) as (p & P1 & P2). exists p, q. auto.
  Qed.
  Lemma update_bbox_keeps (l : list (pt N)) : forall pl, let pl' := update_bbox pl l in
    pl_polys pl' = pl_polys pl /\ pl_count pl' = pl_count pl /\ pl_segs pl' = pl_segs pl /\ pl_segpolys pl' = pl_segpolys pl /\ pl_segcount pl' = pl_segcount pl.
  Proof. unfold update_bbox. induction l as [|p l IH]; intros pl; [cbn; auto|]. cbn [fold_left]. destruct (IH (Plotter (pl_polys pl) (pl_count pl) (pl_segs pl) (pl_segpolys pl) (pl_segcount pl)
      (pymin (pl_xmin pl) (px p)) (pymin (pl_ymin pl) (py p)) (pymax (pl_xmax pl) (px p)) (pymax (pl_ymax pl) (py p)))) as (A & B & C & D & F). cbn [pl_polys pl_count pl_segs pl_segpolys pl_segcount] in *. auto. Qed.
  Lemma events_drawing c (evs : list (qevent N)) : pc_all c = true -> forall pl pl', plot_events c pl evs = Ok pl' ->
    exists ps ss gs, drawing c evs ps ss gs /\ pl_polys pl' = pl_polys pl ++ ps /\ pl_segs pl' = pl_segs pl ++ ss /\ pl_segpolys pl' = pl_segpolys pl ++ gs.
  Proof.
    intros Ha. induction evs as [|e evs IH]; cbn [plot_events]; intros pl pl' H.
    - injection H as <-. exists [], [], []. split; [constructor|]. rewrite !app_nil_r. auto.
    - qbind H. rename x into pl1. destruct (IH _ _ H) as (ps & ss & gs & D & P & S & G). destruct e as [vs col|a b|vs col]; cbn [plot_event] in B.
      + destruct (plot_polygon c pl vs col) as [[pl2 v]|] eqn:Q; [|discriminate]. cbn in B. injection B as ->. unfold plot_polygon in Q. qbind Q. destruct (plot_transform_spec _ _ _ Ha B) as [(Ne & A)|(-> & A)].
        * destruct x as [|x0 x]; [contradiction|]. destruct (update_bbox_keeps (x0 :: x) pl) as (K1 & _ & K3 & K4 & _). cbv zeta in Q. remember (update_bbox pl (x0 :: x)) as w. injection Q as <- <-. cbn [pl_polys pl_segs pl_segpolys] in *.
          rewrite K1 in P. rewrite K3 in S. rewrite K4 in G.
          exists ((x0 :: x, col) :: ps), ss, gs. split; [now constructor|]. rewrite P, <- app_assoc. auto.
        * injection Q as <- <-. exists ps, ss, gs. split; [now constructor|auto].
      + unfold plot_segment in B. qbind B. qbind B. injection B as <-. cbn [pl_polys pl_segs pl_segpolys] in *. exists ps, (Ln x x0 :: ss), gs. split; [now constructor|]. rewrite S, <- app_assoc. auto.
      + destruct (plot_segpoly c pl vs col) as [[pl2 v]|] eqn:Q; [|discriminate]. cbn in B. injection B as ->. unfold plot_segpoly in Q. qbind Q. destruct (plot_transform_spec _ _ _ Ha B) as [(Ne & A)|(-> & A)].
        * destruct x as [|x0 x]; [contradiction|]. qbind Q. injection Q as <- <-. cbn [pl_polys pl_segs pl_segpolys] in *.
          exists ps, ss, ((x0 :: x, col) :: gs). split; [now constructor|]. rewrite G, <- app_assoc. auto.
        * injection Q as <- <-. exists ps, ss, gs. split; [now constructor|auto].
  Qed.
End Plotter.
(** What is kept after any calls is exactly the tiles, segments and rectangles drawn, in the order of the calls: a tile appears iff all its moved corners are inside. *)
Theorem C166_drawing {N : NumOps} {E : Epsilon N} (c : pconf N) (evs : list (qevent N)) pl : pc_all c = true -> plot_events c plotter0 evs = Ok pl ->
  drawing c evs (pl_polys pl) (pl_segs pl) (pl_segpolys pl).
Proof. intros Ha H. destruct (events_drawing c evs Ha _ _ H) as (ps & ss & gs & D & -> & -> & ->). exact D. Qed.
(** Without clip_all a polygon vanishes iff more than three of its corners are outside. *)
Theorem C166_touching {N : NumOps} {E : Epsilon N} (c : pconf N) (vs xs : list (pt N)) : pc_all c = false -> plot_transform c vs = Ok xs ->
  exists qs bs, Forall2 (fun p q => place c p = Ok q) vs qs /\ Forall2 (fun q b => region_inside (pc_region c) q = Ok b) qs bs /\
    xs = (if (3 <? count_occ Bool.bool_dec bs false)%nat then [] else qs).
Proof.
  intros Ha H. unfold plot_transform in H. qbind H. destruct x as [qs n]. injection H as <-. destruct (transform_spec _ _ _ _ B) as (F & bs & G & ->). rewrite Ha. cbn [andb orb].
  exists qs, bs. split; [exact F|]. split; [exact G|]. destruct (Nat.ltb_spec 3 (count_occ Bool.bool_dec bs false)), (Z.gtb_spec (Z.of_nat (count_occ Bool.bool_dec bs false)) 3); try lia; reflexivity.
Qed.

Section Counts.
  Context `{E : Epsilon ROps}.
  Definition of_color (col : R) (l : list (list Pt * R)) : nat := length (filter (fun x => Reqb (snd x) col) l).
  Definition counted (d : list (R * Z)) (l : list (list Pt * R)) : Prop := forall col, dget (N:=ROps) d col = match of_color col l with O => None | n => Some (Z.of_nat n) end.
  Lemma dget_dset (d : list (R * Z)) k v k' : dget (N:=ROps) (dset (N:=ROps) d k v) k' = if Reqb k k' then Some v else dget (N:=ROps) d k'.
  Proof.
    induction d as [|[a n] d IH]; cbn [dset dget]; rnum; [reflexivity|]. destruct (Reqb a k) eqn:Q; cbn [dget]; rnum.
    - apply Reqb_true in Q. subst a. destruct (Reqb k k'); reflexivity.
    - destruct (Reqb a k') eqn:Q2; [|exact IH]. apply Reqb_true in Q2. subst a. destruct (Reqb k k') eqn:Q3; [|reflexivity]. apply Reqb_true in Q3. subst k'.
      rewrite (proj2 (Reqb_true k k) eq_refl) in Q. discriminate.
  Qed.
  Lemma counted_add (d : list (R * Z)) l xs (col : R) : counted d l -> counted (dset (N:=ROps) d col (match dget (N:=ROps) d col with Some n => (n + 1)%Z | None => 1%Z end)) (l ++ [(xs, col)]).
  Proof.
    intros C k. rewrite dget_dset, (C col), (C k). unfold of_color. rewrite filter_app, app_length. cbn [filter snd]. destruct (Reqb col k) eqn:Q.
    - apply Reqb_true in Q. subst k. cbn [length]. rewrite Nat.add_1_r. destruct (length _); [reflexivity|]. f_equal. lia.
    - cbn [length]. rewrite Nat.add_0_r. reflexivity.
  Qed.
  Definition bounded (pl : plotter ROps) : Prop := forall xs col p, In (xs, col) (pl_polys pl) -> In p xs -> (pl_xmin pl : R) <= px p <= pl_xmax pl /\ (pl_ymin pl : R) <= py p <= pl_ymax pl.
  Lemma update_bbox_bounds (l : list Pt) : forall pl : plotter ROps, let pl' := update_bbox pl l in
    ((pl_xmin pl' : R) <= pl_xmin pl /\ (pl_ymin pl' : R) <= pl_ymin pl /\ (pl_xmax pl : R) <= pl_xmax pl' /\ (pl_ymax pl : R) <= pl_ymax pl') /\
    forall p, In p l -> (pl_xmin pl' : R) <= px p <= pl_xmax pl' /\ (pl_ymin pl' : R) <= py p <= pl_ymax pl'.
  Proof.
    unfold update_bbox. induction l as [|p l IH]; intros pl; cbn [fold_left]; [cbn; split; [lra|intros ? []]|].
    set (pl1 := Plotter _ _ _ _ _ _ _ _ _). destruct (IH pl1) as ((A1 & A2 & A3 & A4) & A). cbv zeta in *. set (pl' := fold_left _ _ _) in *.
    assert (X : (pl_xmin pl1 : R) = Rmin (pl_xmin pl) (px p) /\ (pl_ymin pl1 : R) = Rmin (pl_ymin pl) (py p) /\ (pl_xmax pl1 : R) = Rmax (pl_xmax pl) (px p) /\ (pl_ymax pl1 : R) = Rmax (pl_ymax pl) (py p)).
    { unfold pl1. cbn [pl_xmin pl_ymin pl_xmax pl_ymax]. rewrite !pymin_R, !pymax_R. auto. }
    destruct X as (X1 & X2 & X3 & X4). rewrite X1 in A1. rewrite X2 in A2. rewrite X3 in A3. rewrite X4 in A4. clear X1 X2 X3 X4. clearbody pl'. clear pl1 IH.
    pose proof (Rmin_l (pl_xmin pl) (px p)). pose proof (Rmin_r (pl_xmin pl) (px p)). pose proof (Rmin_l (pl_ymin pl) (py p)). pose proof (Rmin_r (pl_ymin pl) (py p)).
    pose proof (Rmax_l (pl_xmax pl) (px p)). pose proof (Rmax_r (pl_xmax pl) (px p)). pose proof (Rmax_l (pl_ymax pl) (py p)). pose proof (Rmax_r (pl_ymax pl) (py p)).
    split; [lra|]. intros q [<-|Q]; [lra|]. apply A, Q.
  Qed.
  Lemma events_counts (c : pconf ROps) (evs : list (qevent ROps)) : forall pl pl', plot_events c pl evs = Ok pl' ->
    counted (pl_count pl) (pl_polys pl) /\ bounded pl -> counted (pl_count pl') (pl_polys pl') /\ bounded pl' /\ (pl_xmax pl : R) <= pl_xmax pl' /\ (pl_ymax pl : R) <= pl_ymax pl'.
  Proof.
    induction evs as [|e evs IH]; cbn [plot_events]; intros pl pl' H (C & D); [injection H as <-; split; [exact C|split; [exact D|lra]]|].
    qbind H. rename x into pl1.
    assert (K : counted (pl_count pl1) (pl_polys pl1) /\ bounded pl1 /\ (pl_xmax pl : R) <= pl_xmax pl1 /\ (pl_ymax pl : R) <= pl_ymax pl1).
    { clear IH H. destruct e as [vs col|a b|vs col]; cbn [plot_event] in B.
      - destruct (plot_polygon c pl vs col) as [[pl2 v]|] eqn:Q; [|discriminate]. cbn in B. injection B as ->. unfold plot_polygon in Q. qbind Q.
        destruct x as [|x0 x]; [injection Q as <- <-; split; [exact C|split; [exact D|lra]]|].
        destruct (update_bbox_keeps (x0 :: x) pl) as (K1 & K2 & _). destruct (update_bbox_bounds (x0 :: x) pl) as ((A1 & A2 & A3 & A4) & A). cbv zeta in *. remember (update_bbox pl (x0 :: x)) as w. injection Q as <- <-.
        cbn [pl_polys pl_count pl_xmin pl_ymin pl_xmax pl_ymax]. rewrite K1, K2. split; [apply counted_add; exact C|]. split; [|split; assumption].
        intros xs0 k p I1 I2. cbn [pl_polys pl_xmin pl_ymin pl_xmax pl_ymax] in *. apply in_app_or in I1. destruct I1 as [I1|[I1|[]]].
        + pose proof (D _ _ _ I1 I2). lra.
        + injection I1 as <- <-. apply A, I2.
      - unfold plot_segment in B. qbind B. qbind B. injection B as <-. split; [exact C|split; [exact D|cbn [pl_xmax pl_ymax]; lra]].
      - destruct (plot_segpoly c pl vs col) as [[pl2 v]|] eqn:Q; [|discriminate]. cbn in B. injection B as ->. unfold plot_segpoly in Q. qbind Q.
        destruct x as [|x0 x]; [injection Q as <- <-; split; [exact C|split; [exact D|lra]]|]. qbind Q. injection Q as <- <-. split; [exact C|split; [exact D|cbn [pl_xmax pl_ymax]; lra]]. }
    destruct K as (K1 & K2 & K3 & K4). destruct (IH _ _ H (conj K1 K2)) as (L1 & L2 & L3 & L4). split; [exact L1|]. split; [exact L2|]. lra.
  Qed.
  Lemma start_ok : counted (pl_count plotter0) (pl_polys plotter0) /\ bounded plotter0.
  Proof. split; [intros col; reflexivity|intros xs col p []]. Qed.
End Counts.
(** The colour table counts the tiles drawn in each colour *)
Theorem C166_counts `{E : Epsilon ROps} (c : pconf ROps) (evs : list (qevent ROps)) pl (col : R) : plot_events c plotter0 evs = Ok pl ->
  dget (pl_count pl) col = match length (filter (fun x => Reqb (snd x) col) (pl_polys pl)) with O => None | n => Some (Z.of_nat n) end.
Proof. intros H. apply (events_counts c evs _ _ H start_ok). Qed.
(** and the corners of all of them are in the bounding box. *)
Theorem C166_box `{E : Epsilon ROps} (c : pconf ROps) (evs : list (qevent ROps)) pl xs (col : R) (p : Pt) : plot_events c plotter0 evs = Ok pl ->
  In (xs, col) (pl_polys pl) -> In p xs -> in_box (Bx (P (pl_xmin pl) (pl_ymin pl)) (P (pl_xmax pl) (pl_ymax pl))) p.
Proof. intros H I1 I2. destruct (events_counts c evs _ _ H start_ok) as (_ & B & _). destruct (B _ _ _ I1 I2). unfold in_box. cbn [px py b1 b2]. tauto. Qed.
Theorem C166_bbox `{E : Epsilon ROps} (c : pconf ROps) (evs : list (qevent ROps)) pl xs (col : R) (p : Pt) : plot_events c plotter0 evs = Ok pl ->
  In (xs, col) (pl_polys pl) -> In p xs -> in_box (plot_bbox pl) p.
Proof.
  intros H I1 I2. destruct (C166_box c evs pl xs col p H I1 I2) as (A & B). cbn [b1 b2 px py] in A, B. unfold plot_bbox, mkbox, in_box. cbn [b1 b2 px py].
  rewrite !pymin_R, !pymax_R. rewrite !Rmin_left, !Rmax_right by lra. split; assumption.
Qed.
Lemma start_pos : 0 < (pl_xmax (plotter0 (N:=ROps)) : R) /\ 0 < (pl_ymax (plotter0 (N:=ROps)) : R).
Proof. unfold plotter0. cbn [pl_xmax pl_ymax]. rnum. assert (K : 0 < Rlit 22250738585072014 (-324)); [|split; exact K].
  unfold Rlit. apply Rmult_lt_0_compat; [apply IZR_lt; lia|]. apply Rinv_0_lt_compat, IZR_lt. vm_compute. reflexivity. Qed.
(** False of the code: the box is not the smallest one.  It always has points with positive coordinates, even if all tiles are left of and above the origin. *)
Theorem C166_box_refuted `{E : Epsilon ROps} (c : pconf ROps) (evs : list (qevent ROps)) pl : plot_events c plotter0 evs = Ok pl ->
  0 < (pl_xmax pl : R) /\ 0 < (pl_ymax pl : R).
Proof. intros H. destruct (events_counts c evs _ _ H start_ok) as (_ & _ & A & B). pose proof start_pos. lra. Qed.
Definition plain : pconf ROps := PConf NoClip (Mx 1 0 0 0 1 0)%R Identity true.
Definition down_tile : list Pt := [P (-3) (-3); P (-2) (-3); P (-2) (-2); P (-3) (-2)]%R.
Lemma place_plain `{E : Epsilon ROps} (p : Pt) : place plain p = Ok p.
Proof. unfold place, plain. cbn [pc_proj pc_matrix project]. f_equal. destruct p as [x y]. apply pt_ext; unfold apply; cbn; rnum; toR; ring. Qed.
Lemma transform_plain `{E : Epsilon ROps} (l : list Pt) : plot_transform plain l = Ok l.
Proof.
  unfold plot_transform. assert (K : transform_loop plain l = Ok (l, 0%Z)).
  { induction l as [|p l IH]; [reflexivity|]. cbn [transform_loop]. rewrite place_plain. cbn [rbind pc_region plain region_inside]. rewrite IH. reflexivity. }
  rewrite K. reflexivity.
Qed.
Example C166_box_example `{E : Epsilon ROps} : exists pl, plot_events plain plotter0 [QPolygon down_tile 1%R] = Ok pl /\
  pl_polys pl = [(down_tile, 1%R)] /\ pl_count pl = [(1%R, 1%Z)] /\ 0 < (pl_xmax pl : R).
Proof.
  cbn [plot_events plot_event]. unfold plot_polygon. rewrite transform_plain. cbv zeta. unfold down_tile at 1. cbn iota. destruct (update_bbox_keeps down_tile plotter0) as (K1 & K2 & _). cbv zeta in *.
  eexists. cbn [rbind rmap fst]. split; [reflexivity|]. cbn [pl_polys pl_count pl_xmax]. change [P (-3) (-3); P (-2) (-3); P (-2) (-2); P (-3) (-2)]%R with down_tile. rewrite K1, K2. split; [reflexivity|]. split; [reflexivity|].
  pose proof (update_bbox_bounds down_tile plotter0) as ((_ & _ & A & _) & _). pose proof start_pos. lra.
Qed.
(** False of the code: the second table does not count the rectangles.  It never goes beyond 1 unless a tile has the same colour, *)
Theorem C166_rects_refuted {N : NumOps} {E : Epsilon N} (c : pconf N) (pl : plotter N) vs (col : N) pl' : dget (pl_count pl) col = None -> plot_segpoly c pl vs col = Ok (pl', true) ->
  pl_segcount pl' = dset (pl_segcount pl) col 1%Z.
Proof. intros H Q. unfold plot_segpoly in Q. qbind Q. destruct x as [|x0 x]; [discriminate|]. rewrite H in Q. cbn [rbind] in Q. injection Q as <-. reflexivity. Qed.
Theorem C166_rects_twice_refuted `{E : Epsilon ROps} (col : R) : exists pl, plot_events plain plotter0 [QSegpoly down_tile col; QSegpoly down_tile col] = Ok pl /\
  length (pl_segpolys pl) = 2%nat /\ dget (pl_segcount pl) col = Some 1%Z.
Proof.
  cbn [plot_events plot_event]. unfold plot_segpoly. rewrite !transform_plain. unfold down_tile. cbn iota. unfold plotter0. cbv zeta. cbn [pl_count dget rbind rmap fst]. eexists. split; [reflexivity|]. cbn [pl_segpolys pl_segcount app length]. split; [reflexivity|].
  rewrite !dget_dset. rewrite (proj2 (Reqb_true col col) eq_refl). reflexivity.
Qed.
(** and with a tile of that colour the first rectangle of the colour fails. *)
Theorem C166_rects_key_refuted `{E : Epsilon ROps} (col : R) : plot_events plain plotter0 [QPolygon down_tile col; QSegpoly down_tile col] = Raise KeyError.
Proof.
  cbn [plot_events plot_event]. unfold plot_polygon, plot_segpoly. rewrite !transform_plain. cbv zeta. unfold down_tile. cbn [rbind rmap fst pl_count pl_segcount].
  rewrite dget_dset, (proj2 (Reqb_true col col) eq_refl). destruct (update_bbox_keeps [P (-3) (-3); P (-2) (-3); P (-2) (-2); P (-3) (-2)]%R plotter0) as (_ & _ & _ & _ & K). cbv zeta in K. rewrite K. reflexivity.
Qed.
(** Recentring: with a circle, tiles and segments move by one and the same vector, after which the middle of the box is the centre of the circle. *)
Theorem C166_recenter (c : pconf ROps) pl (e : ellipse ROps) : pc_region c = ClipEllipse e -> exists pl' dx dy, recenter c pl = Ok pl' /\
  pl_polys pl' = map (fun x => (map (moved dx dy) (fst x), snd x)) (pl_polys pl) /\
  pl_segs pl' = map (fun s => Ln (moved dx dy (p1 s)) (moved dx dy (p2 s))) (pl_segs pl) /\
  (P (pl_xmin pl') (pl_ymin pl') : Pt) = moved dx dy (P (pl_xmin pl) (pl_ymin pl)) /\ (P (pl_xmax pl') (pl_ymax pl') : Pt) = moved dx dy (P (pl_xmax pl) (pl_ymax pl)) /\
  ((pl_xmin pl' : R) + pl_xmax pl') / 2 = px (ec e) /\ ((pl_ymin pl' : R) + pl_ymax pl') / 2 = py (ec e).
Proof.
  intros H. unfold recenter. rewrite H. set (o := psub _ _). exists (Plotter (map (fun '(l, col) => (map (fun p => padd p o) l, col)) (pl_polys pl)) (pl_count pl)
              (map (fun s => Ln (padd (p1 s) o) (padd (p2 s) o)) (pl_segs pl)) (pl_segpolys pl) (pl_segcount pl)
              (Num.add (pl_xmin pl) (px o)) (Num.add (pl_ymin pl) (py o)) (Num.add (pl_xmax pl) (px o)) (Num.add (pl_ymax pl) (py o))). exists (px o), (py o).
  cbn [pl_polys pl_segs pl_xmin pl_ymin pl_xmax pl_ymax]. split; [reflexivity|]. split; [apply map_ext; intros [l col]; reflexivity|]. split; [reflexivity|]. split; [reflexivity|]. split; [reflexivity|].
  unfold o. cbn [psub px py]. rnum. change (T ROps) with R in *. split; field.
Qed.
(** False of the code: the rectangles stay where they are, and a clip rectangle instead of a circle fails. *)
Theorem C166_rects_stay_refuted (c : pconf ROps) pl pl' : recenter c pl = Ok pl' -> pl_segpolys pl' = pl_segpolys pl.
Proof. unfold recenter. destruct (pc_region c); intros H; [injection H as <-; reflexivity|discriminate|injection H as <-; reflexivity]. Qed.
Theorem C166_rectangle_refuted (c : pconf ROps) pl b : pc_region c = ClipBox b -> recenter c pl = Raise TypeError.
Proof. unfold recenter. intros ->. reflexivity. Qed.

(** ** C168: inset tiles, scaled segments *)
Section Inset.
  Context {E : Epsilon ROps}.
  Hypothesis He : 0 < EPS.
  Lemma ldist_line (l : Line_) (p : Pt) : EPS <= seg_len l -> exists d : R, ldist l p false = Ok d /\ 0 <= d /\ d * seg_len l = Rabs (side l p).
  Proof.
    intros H. pose proof (euclid_sqr (p1 l) (p2 l)) as Q. fold (seg_len l) in Q. set (L := seg_len l) in *.
    assert (D : (plen2 (vec l) : R) = L * L). { rewrite Q. destruct l as [[a b] [c d]]. unfold plen2, vec, psub. cbn [px py p1 p2]. rnum. toR. ring. }
    unfold ldist, lproj_point, pproj. rewrite D. cbv zeta. unfold pydiv. rnum. destruct (Rltb (L * L) (EPS * EPS)) eqn:Z1; [apply Rltb_true in Z1; nra|].
    destruct (Reqb (L * L) 0) eqn:Z2; [apply Reqb_true in Z2; nra|].
    cbn [rmap andb]. rewrite dist_euclid. eexists. split; [reflexivity|]. split; [apply euclid_pos|].
    apply Rsqr_inj; [apply Rmult_le_pos; [apply euclid_pos|lra]|apply Rabs_pos|]. rewrite <- Rsqr_abs, Rsqr_mult. unfold Rsqr. rewrite euclid_sqr, Q.
    destruct l as [[a b] [c d]], p as [x y]. unfold side. unfold padd, pmul, vec, psub, dot. cbn [px py p1 p2] in *. rnum. change (T ROps) with R in *.
    symmetry. field. nra.
  Qed.
  Lemma inter_some (l o : Line_) : EPS <= Rabs (dir_cross l o) -> exists q, intersection l o false false false = Some q.
  Proof.
    intros H. unfold intersection, intersection_mu. rewrite cross_terms_R. cbv zeta. cbn [orb andb]. rnum. unfold dir_cross in H.
    match goal with |- context [Rltb ?x EPS] => destruct (Rltb x EPS) eqn:Q end; [|eauto]. apply Rltb_true in Q. exfalso.
    match type of Q with Rabs ?x < _ => match type of H with _ <= Rabs ?y => replace x with y in Q by ring end end. lra.
  Qed.
  Lemma inter_on (l o : Line_) q : intersection l o false false false = Some q -> on_line l q /\ on_line o q.
  Proof.
    unfold intersection. destruct (intersection_mu l o false false false) as [mu|] eqn:Q; [|discriminate]. intros [= <-]. rewrite at_param_model.
    destruct (intersection_mu_spec _ _ _ _ _ _ Q He) as (_ & nu & A & _). split; [now exists mu|exists nu; exact A].
  Qed.
  Lemma offset_line (l : Line_) d : EPS <= Rabs d -> EPS <= seg_len l -> (forall q, on_line (loffset l d) q -> side l q = d * seg_len l) /\
    (forall o, dir_cross (loffset l d) o = dir_cross l o) /\ (forall o, dir_cross o (loffset l d) = dir_cross o l).
  Proof.
    intros A B. destruct (C36_offset He l d A B) as (nx & ny & _ & _ & Q & S). rewrite Q. split; [|split].
    - intros q (u & ->). rewrite <- (S u). f_equal. unfold at_param, moved. cbn [p1 p2 px py]. f_equal; ring.
    - intros o. unfold dir_cross, moved. cbn [p1 p2 px py]. ring.
    - intros o. unfold dir_cross, moved. cbn [p1 p2 px py]. ring.
  Qed.
  Lemma which_R (l : Line_) p : which_side l p false = if Rle_dec 0 (side l p) then 1%Z else (-1)%Z.
  Proof.
    unfold which_side. cbn [andb]. unfold cross, vec, psub, side. cbn [px py]. rnum. match goal with |- context [Rleb 0 ?x] => destruct (Rleb 0 x) eqn:Q end; rbool; destruct (Rle_dec _ _); auto; lra.
  Qed.
  (** [q] is at the distance [d] from the line [l], on the side [s] *)
  Definition at_depth (s d : R) (l : Line_) (q : Pt) : Prop := s * side l q = d * seg_len l.
  (** Every corner of the inset tile is at the distance [d] from the two sides that meet there, towards the third corner of the tile. *)
  Theorem C168_corners (v0 v1 v2 v3 : Pt) (d : R) (q0 q1 q2 q3 : Pt) s : EPS <= d ->
    EPS <= seg_len (Ln v0 v1) -> EPS <= seg_len (Ln v1 v2) -> EPS <= seg_len (Ln v2 v3) -> EPS <= seg_len (Ln v3 v0) ->
    inset_polygon [v0; v1; v2; v3] d = Ok (Some [Some q0; Some q1; Some q2; Some q3]) ->
    s = 1 /\ 0 <= side (Ln v0 v1) v2 \/ s = -1 /\ side (Ln v0 v1) v2 < 0 ->
    at_depth s d (Ln v0 v1) q0 /\ at_depth s d (Ln v0 v1) q1 /\ at_depth s d (Ln v1 v2) q1 /\ at_depth s d (Ln v1 v2) q2 /\
    at_depth s d (Ln v2 v3) q2 /\ at_depth s d (Ln v2 v3) q3 /\ at_depth s d (Ln v3 v0) q3 /\ at_depth s d (Ln v3 v0) q0.
  Proof.
    intros Hd H1 H2 H3 H4 H Hs. unfold inset_polygon in H. cbv zeta in H. cbn [p1 p2] in H. qbind H. qbind H. clear B B0.
    match type of H with (if ?b then _ else _) = _ => destruct b; [|discriminate] end. rewrite which_R in H.
    set (o := Num.mul d _) in H. assert (O : (o : R) = d * s).
    { unfold o. rnum. destruct (Rle_dec 0 (side (Ln v0 v1) v2)); f_equal; lra. }
    clearbody o. assert (Ho : EPS <= Rabs o) by (rewrite O; destruct Hs as [(-> & _)|(-> & _)]; [rewrite Rabs_pos_eq|rewrite Rabs_left]; lra).
    assert (Hs2 : s * s = 1) by (destruct Hs as [(-> & _)|(-> & _)]; lra).
    injection H as I0 I1 I2 I3.
    destruct (inter_on _ _ _ I0) as (A0 & A1). destruct (inter_on _ _ _ I1) as (A2 & A3). destruct (inter_on _ _ _ I2) as (A4 & A5). destruct (inter_on _ _ _ I3) as (A6 & A7).
    apply (proj1 (offset_line _ _ Ho H4)) in A0, A7. apply (proj1 (offset_line _ _ Ho H1)) in A1, A2. apply (proj1 (offset_line _ _ Ho H2)) in A3, A4. apply (proj1 (offset_line _ _ Ho H3)) in A5, A6.
    unfold at_depth. rewrite A0, A1, A2, A3, A4, A5, A6, A7, O. assert (K : forall z, s * (d * s * z) = d * z) by (intros z; replace (s * (d * s * z)) with (s * s * (d * z)) by ring; rewrite Hs2; ring).
    rewrite !K. repeat split.
  Qed.
  (** A parallelogram (the tiles before the projection) that is at least 2 d wide in both directions: the inset tile exists, and each of its corners is
      at least [d] inside of all four sides, and exactly [d] from the sides that meet there. *)
  Theorem C168_inset (v0 v1 v2 v3 : Pt) (d s : R) : EPS <= d -> px v0 + px v2 = px v1 + px v3 -> py v0 + py v2 = py v1 + py v3 ->
    EPS <= seg_len (Ln v0 v1) -> EPS <= seg_len (Ln v1 v2) -> EPS <= Rabs (side (Ln v0 v1) v2) ->
    2 * d * seg_len (Ln v0 v1) <= Rabs (side (Ln v0 v1) v2) -> 2 * d * seg_len (Ln v1 v2) <= Rabs (side (Ln v0 v1) v2) ->
    s = 1 /\ 0 <= side (Ln v0 v1) v2 \/ s = -1 /\ side (Ln v0 v1) v2 < 0 ->
    exists q0 q1 q2 q3, inset_polygon [v0; v1; v2; v3] d = Ok (Some [Some q0; Some q1; Some q2; Some q3]) /\
      (forall q l, In q [q0; q1; q2; q3] -> In l [Ln v0 v1; Ln v1 v2; Ln v2 v3; Ln v3 v0] -> d * seg_len l <= s * side l q) /\
      at_depth s d (Ln v0 v1) q0 /\ at_depth s d (Ln v0 v1) q1 /\ at_depth s d (Ln v1 v2) q1 /\ at_depth s d (Ln v1 v2) q2 /\
      at_depth s d (Ln v2 v3) q2 /\ at_depth s d (Ln v2 v3) q3 /\ at_depth s d (Ln v3 v0) q3 /\ at_depth s d (Ln v3 v0) q0.
  Proof.
    intros Hd Px Py H1 H2 Ha W1 W2 Hs.
    assert (L3 : seg_len (Ln v2 v3) = seg_len (Ln v0 v1)). { unfold seg_len, euclid. cbn [p1 p2]. f_equal. unfold Rsqr. replace (px v2 - px v3) with (px v1 - px v0) by lra. replace (py v2 - py v3) with (py v1 - py v0) by lra. ring. }
    assert (L4 : seg_len (Ln v3 v0) = seg_len (Ln v1 v2)). { unfold seg_len, euclid. cbn [p1 p2]. f_equal. unfold Rsqr. replace (px v3 - px v0) with (px v2 - px v1) by lra. replace (py v3 - py v0) with (py v2 - py v1) by lra. ring. }
    assert (K : exists q0 q1 q2 q3, inset_polygon [v0; v1; v2; v3] d = Ok (Some [Some q0; Some q1; Some q2; Some q3])).
    { unfold inset_polygon. cbv zeta. cbn [p1 p2]. destruct (ldist_line (Ln v0 v1) v2 H1) as (d1 & D1 & _ & E1). destruct (ldist_line (Ln v1 v2) v0 H2) as (d2 & D2 & _ & E2). rewrite D1, D2. cbn [rbind]. rnum.
      assert (SS : side (Ln v1 v2) v0 = side (Ln v0 v1) v2) by (unfold side; cbn [p1 p2]; ring). rewrite SS in E2.
      destruct (Rleb (d * 2) d1) eqn:Z1; rbool; [|exfalso; nra]. destruct (Rleb (d * 2) d2) eqn:Z2; rbool; [|exfalso; nra]. cbn [andb]. rewrite which_R.
      match goal with |- context [loffset (Ln v3 v0) ?x] => set (o := x) end. assert (Ho : EPS <= Rabs o).
      { unfold o. destruct (Rle_dec 0 (side (Ln v0 v1) v2)); [rewrite Rabs_pos_eq|rewrite Rabs_left]; lra. }
      clearbody o. assert (H3 : EPS <= seg_len (Ln v2 v3)) by (rewrite L3; exact H1). assert (H4 : EPS <= seg_len (Ln v3 v0)) by (rewrite L4; exact H2).
      destruct (offset_line _ _ Ho H1) as (_ & A1 & B1). destruct (offset_line _ _ Ho H2) as (_ & A2 & B2). destruct (offset_line _ _ Ho H3) as (_ & A3 & B3). destruct (offset_line _ _ Ho H4) as (_ & A4 & B4).
      assert (CR : forall l m, dir_cross l m = side (Ln v0 v1) v2 \/ dir_cross l m = - side (Ln v0 v1) v2 -> EPS <= Rabs (dir_cross l m)) by (intros l m [-> | ->]; [exact Ha|rewrite Rabs_Ropp; exact Ha]).
      assert (X3 : px v3 = px v0 + px v2 - px v1) by lra. assert (Y3 : py v3 = py v0 + py v2 - py v1) by lra.
      destruct (inter_some (loffset (Ln v3 v0) o) (loffset (Ln v0 v1) o)) as (q0 & Q0). { apply CR. rewrite A4, B1. unfold dir_cross, side. cbn [p1 p2]. rewrite X3, Y3. left. ring. }
      destruct (inter_some (loffset (Ln v0 v1) o) (loffset (Ln v1 v2) o)) as (q1 & Q1). { apply CR. rewrite A1, B2. unfold dir_cross, side. cbn [p1 p2]. left. ring. }
      destruct (inter_some (loffset (Ln v1 v2) o) (loffset (Ln v2 v3) o)) as (q2 & Q2). { apply CR. rewrite A2, B3. unfold dir_cross, side. cbn [p1 p2]. rewrite X3, Y3. left. ring. }
      destruct (inter_some (loffset (Ln v2 v3) o) (loffset (Ln v3 v0) o)) as (q3 & Q3). { apply CR. rewrite A3, B4. unfold dir_cross, side. cbn [p1 p2]. rewrite X3, Y3. left. ring. }
      rewrite Q0, Q1, Q2, Q3. eauto. }
    destruct K as (q0 & q1 & q2 & q3 & Q). exists q0, q1, q2, q3. split; [exact Q|].
    pose proof (C168_corners v0 v1 v2 v3 d q0 q1 q2 q3 s Hd H1 H2 ltac:(rewrite L3; exact H1) ltac:(rewrite L4; exact H2) Q Hs) as C. split; [|exact C]. clear Q.
    assert (F3 : forall q, side (Ln v2 v3) q = side (Ln v0 v1) v2 - side (Ln v0 v1) q). { intros q. unfold side. cbn [p1 p2]. replace (px v3) with (px v0 + px v2 - px v1) by lra. replace (py v3) with (py v0 + py v2 - py v1) by lra. ring. }
    assert (F4 : forall q, side (Ln v3 v0) q = side (Ln v0 v1) v2 - side (Ln v1 v2) q). { intros q. unfold side. cbn [p1 p2]. replace (px v3) with (px v0 + px v2 - px v1) by lra. replace (py v3) with (py v0 + py v2 - py v1) by lra. ring. }
    assert (SA : s * side (Ln v0 v1) v2 = Rabs (side (Ln v0 v1) v2)) by (destruct Hs as [(-> & Z)|(-> & Z)]; [rewrite Rabs_pos_eq|rewrite Rabs_left]; lra).
    unfold at_depth in C. rewrite !F3, !F4, L3, L4, !Rmult_minus_distr_l, SA in C.
    intros q l Iq Il. assert (G : d * seg_len (Ln v0 v1) <= s * side (Ln v0 v1) q <= Rabs (side (Ln v0 v1) v2) - d * seg_len (Ln v0 v1) /\ d * seg_len (Ln v1 v2) <= s * side (Ln v1 v2) q <= Rabs (side (Ln v0 v1) v2) - d * seg_len (Ln v1 v2)).
    { cbn [In] in Iq. clear - C W1 W2 Iq. destruct Iq as [<-|[<-|[<-|[<-|[]]]]]; lra. }
    cbn [In] in Il. clear - G Il F3 F4 SA L3 L4. destruct Il as [<-|[<-|[<-|[<-|[]]]]]; rewrite ?F3, ?F4, ?L3, ?L4, ?Rmult_minus_distr_l, ?SA; lra.
  Qed.
  (** A thinner tile has none. *)
  Theorem C168_thin (v0 v1 v2 v3 : Pt) (d : R) : EPS <= seg_len (Ln v0 v1) -> EPS <= seg_len (Ln v1 v2) ->
    Rabs (side (Ln v0 v1) v2) < 2 * d * seg_len (Ln v0 v1) \/ Rabs (side (Ln v0 v1) v2) < 2 * d * seg_len (Ln v1 v2) -> inset_polygon [v0; v1; v2; v3] d = Ok None.
  Proof.
    intros H1 H2 W. unfold inset_polygon. cbv zeta. cbn [p1 p2]. destruct (ldist_line (Ln v0 v1) v2 H1) as (d1 & D1 & _ & E1). destruct (ldist_line (Ln v1 v2) v0 H2) as (d2 & D2 & _ & E2). rewrite D1, D2. cbn [rbind]. rnum.
    assert (SS : side (Ln v1 v2) v0 = side (Ln v0 v1) v2) by (unfold side; cbn [p1 p2]; ring). rewrite SS in E2.
    destruct (Rleb (d * 2) d1) eqn:Z1; rbool; [|reflexivity]. destruct (Rleb (d * 2) d2) eqn:Z2; rbool; [|reflexivity]. exfalso. destruct W; nra.
  Qed.
  (** Scaled segments keep their middle and have [k] times the length. *)
  Theorem C168_scaled (l : Line_) (k : R) : 0 < seg_len l -> 0 <= k -> exists m, scaled_segment k l = Ok m /\ at_param m (1 / 2) = at_param l (1 / 2) /\ seg_len m = k * seg_len l /\ on_line l (p1 m) /\ on_line l (p2 m).
  Proof.
    intros H Hk. unfold scaled_segment. rewrite seg_len_llen. cbv zeta. rnum. replace (Rlit 1 0) with 1 by reflexivity. destruct (Reqb k 1) eqn:Z; cbn [negb].
    - apply Reqb_true in Z. subst k. exists l. split; [reflexivity|]. split; [reflexivity|]. split; [ring|]. split; [exists 0|exists 1]; destruct l as [[a b] [c d]]; unfold at_param; cbn [px py p1 p2]; apply pt_ext; cbn [px py]; change (T ROps) with R in *; ring.
    - destruct (C36_extend_from_midpoint l (seg_len l * k - seg_len l) H) as (m & A & B & C & D & F). exists m. split; [exact A|]. split; [exact D|]. split; [rewrite F; [ring|nra]|split; assumption].
  Qed.
End Inset.
(** False of the code: a segment without length cannot be scaled. *)
Theorem C168_point_refuted {E : Epsilon ROps} (p : Pt) (k : R) : k <> 1 -> scaled_segment k (Ln p p) = Raise ZeroDivisionError.
Proof. intros H. unfold scaled_segment. rnum. replace (Rlit 1 0) with 1 by reflexivity. destruct (Reqb k 1) eqn:Z; [apply Reqb_true in Z; lra|]. cbn [negb]. apply C36_extend_degenerate. reflexivity. Qed.
Example C168_example : let v := [P 0 0; P 10 0; P 10 10; P 0 10]%R : list Pt in exists q0 q1 q2 q3, inset_polygon (E:=eps6) v 2%R = Ok (Some [Some q0; Some q1; Some q2; Some q3]) /\
  side (Ln (P 0 0) (P 10 0))%R q0 = 2 * 10 /\ side (Ln (P 0 10) (P 0 0))%R q0 = 2 * 10.
Proof.
  assert (He : 0 < EPS (Epsilon:=eps6)) by (unfold EPS, eps6; cbn; lra). assert (He1 : EPS (Epsilon:=eps6) < 1) by (unfold EPS, eps6; cbn; lra).
  assert (L1 : seg_len (Ln (P 0 0) (P 10 0))%R = 10) by (apply euclid_unique; cbn [px py p1 p2]; lra).
  assert (L2 : seg_len (Ln (P 10 0) (P 10 10))%R = 10) by (apply euclid_unique; cbn [px py p1 p2]; lra).
  assert (L4 : seg_len (Ln (P 0 10) (P 0 0))%R = 10) by (apply euclid_unique; cbn [px py p1 p2]; lra).
  assert (S : side (Ln (P 0 0) (P 10 0))%R (P 10 10)%R = 100) by (unfold side; cbn [px py p1 p2]; lra).
  destruct (C168_inset (E:=eps6) He (P 0 0)%R (P 10 0)%R (P 10 10)%R (P 0 10)%R 2 1) as (q0 & q1 & q2 & q3 & A & _ & B & _ & _ & _ & _ & _ & _ & C).
  1-9: rewrite ?L1, ?L2, ?S, ?(Rabs_pos_eq 100) by lra; cbn [px py]; try lra. exists q0, q1, q2, q3. unfold at_depth in B, C. rewrite L1 in B. rewrite L4 in C. split; [exact A|]. lra.
Qed.

(** ** C169: nested offsets.  [off] is the offset operation of the Clipper library. *)
Section Offsets.
  Context {N : NumOps}.
  Variable off : list (pt N) -> list (list (pt N)).
  (** [q] is one of the offsets of [p], or an offset of one, and so on *)
  Inductive nested (p : list (pt N)) : list (pt N) -> Prop :=
  | nested_one q : In q (off p) -> nested p q
  | nested_more q r : In q (off p) -> nested q r -> nested p r.
  Notation each fuel recurs := (fix each (l : list (list (pt N))) : res (list (list (pt N))) :=
           match l with
           | [] => Ok []
           | poly :: r =>
               rbind (if recurs then offset_polys fuel off true (off poly) else Ok []) (fun sub =>
               rbind (each r) (fun rest => Ok (off poly ++ sub ++ rest)))
           end).
  Lemma offset_each fuel recurs polys : offset_polys (S fuel) off recurs polys = each fuel recurs polys.
  Proof. reflexivity. Qed.
  Lemma nested_in fuel : forall polys out, offset_polys fuel off true polys = Ok out -> forall q, In q out <-> exists p, In p polys /\ nested p q.
  Proof.
    induction fuel as [|n IH]; intros polys out H; [discriminate|]. rewrite offset_each in H. revert out H. induction polys as [|p polys IHp]; intros out H q.
    - injection H as <-. split; [intros []|intros (p & [] & _)].
    - qbind H. qbind H. injection H as <-. specialize (IH _ _ B q). specialize (IHp _ B0 q). rewrite !in_app_iff, IH, IHp. split.
      + intros [A|[(p' & A & A')|(p' & A & A')]]; [exists p; split; [now left|now apply nested_one]|exists p; split; [now left|now apply nested_more with p']|exists p'; split; [now right|exact A']].
      + intros (p' & [<-|A] & A'); [|right; right; eauto]. destruct A' as [q A'|p2 q A1 A2]; [now left|right; left; eauto].
  Qed.
  Lemma single_in fuel polys out : offset_polys (S fuel) off false polys = Ok out -> out = concat (map off polys).
  Proof.
    rewrite offset_each. revert out. induction polys as [|p polys IH]; intros out H; [injection H as <-; reflexivity|]. cbn [rbind] in H. qbind H. injection H as <-. cbn [map concat app]. rewrite (IH _ B). reflexivity.
  Qed.
  Lemma nested_ends (size : list (pt N) -> nat) : (forall p q, In q (off p) -> (size q < size p)%nat) ->
    forall fuel polys, (forall p, In p polys -> (size p < fuel)%nat) -> exists out, offset_polys (S fuel) off true polys = Ok out.
  Proof.
    intros Hs. induction fuel as [|n IH]; intros polys F; rewrite offset_each.
    - destruct polys as [|p polys]; [eauto|]. specialize (F p (or_introl eq_refl)). lia.
    - induction polys as [|p polys IHp]; [eauto|]. destruct (IH (off p)) as (sub & Q). { intros q A. pose proof (Hs _ _ A). pose proof (F p (or_introl eq_refl)). lia. }
      rewrite Q. cbn [rbind]. destruct IHp as (rest & Q2); [intros q A; apply F; now right|]. rewrite Q2. cbn [rbind]. eauto.
  Qed.
  Lemma nested_endless : (forall p, off p <> []) -> forall fuel p polys, offset_polys fuel off true (p :: polys) = Raise OutOfFuel.
  Proof.
    intros Hs. induction fuel as [|n IH]; intros p polys; [reflexivity|]. rewrite offset_each. destruct (off p) as [|q qs] eqn:Q; [now apply Hs in Q|]. rewrite IH. reflexivity.
  Qed.
End Offsets.
(** The nested offsets are the offsets, their offsets and so on, nothing else; *)
Theorem C169_nested {N : NumOps} (off : list (pt N) -> list (list (pt N))) fuel polys out : offset_polys fuel off true polys = Ok out ->
  forall q, In q out <-> exists p, In p polys /\ nested off p q.
Proof. apply nested_in. Qed.
(** without nesting, the offsets in the order of the polygons. *)
Theorem C169_single {N : NumOps} (off : list (pt N) -> list (list (pt N))) fuel polys out : offset_polys fuel off false polys = Ok out -> out = concat (map off polys).
Proof. destruct fuel; [discriminate|]. apply single_in. Qed.
(** It ends if offsetting makes polygons smaller in some sense, *)
Theorem C169_ends {N : NumOps} (off : list (pt N) -> list (list (pt N))) (size : list (pt N) -> nat) polys : (forall p q, In q (off p) -> (size q < size p)%nat) ->
  exists fuel out, offset_polys fuel off true polys = Ok out.
Proof.
  intros Hs. assert (M : exists n, forall p, In p polys -> (size p < n)%nat).
  { induction polys as [|p polys (n & A)]; [exists 0%nat; intros ? []|]. exists (S (Nat.max n (size p))). intros q [<-|B]; [lia|]. specialize (A _ B). lia. }
  destruct M as (n & A). exists (S n). apply (nested_ends off size Hs). exact A.
Qed.
(** False of the code: with an outward offset, of which every polygon has one, it does not end. *)
Theorem C169_endless_refuted {N : NumOps} (off : list (pt N) -> list (list (pt N))) fuel p polys : (forall p, off p <> []) -> offset_polys fuel off true (p :: polys) = Raise OutOfFuel.
Proof. intros H. apply nested_endless. exact H. Qed.
Example C169_example : let off := fun p : list Pt => match p with [] => [] | _ :: r => [r] end in offset_polys 4 off true [[P 1 1; P 2 2]]%R = Ok [[P 2 2]; []]%R.
Proof. reflexivity. Qed.

(** What [place] and [region_inside] of the specification mean: the affine map, then the projection; *)
Theorem C166_place (c : pconf ROps) (p : Pt) : place c p = project (pc_proj c)
  (P (m00 (pc_matrix c) * px p + m01 (pc_matrix c) * py p + m02 (pc_matrix c))%R (m10 (pc_matrix c) * px p + m11 (pc_matrix c) * py p + m12 (pc_matrix c))%R).
Proof. reflexivity. Qed.
Theorem C166_place_plain (m : mat ROps) rg all (p : Pt) : place (PConf rg m Identity all) p =
  Ok (P (m00 m * px p + m01 m * py p + m02 m)%R (m10 m * px p + m11 m * py p + m12 m)%R).
Proof. reflexivity. Qed.
(** nothing is clipped without a region, else what is not strictly inside of the rectangle or of the circle. *)
Theorem C166_no_region {E : Epsilon ROps} (p : Pt) : region_inside NoClip p = Ok true.
Proof. reflexivity. Qed.
Theorem C166_rectangle {E : Epsilon ROps} (b : Box_) (p : Pt) : exists v, region_inside (ClipBox b) p = Ok v /\
  (v = true <-> px (b1 b) < px p < px (b2 b) /\ py (b1 b) < py p < py (b2 b)).
Proof.
  exists (point_inside b p). split; [reflexivity|]. unfold point_inside, xmin, xmax, ymin, ymax. rnum. rewrite !andb_true_iff, !Rltb_true. tauto.
Qed.
Theorem C166_circle {E : Epsilon ROps} (e : ellipse ROps) (r : R) (p : Pt) : 0 < EPS -> 0 < r -> erx e = r -> ery e = r -> exists v, region_inside (ClipEllipse e) p = Ok v /\
  (v = true <-> euclid p (ec e) < r).
Proof.
  intros He Hr Q1 Q2. cbn [region_inside]. unfold epoint_inside. assert (C : is_circle e = true).
  { unfold is_circle, feq. rewrite Q1, Q2. rnum. rewrite Rminus_diag_eq, Rabs_R0 by reflexivity. apply Rltb_true. exact He. }
  rewrite C. cbn [orb]. unfold pydiv. rewrite Q1, Q2. rnum. destruct (Reqb r 0) eqn:Z; [apply Reqb_true in Z; lra|]. cbn [rbind]. eexists. split; [reflexivity|].
  cbn [psub px py]. rnum. pose proof (euclid_sqr p (ec e)) as S. pose proof (euclid_pos p (ec e)). rewrite Rltb_true. set (h := euclid p (ec e)) in *.
  assert (X : forall x : R, x / r * (x / r) = x * x / (r * r)) by (intros; field; lra). rewrite !X.
  assert (K : (px p - px (ec e)) * (px p - px (ec e)) / (r * r) + (py p - py (ec e)) * (py p - py (ec e)) / (r * r) - 1 = (h * h - r * r) / (r * r)) by (rewrite S; field; lra).
  change (T ROps) with R in *. rewrite K. assert (0 < / (r * r)) by (apply Rinv_0_lt_compat; nra). split; intros L.
  - apply Rnot_le_lt. intros M. assert (0 <= (h * h - r * r) / (r * r)) by (apply Rmult_le_pos; [nra|lra]). lra.
  - unfold Rdiv. assert (h * h - r * r < 0) by nra. nra.
Qed.
