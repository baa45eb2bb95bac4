(** * FilletProofs2: fillets of whole paths. *)
From Verif Require Import Num NumR Geom GeomR GeomSpec GeomProofs GeomProofs2 GeomProofs3 GeomProofs4 GeomProofs5 GeomProofs7 Gcode Cam Offset OffsetSpec OffsetProofs Fillet FilletSpec FilletProofs.
From Coq Require Import ZArith Reals Lra Lia Bool List Psatz.
Import ListNotations.
Local Open Scope R_scope.

Lemma last_default {A} (r : list A) : forall x y, r <> [] -> last r x = last r y.
Proof. induction r as [|a [|b r] IH]; intros x y H; [congruence|reflexivity|]. exact (IH x y ltac:(discriminate)). Qed.
Lemma last_cons {A} (r : list A) x y : last (x :: r) y = last r x.
Proof. destruct r as [|a r]; [reflexivity|]. change (last (a :: r) y = last (a :: r) x). apply last_default. discriminate. Qed.
(** The ends of a chain of segments. *)
Definition chain_first (l : list Seg) (d : Pt) : Pt := match l with s :: _ => s_p1 s | [] => d end.
Definition chain_last (l : list Seg) (d : Pt) : Pt := match rev l with s :: _ => s_p2 s | [] => d end.
Lemma unbroken_app eps p q : unbroken eps (p ++ q) <-> unbroken eps p /\ unbroken eps q /\
  (forall x y, (exists p', p = p' ++ [x]) -> (exists q', q = y :: q') -> euclid (s_p2 x) (s_p1 y) < eps).
Proof.
  induction p as [|s [|t r] IH].
  - cbn. split; [intros H; repeat split; auto|tauto]. intros x y [p' Hp]. now destruct p'.
  - cbn [app]. split.
    + intros H. split; [exact Logic.I|]. destruct q as [|y q]; [split; [exact Logic.I|intros x z _ [q' Hq]; discriminate]|].
      destruct H as [H1 H2]. split; [exact H2|]. intros x z [p' Hp] [q' Hq]. injection Hq as -> ->.
      destruct p' as [|? [|? ?]]; try discriminate Hp. injection Hp as ->. exact H1.
    + intros (_ & H2 & H3). destruct q as [|y q]; [exact Logic.I|]. split; [|exact H2]. apply (H3 s y); [now exists []|eauto].
  - change ((s :: t :: r) ++ q) with (s :: (t :: r) ++ q). cbn [app] in *. split.
    + intros [H1 H2]. apply IH in H2 as (H2 & H3 & H4). split; [split; assumption|]. split; [exact H3|].
      intros x y [p' Hp] Hq. apply H4; auto. destruct p' as [|z p']; [discriminate|]. injection Hp as _ Hp. eauto.
    + intros ([H1 H2] & H3 & H4). split; [exact H1|]. apply IH. repeat split; auto.
      intros x y [p' Hp] Hq. apply H4; auto. exists (s :: p'). cbn. now rewrite Hp.
Qed.

Section F.
  Context {E : Epsilon ROps}.
  Hypothesis He : 0 < EPS.
  Lemma same_close eps (a b : Pt) : 0 < eps -> a = b -> euclid a b < eps.
  Proof. intros H ->. replace (euclid b b) with 0 by (symmetry; now apply euclid_zero). exact H. Qed.

  (** A point of the clamped projection is on the segment, whatever the segment. *)
  Lemma lproj_on_segment (l : Line_) c q : lproj_point l c true = Ok q -> on_segment l q.
  Proof.
    unfold lproj_point. destruct (pproj (vec l) (psub c (p1 l))) as [u|]; cbn [rmap andb]; [|discriminate]. rnum.
    destruct (Rleb u 0) eqn:A; [|destruct (Rleb 1 u) eqn:B]; intros H; injection H as <-; rbool.
    - exists 0. split; [lra|]. now rewrite at_param_0.
    - exists 1. split; [lra|]. now rewrite at_param_1.
    - exists u. split; [lra|]. now rewrite <- at_param_model.
  Qed.
  Lemma line_line_sound (l1 l2 : Line_) r f : fillet_line_line l1 l2 r = Ok (Some f) ->
    on_segment l1 (ap1 f) /\ on_segment l2 (ap2 f) /\ EPS <= euclid (ap1 f) (ap2 f) /\
    Rabs (radius f - r) < EPS /\ radius f = euclid (ap1 f) (center f) /\ Rabs (euclid (ap2 f) (center f) - r) < EPS.
  Proof.
    unfold fillet_line_line. destruct (intersection _ _ _ _ _) as [c|]; [|discriminate].
    destruct (lproj_point l1 c true) as [q1|] eqn:P1; cbn [rbind]; [|discriminate].
    destruct (lproj_point l2 c true) as [q2|] eqn:P2; cbn [rbind]; [|discriminate].
    destruct (negb (peq q1 q2) && feq (pdist q1 c) r && feq (pdist q2 c) r)%bool eqn:B; [|discriminate].
    intros H. injection H as <-. apply andb_true_iff in B as [B B3]. apply andb_true_iff in B as [B1 B2].
    apply negb_true_iff in B1. apply (peq_false He) in B1. 
    pose proof (dist_euclid q1 c) as D1. pose proof (dist_euclid q2 c) as D2. unfold feq in B2, B3. rnum. rewrite D1 in B2. rewrite D2 in B3.
    apply Rltb_true in B2, B3. unfold arc_from_center. cbn [ap1 ap2 radius center]. rewrite D1.
    repeat split; auto; eapply lproj_on_segment; eauto.
  Qed.

  Lemma part_refl s : part s s.
  Proof.
    destruct s as [l|a]; cbn; [|auto]. exists 0, 1. split; [lra|]. split; [lra|]. split; [lra|]. rewrite at_param_0, at_param_1. now destruct l.
  Qed.
  Lemma at_param_at (l : Line_) u v w : at_param (Ln (at_param l u) (at_param l v)) w = at_param l (u + w * (v - u)).
  Proof. destruct l as [A B]. unfold at_param. cbn [px py p1 p2]. apply pt_ext; cbn [px py]; match goal with |- ?a = ?b => change (@eq R a b) end; ring. Qed.
  Lemma part_trans s a b : part s a -> part a b -> part s b.
  Proof.
    destruct s as [l|x], a as [m|y], b as [k|z]; cbn; try tauto.
    - intros (u & v & U0 & UV & V1 & ->) (u' & v' & U0' & UV' & V1' & ->). rewrite !at_param_at.
      exists (u + u' * (v - u)), (u + v' * (v - u)). repeat split; nra.
    - intros [-> ->] [-> ->]. auto.
  Qed.

  (** ** The loop, for any kind of element with a geometry. *)
  Section Loop.
    Context {A : Type} (g : A -> Seg) (mk : A -> A -> res (option (A * A * A))).
    Let fst_ (a : A) := s_p1 (g a).
    Let lst_ (a : A) := s_p2 (g a).
    Hypothesis mk_ends : forall s t a f b, mk s t = Ok (Some (a, f, b)) ->
      s_p1 (g a) = s_p1 (g s) /\ s_p2 (g a) = s_p1 (g f) /\ s_p2 (g f) = s_p1 (g b) /\ s_p2 (g b) = s_p2 (g t).
    Variable eps : R.
    Hypothesis Heps : 0 < eps.

    Lemma loop_spec rest : forall s acc out, fillet_loop mk s acc rest = Ok out ->
      exists body, out = acc ++ body /\ (S (length rest) <= length body)%nat /\
        (length body = S (length rest) -> body = s :: rest) /\
        (unbroken eps (map g (s :: rest)) -> unbroken eps (map g body)) /\
        chain_first (map g body) (s_p1 (g s)) = s_p1 (g s) /\
        s_p2 (g (last body s)) = s_p2 (g (last (s :: rest) s)).
    Proof.
      induction rest as [|t r IH]; intros s acc out; cbn [fillet_loop].
      - intros H. injection H as <-. exists [s]. cbn. repeat split; auto.
      - destruct (mk s t) as [[[[a f] b]|]|] eqn:M; cbn [rbind]; [| |discriminate].
        + intros H. apply IH in H as (body & -> & L & _ & U & F & La). apply mk_ends in M as (M1 & M2 & M3 & M4).
          exists (a :: f :: body). rewrite <- app_assoc. split; [reflexivity|].
          destruct body as [|b' body]; [cbn in L; lia|]. cbn [map chain_first] in F.
          split; [cbn [length] in *; lia|]. split; [cbn [length] in *; lia|]. split; [|split].
          * intros Hu. cbn [map] in *. split; [apply same_close; [exact Heps|exact M2]|]. split; [apply same_close; [exact Heps|]|].
            -- change (s_p2 (g f) = s_p1 (g b')). rewrite M3. auto.
            -- apply U. destruct Hu as [_ Hu]. destruct r as [|u r]; [exact Logic.I|]. cbn [map unbroken] in *.
               destruct Hu as [Hu1 Hu2]. split; [|exact Hu2]. change (euclid (s_p2 (g b)) (seg_begin (g u)) < eps). rewrite M4. exact Hu1.
          * cbn. auto.
          * change (s_p2 (g (last (b' :: body) s)) = s_p2 (g (last (t :: r) s))).
            rewrite (last_default (b' :: body) s b) by discriminate. rewrite La.
            destruct r as [|u r]; [exact M4|]. change (last (b :: u :: r) b) with (last (u :: r) b). change (last (t :: u :: r) s) with (last (u :: r) s).
            rewrite (last_default (u :: r) b s) by discriminate. reflexivity.
        + intros H. apply IH in H as (body & -> & L & Eq & U & F & La). exists (s :: body). rewrite <- app_assoc. split; [reflexivity|].
          destruct body as [|b' body]; [cbn in L; lia|]. cbn [map chain_first] in F.
          split; [cbn [length] in *; lia|]. split; [intros HL; f_equal; apply Eq; cbn [length] in *; lia|]. split; [|split].
          * intros [Hu1 Hu2]. cbn [map] in *. split; [|apply U; exact Hu2]. change (euclid (s_p2 (g s)) (s_p1 (g b')) < eps). rewrite F. exact Hu1.
          * reflexivity.
          * change (s_p2 (g (last (b' :: body) s)) = s_p2 (g (last (t :: r) s))).
            rewrite (last_default (b' :: body) s t), (last_default (t :: r) s t) by discriminate. exact La.
    Qed.
    Lemma close_spec (l : list A) h tl_ a f b : l = h :: tl_ -> tl_ <> [] -> mk (last l h) h = Ok (Some (a, f, b)) ->
      unbroken eps (map g l) ->
      unbroken eps (map g (close_with l a f b)) /\ length (close_with l a f b) = S (length l) /\
      exists z, close_with l a f b = b :: z /\ s_p2 (g (last z h)) = s_p1 (g b).
    Proof.
      intros -> Ht M Hu. apply mk_ends in M as (M1 & M2 & M3 & M4).
      assert (D : h :: tl_ = (h :: removelast tl_) ++ [last tl_ h]) by (cbn [app]; f_equal; apply app_removelast_last; exact Ht).
      assert (La : last (h :: tl_) h = last tl_ h) by (destruct tl_; [congruence|reflexivity]). rewrite La in *.
      assert (Rl : removelast (h :: tl_) = h :: removelast tl_) by (destruct tl_; [congruence|reflexivity]).
      unfold close_with. rewrite Rl. cbn [app].
      set (m := removelast tl_) in *. set (z := last tl_ h) in *.
      assert (Lm : length tl_ = S (length m)).
      { unfold m. rewrite (app_removelast_last h Ht) at 1. rewrite app_length. cbn. lia. }
      split; [|split].
      - rewrite D in Hu. change ((h :: m) ++ [z]) with (h :: (m ++ [z])) in Hu.
        assert (U2 : unbroken eps (map g (m ++ [z]))) by (cbn [map] in Hu; destruct m; exact (proj2 Hu)).
        assert (U1 : forall x y, m ++ [z] = x :: y -> euclid (s_p2 (g h)) (s_p1 (g x)) < eps).
        { intros x y Q. rewrite Q in Hu. exact (proj1 Hu). }
        assert (U3 : unbroken eps (map g (m ++ [a; f]))).
        { rewrite map_app in *. apply unbroken_app in U2 as (V1 & _ & V3). apply unbroken_app. split; [exact V1|]. split.
          - cbn. split; [apply same_close; [exact Heps|exact M2]|exact Logic.I].
          - intros x y Hx [q' Hq]. injection Hq as <- _. rewrite M1. apply (V3 x (g z)); [exact Hx|cbn; eauto]. }
        destruct (m ++ [a; f]) as [|x y] eqn:Q; [destruct m; discriminate|]. cbn [map unbroken]. split; [|exact U3].
        change (euclid (s_p2 (g b)) (s_p1 (g x)) < eps). rewrite M4. destruct m as [|w m].
        + injection Q as <- _. rewrite M1. apply (U1 z []). reflexivity.
        + injection Q as <- _. apply (U1 w (m ++ [z])). reflexivity.
      - cbn [length]. rewrite app_length. cbn. lia.
      - eexists. split; [reflexivity|]. replace (m ++ [a; f]) with ((m ++ [a]) ++ [f]) by (rewrite <- app_assoc; reflexivity). rewrite last_last. exact M3.
    Qed.

    Lemma path_spec path r close out : fillet_path_gen fst_ lst_ mk path r close = Ok out ->
      out = path \/
      (exists s0 rest, path = s0 :: rest /\ (length path < length out)%nat /\
       (unbroken eps (map g path) -> unbroken eps (map g out)) /\
       exists h z, out = h :: z /\
       (s_p1 (g h) = s_p1 (g s0) /\ s_p2 (g (last z h)) = s_p2 (g (last rest s0)) \/
        close = true /\ peq (s_p1 (g s0)) (s_p2 (g (last rest s0))) = true /\ s_p2 (g (last z h)) = s_p1 (g h))).
    Proof.
      unfold fillet_path_gen. destruct path as [|s0 [|s1 rest]]; [intros H; injection H; auto..|].
      destruct (ltb r EPS); [intros H; injection H; auto|]. cbn [tl].
      destruct (fillet_loop mk s0 [] (s1 :: rest)) as [np|] eqn:L; cbn [rbind]; [|discriminate].
      apply loop_spec in L as (body & -> & Ln & Eq & U & F & La). cbn [app] in *.
      assert (Lst : last (s0 :: s1 :: rest) s0 = last (s1 :: rest) s0) by reflexivity.
      destruct (_ && _ && _)%bool eqn:C.
      - apply andb_true_iff in C as [C Cp]. apply andb_true_iff in C as [Cc Cl].
        unfold fillet_close_end. destruct body as [|h body]; [cbn in Ln; lia|].
        assert (Lh : last (h :: body) s0 = last (h :: body) h) by (apply last_default; discriminate). rewrite Lh in *.
        destruct (mk (last (h :: body) h) h) as [[[[a f] b]|]|] eqn:M; cbn [rbind]; [| |discriminate].
        + assert (Hb : body <> []) by (destruct body; [cbn in Ln; lia|discriminate]).
          match goal with |- context [if Nat.ltb ?u ?v then ?w else _] => destruct (Nat.ltb u v) eqn:LT end; [|intros H; injection H; auto]. intros H. injection H as <-. right.
          exists s0, (s1 :: rest). split; [reflexivity|]. split; [apply Nat.ltb_lt; exact LT|]. split.
          * intros Hu. eapply close_spec; eauto.
          * assert (Dummy : unbroken 0 [] ) by exact Logic.I.
            destruct (mk_ends _ _ _ _ _ M) as (M1 & M2 & M3 & M4).
            assert (exists z, close_with (h :: body) a f b = b :: z /\ last z b = f) as (z & Z1 & Z2).
            { unfold close_with. destruct body as [|w body]; [congruence|]. change (removelast (h :: w :: body)) with (h :: removelast (w :: body)). cbn [app].
              eexists. split; [reflexivity|]. replace (removelast (w :: body) ++ [a; f]) with ((removelast (w :: body) ++ [a]) ++ [f]) by (rewrite <- app_assoc; reflexivity). apply last_last. }
            exists b, z. split; [exact Z1|]. right. split; [exact Cc|]. split; [exact Cp|]. rewrite Z2. exact M3.
        + match goal with |- context [if Nat.ltb ?u ?v then ?w else _] => destruct (Nat.ltb u v) eqn:LT end; [|intros H; injection H; auto]. intros H. injection H as <-. right.
          exists s0, (s1 :: rest). split; [reflexivity|]. split; [apply Nat.ltb_lt; exact LT|]. split; [exact U|].
          exists h, body. split; [reflexivity|]. left. split; [exact F|]. 
          rewrite <- last_cons with (y := h), La. reflexivity.
      - cbn [rbind]. match goal with |- context [if Nat.ltb ?u ?v then ?w else _] => destruct (Nat.ltb u v) eqn:LT end; [|intros H; injection H; auto]. intros H. injection H as <-. right.
        exists s0, (s1 :: rest). split; [reflexivity|]. split; [apply Nat.ltb_lt; exact LT|]. split; [exact U|].
        destruct body as [|h body]; [cbn in Ln; lia|]. exists h, body. split; [reflexivity|]. left. split; [exact F|].
        rewrite <- last_cons with (y := s0), La. reflexivity.
    Qed.

    (** *** What the segments of the result are. *)
    Variables (K : Seg -> Prop) (ok : Arc_ -> Prop).
    Hypothesis K_part : forall s a, K s -> part s a -> K a.
    Hypothesis mk_part : forall s t a f b, K (g s) -> K (g t) -> mk s t = Ok (Some (a, f, b)) ->
      part (g s) (g a) /\ part (g t) (g b) /\ exists fa, g f = SArc fa /\ ok fa.

    Lemma loop_rounded rest : forall o s acc out, K (g s) -> (forall t, In t rest -> K (g t)) -> part o (g s) -> s_p2 (g s) = seg_finish o ->
      fillet_loop mk s acc rest = Ok out ->
      exists b body, out = acc ++ b :: body /\ rounded ok (o :: map g rest) (map g (b :: body)) /\ s_p1 (g b) = s_p1 (g s).
    Proof.
      induction rest as [|t r IH]; intros o s acc out Ks Kr Po Fo; cbn [fillet_loop].
      - intros H. injection H as <-. exists s, []. split; [reflexivity|]. split; [|reflexivity]. cbn. constructor; [exact Po|exact Fo].
      - destruct (mk s t) as [[[[a f] b]|]|] eqn:M; cbn [rbind]; [| |discriminate].
        + assert (Kt : K (g t)) by (apply Kr; now left).
          destruct (mk_part _ _ _ _ _ Ks Kt M) as (Pa & Pb & fa & Gf & Of). apply mk_ends in M as (M1 & M2 & M3 & M4).
          intros H. apply (IH (g t)) in H; [|exact (K_part _ _ Kt Pb)|intros; apply Kr; now right|exact Pb|exact M4].
          destruct H as (b' & body & -> & Rd & B1). exists a, (f :: b' :: body). rewrite <- app_assoc. split; [reflexivity|]. split; [|exact M1].
          cbn [map]. rewrite Gf. rewrite Gf in M2, M3. apply rd_fillet; [exact (part_trans _ _ _ Po Pa)|exact Of|symmetry; exact M2| |exact Rd].
          change (ap2 fa = s_p1 (g b')). rewrite B1. exact M3.
        + assert (Kt : K (g t)) by (apply Kr; now left).
          intros H. apply (IH (g t)) in H; [|exact Kt|intros; apply Kr; now right|apply part_refl|reflexivity].
          destruct H as (b' & body & -> & Rd & B1). exists s, (b' :: body). rewrite <- app_assoc. split; [reflexivity|]. split; [|reflexivity].
          cbn [map]. apply rd_plain; [exact Po|exact Fo|exact B1|exact Rd].
    Qed.
    Lemma rounded_refl s p : rounded ok (s :: p) (s :: p).
    Proof. revert s. induction p as [|t p IH]; intros s; constructor; auto using part_refl. Qed.
    Lemma rounded_ends_K p out : rounded ok p out -> (forall s, In s p -> K s) ->
      exists h z, hd_error out = Some h /\ hd_error (rev out) = Some z /\ K h /\ K z.
    Proof.
      induction 1 as [s a Pa Fa|s a b t p out Pa Fa Fb Rd IH|s a f b t p out Pa Of F1 F2 Rd IH]; intros HK.
      - exists a, a. assert (K a) by (apply (K_part s); [apply HK; now left|assumption]). auto.
      - assert (K a) by (apply (K_part s); [apply HK; now left|assumption]).
        destruct IH as (h & z & H1 & H2 & H3 & H4); [intros; apply HK; now right|]. exists a, z.
        split; [reflexivity|]. split; [|split; assumption]. change (rev (a :: b :: out)) with (rev (b :: out) ++ [a]). destruct (rev (b :: out)); [discriminate|exact H2].
      - assert (K a) by (apply (K_part s); [apply HK; now left|assumption]).
        destruct IH as (h & z & H1 & H2 & H3 & H4); [intros; apply HK; now right|]. exists a, z.
        split; [reflexivity|]. split; [|split; assumption]. change (rev (a :: SArc f :: b :: out)) with ((rev (b :: out) ++ [SArc f]) ++ [a]).
        destruct (rev (b :: out)); [discriminate|exact H2].
    Qed.
    Lemma close_rounded t0 t1 p h body s0 a f b : rounded ok (t0 :: t1 :: p) (map g (h :: body)) -> (forall s, In s (t0 :: t1 :: p) -> K s) ->
      mk (last (h :: body) s0) h = Ok (Some (a, f, b)) -> round_closed ok (t0 :: t1 :: p) (map g (close_with (h :: body) a f b)).
    Proof.
      intros Rd HK M.
          destruct (rounded_ends_K _ _ Rd) as (kh & kz & Z1 & Z2 & Kh & Kz); [exact HK|].
          cbn in Z1. injection Z1 as <-.
          assert (Bn : body <> []).
          { intros ->. cbn in Rd. inversion Rd. }
          destruct (exists_last Bn) as (m & z & ->). 
          assert (LZ : last (h :: m ++ [z]) s0 = z) by (change (h :: m ++ [z]) with ((h :: m) ++ [z]); apply last_last). rewrite LZ in M.
          rewrite map_cons, map_app in Z2. cbn [rev] in Z2. rewrite rev_app_distr in Z2. cbn in Z2. injection Z2 as <-.
          destruct (mk_part _ _ _ _ _ Kz Kh M) as (Pa & Pb & fa & Gf & Of). apply mk_ends in M as (M1 & M2 & M3 & M4).
          rewrite Gf in M2, M3.
          exists (g h), (map g m), (g z), (g b), (g a), fa. change (map g (h :: m ++ [z])) with (g h :: map g (m ++ [z])) in Rd. rewrite map_app in Rd. split; [exact Rd|].
          unfold close_with. change (h :: m ++ [z]) with ((h :: m) ++ [z]). rewrite removelast_last. cbn [app map]. rewrite map_app. cbn [map]. rewrite Gf.
          repeat split; auto.
    Qed.
    Lemma path_rounded path r close out : (forall s, In s path -> K (g s)) -> path <> [] ->
      fillet_path_gen fst_ lst_ mk path r close = Ok out ->
      rounded ok (map g path) (map g out) \/ close = true /\ round_closed ok (map g path) (map g out).
    Proof.
      intros HK Hn. unfold fillet_path_gen. destruct path as [|s0 [|s1 rest]]; [congruence|intros H; injection H as <-; left; apply rounded_refl|].
      destruct (ltb r EPS); [intros H; injection H as <-; left; apply rounded_refl|]. cbn [tl].
      destruct (fillet_loop mk s0 [] (s1 :: rest)) as [np|] eqn:L; cbn [rbind]; [|discriminate].
      apply (loop_rounded _ (g s0)) in L; [|apply HK; now left|intros; apply HK; now right|apply part_refl|reflexivity].
      destruct L as (h & body & -> & Rd & B1). cbn [app].
      destruct (_ && _ && _)%bool eqn:C.
      - apply andb_true_iff in C as [C Cp]. apply andb_true_iff in C as [Cc Cl].
        unfold fillet_close_end. 
        destruct (mk (last (h :: body) s0) h) as [[[[a f] b]|]|] eqn:M; cbn [rbind]; [| |discriminate].
        + match goal with |- context [if Nat.ltb ?u ?v then ?w else _] => destruct (Nat.ltb u v) end; [|intros H; injection H as <-; left; apply rounded_refl].
          intros H. injection H as <-. right. split; [exact Cc|].
          eapply close_rounded; [exact Rd| |exact M].
          intros s Hs. assert (Hs' : In s (map g (s0 :: s1 :: rest))) by exact Hs. apply in_map_iff in Hs' as (y & <- & Hy). now apply HK.
        + match goal with |- context [if Nat.ltb ?u ?v then ?w else _] => destruct (Nat.ltb u v) end; intros H; injection H as <-; left; [exact Rd|apply rounded_refl].
      - cbn [rbind]. match goal with |- context [if Nat.ltb ?u ?v then ?w else _] => destruct (Nat.ltb u v) end; intros H; injection H as <-; left; [exact Rd|apply rounded_refl].
    Qed.
  End Loop.
End F.
