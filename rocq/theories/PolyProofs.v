(** * PolyProofs: area, centroid, bounding box, simplification, even-odd test over R. *)
From Verif Require Import Num NumR Geom GeomR GeomSpec GeomProofs GeomProofs2 GeomProofs4 GeomProofs5 Polygon PolySpec BezierProofs.
From Coq Require Import ZArith Reals Lra Lia Bool List Psatz Permutation.
Import ListNotations.
Local Open Scope R_scope.

(** ** consecutive pairs *)
Lemma consecutive_join {A} (k : list A) : forall y B, consecutive (k ++ y :: B) = consecutive (k ++ [y]) ++ consecutive (y :: B).
Proof.
  induction k as [|x k IH]; intros y B; [reflexivity|]. destruct k as [|z k]; [reflexivity|].
  change ((x :: z :: k) ++ y :: B) with (x :: z :: (k ++ y :: B)).
  change ((x :: z :: k) ++ [y]) with (x :: z :: (k ++ [y])).
  unfold consecutive in *. cbn [tl combine app] in *. f_equal. apply (IH y B).
Qed.
Lemma consecutive_map {A B} (f : A -> B) (l : list A) : consecutive (map f l) = map (fun '(a, b) => (f a, f b)) (consecutive l).
Proof.
  unfold consecutive. destruct l as [|a l]; [reflexivity|]. cbn [map tl].
  revert a. induction l as [|b l IH]; intros a; [reflexivity|]. cbn. f_equal. apply IH.
Qed.
Lemma cyclic_last (l : list Pt) p : l <> [] -> cyclic_edges (l ++ [p]) = consecutive (l ++ [p]) ++ [(p, hd p l)].
Proof.
  destruct l as [|a l]; [congruence|]. intros _. cbn [app cyclic_edges hd]. unfold consecutive. cbn [tl].
  generalize a at 2 4. revert a. induction l as [|b l IH]; intros a z; [reflexivity|]. cbn. f_equal. apply IH.
Qed.
Lemma cyclic_as (a : Pt) l : cyclic_edges (a :: l) = consecutive (a :: l ++ [a]).
Proof.
  cbn [cyclic_edges]. unfold consecutive. cbn [tl].
  assert (G : forall (k j e : list Pt), length k = length j -> combine (k ++ e) j = combine k j).
  { induction k as [|x k IH]; intros [|y j] e H; try discriminate; [destruct e; reflexivity|].
    cbn. f_equal. apply IH. cbn in H. lia. }
  change (a :: l ++ [a]) with ((a :: l) ++ [a]). rewrite G; [reflexivity|]. rewrite app_length. cbn. lia.
Qed.
Lemma pairs_from_consecutive (l : list Pt) : forall p, pairs_from p l = consecutive (p :: l).
Proof. induction l as [|q l IH]; intros p; [reflexivity|]. cbn. f_equal. apply IH. Qed.
(** the model visits the edges starting with the closing one *)
Lemma cyc_pairs_perm (l : list Pt) : Permutation (cyc_pairs l) (cyclic_edges l).
Proof.
  destruct l as [|a l]; [reflexivity|]. cbn [cyc_pairs]. rewrite pairs_from_consecutive, cyclic_as.
  destruct l as [|b l]; [reflexivity|].
  destruct (@exists_last _ (b :: l)) as (m & z & ->); [discriminate|].
  replace (last (a :: m ++ [z]) a) with z by (symmetry; change (a :: m ++ [z]) with ((a :: m) ++ [z]); apply last_last).
  change (z :: a :: m ++ [z]) with ([z] ++ a :: m ++ [z]). rewrite consecutive_join.
  rewrite <- app_assoc. cbn [app]. change (a :: m ++ [z; a]) with ((a :: m) ++ z :: [a]).
  rewrite (consecutive_join (a :: m)). change (consecutive [z; a]) with [(z, a)]. cbn [app]. apply Permutation_cons_append.
Qed.

(** ** sums over edges *)
Lemma sum_perm {A} (f : A -> R) l l' : Permutation l l' -> sum_over f l = sum_over f l'.
Proof. unfold sum_over. induction 1; cbn; lra. Qed.
Lemma sum_app {A} (f : A -> R) l l' : sum_over f (l ++ l') = sum_over f l + sum_over f l'.
Proof. unfold sum_over. induction l; cbn; lra. Qed.
Lemma sum_map {A B} (g : A -> B) (f : B -> R) l : sum_over f (map g l) = sum_over (fun x => f (g x)) l.
Proof. unfold sum_over. induction l; cbn; lra. Qed.
Lemma sum_ext {A} (f g : A -> R) l : (forall x, In x l -> f x = g x) -> sum_over f l = sum_over g l.
Proof. unfold sum_over. induction l as [|a l IH]; cbn; intros H; auto. rewrite H, IH; auto. Qed.
Lemma sum_plus {A} (f g : A -> R) l : sum_over (fun x => f x + g x) l = sum_over f l + sum_over g l.
Proof. unfold sum_over. induction l; cbn; lra. Qed.
Lemma sum_scal {A} (f : A -> R) k l : sum_over (fun x => k * f x) l = k * sum_over f l.
Proof. unfold sum_over. induction l; cbn; lra. Qed.
Lemma sum_rev {A} (f : A -> R) l : sum_over f (rev l) = sum_over f l.
Proof. apply sum_perm. symmetry. apply Permutation_rev. Qed.
Lemma fold_sum {A} (f : A -> R) l : forall s, fold_left (fun s x => s + f x) l s = s + sum_over f l.
Proof. unfold sum_over. induction l as [|a l IH]; intros s; cbn; [lra|]. rewrite IH. lra. Qed.
(** telescoping around the polygon *)
Lemma telescope (g : Pt -> R) (l : list Pt) : sum_over (fun '(a, b) => g b - g a) (cyclic_edges l) = 0.
Proof.
  destruct l as [|a l]; [reflexivity|]. rewrite cyclic_as.
  assert (G : forall l a b, sum_over (fun '(a, b) => g b - g a) (consecutive (a :: l ++ [b])) = g b - g a).
  { clear. induction l as [|c l IH]; intros a b; [cbn; lra|].
    change (consecutive (a :: (c :: l) ++ [b])) with ((a, c) :: consecutive (c :: l ++ [b])).
    unfold sum_over in *. cbn [fold_right]. rewrite IH. lra. }
  rewrite G. lra.
Qed.

Definition shoe (e : Pt * Pt) : R := let '(a, b) := e in px a * py b - px b * py a.
Lemma area_signed (l : list Pt) : area l = - signed_area l :> R.
Proof.
  unfold area, signed_area.
  transitivity ((0 + sum_over (fun '(q2, q1) => px q1 * py q2 - px q2 * py q1) (cyc_pairs l)) / 2).
  - rnum. toR. f_equal. rewrite <- fold_sum. clear. generalize (0 : R). induction (cyc_pairs l) as [|[a b] r IH]; intros s; [reflexivity|]. apply IH.
  - rewrite (sum_perm _ _ _ (cyc_pairs_perm l)), Rplus_0_l.
    rewrite (sum_ext _ (fun e => -1 * (let '(a, b) := e in px a * py b - px b * py a))).
    + rewrite sum_scal. toR. lra.
    + intros [a b] _. toR. ring.
Qed.
Lemma cyclic_map (f : Pt -> Pt) l : cyclic_edges (map f l) = map (fun '(a, b) => (f a, f b)) (cyclic_edges l).
Proof.
  destruct l as [|a l]; [reflexivity|]. cbn [map]. rewrite !cyclic_as. rewrite <- consecutive_map. cbn. rewrite map_app. reflexivity.
Qed.
Lemma signed_area_moved dx dy (l : list Pt) : signed_area (map (moved dx dy) l) = signed_area l.
Proof.
  unfold signed_area. f_equal. rewrite cyclic_map, sum_map.
  rewrite (sum_ext _ (fun e => (let '(a, b) := e in px a * py b - px b * py a) + (let '(a, b) := e in (dx * py b - dy * px b) - (dx * py a - dy * px a)))).
  - rewrite sum_plus. rewrite (telescope (fun p => dx * py p - dy * px p) l). lra.
  - intros [a b] _. unfold moved. cbn [px py]. toR. ring.
Qed.
Lemma cyclic_rotate (a : Pt) l : Permutation (cyclic_edges (l ++ [a])) (cyclic_edges (a :: l)).
Proof.
  destruct l as [|b l]; [reflexivity|]. cbn [app]. rewrite !cyclic_as. rewrite <- app_assoc. cbn [app].
  change (b :: l ++ [a; b]) with ((b :: l) ++ a :: [b]). rewrite consecutive_join.
  change (a :: b :: l ++ [a]) with ([a] ++ b :: l ++ [a]). rewrite (consecutive_join [a]).
  change (consecutive ([a] ++ [b])) with [(a, b)]. change (consecutive [a; b]) with [(a, b)].
  symmetry. apply Permutation_cons_append.
Qed.
Lemma consecutive_rev {A} (l : list A) : consecutive (rev l) = rev (map (fun '(a, b) => (b, a)) (consecutive l)).
Proof.
  induction l as [|a [|b l] IH]; [reflexivity|reflexivity|].
  change (consecutive (a :: b :: l)) with ((a, b) :: consecutive (b :: l)). cbn [map rev] in *. rewrite <- IH.
  rewrite <- app_assoc. cbn [app]. rewrite consecutive_join. reflexivity.
Qed.
Lemma cyclic_rev (l : list Pt) : Permutation (cyclic_edges (rev l)) (map (fun '(a, b) => (b, a)) (cyclic_edges l)).
Proof.
  destruct l as [|a l]; [reflexivity|]. cbn [rev]. rewrite cyclic_rotate, !cyclic_as.
  replace (a :: rev l ++ [a]) with (rev (a :: l ++ [a])).
  - rewrite consecutive_rev. symmetry. apply Permutation_rev.
  - cbn. rewrite rev_app_distr. reflexivity.
Qed.
Lemma signed_area_rotate (a : Pt) l : signed_area (l ++ [a]) = signed_area (a :: l).
Proof. unfold signed_area. f_equal. apply sum_perm, cyclic_rotate. Qed.
Lemma signed_area_rev (l : list Pt) : signed_area (rev l) = - signed_area l.
Proof.
  unfold signed_area. rewrite (sum_perm _ _ _ (cyclic_rev l)), sum_map.
  rewrite (sum_ext _ (fun e => -1 * (let '(a, b) := e in px a * py b - px b * py a))).
  - rewrite sum_scal. lra.
  - intros [a b] _. toR. ring.
Qed.

(** ** centroid *)
Definition moment (g : Pt -> R) (l : list Pt) : R := sum_over (fun '(a, b) => (g a + g b) * (px a * py b - px b * py a)) (cyclic_edges l).
Lemma centroid_fold (l : list (Pt * Pt)) : forall x y s,
  fold_left (fun '(x, y, ar) '(q2, q1) => let c := (px q1 * py q2) - (px q2 * py q1) in
     (x + (px q1 + px q2) * c, y + (py q1 + py q2) * c, ar + c)) l (x, y, s) =
  (x - sum_over (fun '(a, b) => (px a + px b) * (px a * py b - px b * py a)) l,
   y - sum_over (fun '(a, b) => (py a + py b) * (px a * py b - px b * py a)) l,
   s - sum_over (fun '(a, b) => px a * py b - px b * py a) l).
Proof.
  induction l as [|[a b] l IH]; intros x y s; unfold sum_over in *; cbn [fold_left fold_right].
  - rewrite !Rminus_0_r. reflexivity.
  - rewrite IH. toR. f_equal; [f_equal|]; ring.
Qed.
Lemma centroid_general (l : list Pt) : (3 <= length l)%nat \/ l = [] -> centroid l =
  if Reqb (signed_area l) 0 then Raise ZeroDivisionError
  else Ok (P (moment px l / (6 * signed_area l))%R (moment py l / (6 * signed_area l))%R).
Proof.
  intros H. unfold centroid.
  assert (G : forall X : res Pt, match l with [p] => Ok p | [p; q] => Ok (midpoint (Ln p q)) | _ => X end = X).
  { intros X. destruct l as [|a [|b [|c l]]]; auto; cbn in H; destruct H; try lia; discriminate. }
  rewrite G. clear G.
  pose proof (centroid_fold (cyc_pairs l) 0 0 0) as F. rnum. 
  match type of F with ?L = _ => match goal with |- context [fold_left ?f ?l ?i] => change (fold_left f l i) with L end end.
  rewrite F. clear F. rewrite !(sum_perm _ _ _ (cyc_pairs_perm l)).
  set (A := sum_over _ (cyclic_edges l)). set (B := sum_over (fun '(a, b) => (py a + py b) * _) (cyclic_edges l)).
  set (C := sum_over (fun '(a, b) => px a * py b - px b * py a) (cyclic_edges l)).
  assert (SA : signed_area l = C / 2) by reflexivity.
  unfold pydiv. rnum. destruct (Reqb ((0 - C) * 3) 0) eqn:Z; rbool.
  - destruct (Reqb (signed_area l) 0) eqn:Z'; rbool; [reflexivity|]. exfalso. apply Z'. lra.
  - destruct (Reqb (signed_area l) 0) eqn:Z'; rbool; [exfalso; apply Z; lra|]. cbn [rbind]. f_equal.
    unfold moment. fold A B. rewrite SA. apply pt_ext; cbn [px py]; toR; field; lra.
Qed.
Lemma moment_moved dx dy (g : Pt -> R) k l : (forall p, g (moved dx dy p) = g p + k) ->
  moment g (map (moved dx dy) l) = moment g l + 2 * k * (2 * signed_area l) +
    sum_over (fun '(a, b) => (g a + g b) * (dx * (py b - py a) - dy * (px b - px a))) (cyclic_edges l).
Proof.
  intros Hg. unfold moment. rewrite cyclic_map, sum_map.
  rewrite (sum_ext _ (fun e => ((let '(a, b) := e in (g a + g b) * (px a * py b - px b * py a)) +
     2 * k * (let '(a, b) := e in px a * py b - px b * py a)) +
     ((let '(a, b) := e in (g a + g b) * (dx * (py b - py a) - dy * (px b - px a))) +
       2 * k * (let '(a, b) := e in (dx * py b - dy * px b) - (dx * py a - dy * px a))))).
  - rewrite !sum_plus, !sum_scal. rewrite (telescope (fun p => dx * py p - dy * px p) l). unfold signed_area. toR. lra.
  - intros [a b] _. rewrite !Hg. unfold moved. cbn [px py]. toR. ring.
Qed.
