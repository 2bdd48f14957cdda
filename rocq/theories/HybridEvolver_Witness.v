(** Numerical operations with which the theorems about hybrid evolution can be applied: exact
    ranges, exact tests for emptiness and exact solutions, or ranges enlarged by a margin. *)
From Coq Require Import List Bool Arith Reals Lra Lia Classical ClassicalDedekindReals.
From Coquelicot Require Import Coquelicot.
From Verif Require Import Automaton_Model Evolver_Model HybridEvolver_Model HybridEvolver_Spec HybridEvolver_Proofs.
Import ListNotations.
Local Open Scope R_scope.

(** The smallest interval containing a set of numbers *)
Lemma neg_inhabited (E : R -> Prop) : (exists v, E v) -> exists v, E (- v).
Proof. intros [v H]. exists (- v). rewrite Ropp_involutive. exact H. Qed.
Definition hull (E : R -> Prop) : option (R * R) :=
  match sig_not_dec (bound E), sig_not_dec (bound (fun v => E (- v))), sig_not_dec (exists v, E v) with
  | left b1, left b2, left ne =>
    let (hi, _) := completeness E (NNPP _ b1) (NNPP _ ne) in
    let (lo, _) := completeness (fun v => E (- v)) (NNPP _ b2) (neg_inhabited E (NNPP _ ne)) in
    Some (- lo, hi)
  | _, _, _ => None
  end.
Lemma hull_sound (E : R -> Prop) v : E v -> in_range (hull E) v.
Proof.
  intros H. unfold hull. destruct (sig_not_dec (bound E)) as [b1 |]; [| exact I]. destruct (sig_not_dec (bound _)) as [b2 |]; [| exact I].
  destruct (sig_not_dec (exists v, E v)) as [ne |]; [| exact I].
  destruct (completeness E _ _) as [hi [Hu _]]. destruct (completeness (fun v => E (- v)) _ _) as [lo [Hl _]]. simpl.
  pose proof (Hu v H). specialize (Hl (- v)). cbn beta in Hl. rewrite Ropp_involutive in Hl. specialize (Hl H). lra.
Qed.
Lemma hull_exact (E : R -> Prop) lo hi : E lo -> E hi -> (forall v, E v -> lo <= v <= hi) -> hull E = Some (lo, hi).
Proof.
  intros El Eh B. unfold hull.
  destruct (sig_not_dec (bound E)) as [b1 | b1]; [| exfalso; apply b1; exists hi; intros v Hv; apply B, Hv].
  destruct (sig_not_dec (bound _)) as [b2 | b2]; [| exfalso; apply b2; exists (- lo); intros v Hv; specialize (B _ Hv); lra].
  destruct (sig_not_dec (exists v, E v)) as [ne | ne]; [| exfalso; apply ne; exists lo; exact El].
  destruct (completeness E _ _) as [hi' [Hu Hl]]. destruct (completeness (fun v => E (- v)) _ _) as [lo' [Lu Ll]].
  f_equal. f_equal.
  - assert (- lo <= lo') by (apply Lu; cbn beta; rewrite Ropp_involutive; exact El).
    assert (lo' <= - lo) by (apply Ll; intros v Hv; specialize (B _ Hv); lra). lra.
  - assert (hi <= hi') by (apply Hu; exact Eh). assert (hi' <= hi) by (apply Hl; intros v Hv; apply B, Hv). lra.
Qed.

Section BEST.
Context {L X : Type}.
Variable sys : system L X.

Definition solution (f : X -> R -> R) (h : R) (x : X) : R :=
  match sig_not_dec (exists s, 0 <= s <= h /\ f x s = 0) with
  | left ne =>
    let (m, _) := completeness (fun s => 0 <= s <= h /\ f x s = 0) (ex_intro _ h (fun s H => proj2 (proj1 H))) (NNPP _ ne) in m
  | right _ => 0
  end.
Lemma solution_spec f h x s : 0 <= s <= h -> f x s = 0 -> (forall s', 0 <= s' <= h -> f x s' = 0 -> s' = s) -> solution f h x = s.
Proof.
  intros B Z U. unfold solution. destruct (sig_not_dec _) as [ne | ne]; [| exfalso; apply ne; exists s; split; assumption].
  destruct (completeness _ _ _) as [m [Hu Hl]].
  assert (s <= m) by (apply Hu; split; assumption).
  assert (m <= s) by (apply Hl; intros s' [B' Z']; rewrite (U s' B' Z'); lra). lra.
Qed.
Definition solvable (S : enclosure L X) (f : X -> R -> R) (h : R) : Prop :=
  forall x t, e_set S x t -> exists s, 0 <= s <= h /\ f x s = 0 /\ forall s', 0 <= s' <= h -> f x s' = 0 -> s' = s.

Definition widen (w : R) (r : option (R * R)) : option (R * R) := match r with Some (lo, hi) => Some (lo - w, hi + w) | None => None end.
(** [w] is the margin, [decide] whether emptiness can be tested, [h] the step size. *)
Definition best (w : R) (decide : bool) (h : R) : oracles L X := mkOracles
  (fun P => if decide then (if sig_not_dec (exists x t d, P x t d) then false else true) else false)
  (fun P => hull (fun v => exists x t d, P x t d /\ v = t + d))
  (fun S h f => widen w (hull (fun v => exists x t d, e_set S x t /\ 0 <= d <= h /\ v = f (flow sys (e_loc S) x d))))
  (fun S f => hull (fun v => exists x t, e_set S x t /\ v = f x))
  (fun S f h => if sig_not_dec (solvable S f h) then Some (solution f h) else None)
  (fun _ => Some h) (fun _ => false) (fun _ => false) (fun S => e_set S) (fun S => [e_set S]).

Lemma best_sound w decide h : 0 <= w -> 0 < h -> sound sys (best w decide h).
Proof.
  intros W Hh. constructor; cbn [surely_empty time_range value_range function_range implicit flow_step recondition split_set best].
  - intros P E x t d H. destruct decide; [| discriminate]. destruct (sig_not_dec _) as [n | n]; [discriminate |]. apply n. exists x, t, d. exact H.
  - intros P x t d H. apply hull_sound. exists x, t, d. split; [exact H | reflexivity].
  - intros S h' f x t d Sx Bd. pose proof (hull_sound (fun v => exists x t d, e_set S x t /\ 0 <= d <= h' /\ v = f (flow sys (e_loc S) x d)) (f (flow sys (e_loc S) x d))) as Q.
    destruct (hull _) as [[lo hi] |]; simpl in *; [| exact I]. assert (lo <= f (flow sys (e_loc S) x d) <= hi) by (apply Q; exists x, t, d; split; [exact Sx | split; [exact Bd | reflexivity]]). lra.
  - intros S f x t Sx. apply hull_sound. exists x, t. split; [exact Sx | reflexivity].
  - intros S f h' gamma x t E Sx. destruct (sig_not_dec (solvable S f h')) as [n |]; [| discriminate]. injection E as <-. apply NNPP in n.
    destruct (n x t Sx) as (s & B & Z & U). rewrite (solution_spec f h' x s B Z U). split; [exact B | split; [exact Z | exact U]].
  - intros S h' E. injection E as <-. exact Hh.
  - auto.
  - intros S x t Sx. exists (e_set S). split; [left; reflexivity | exact Sx].
Qed.
Lemma best_nonempty w decide h (P : pset X) x t d : P x t d -> surely_empty (best w decide h) P = false.
Proof. intros H. cbn [surely_empty best]. destruct decide; [| reflexivity]. destruct (sig_not_dec _) as [n | n]; [reflexivity | exfalso; apply n; exists x, t, d; exact H]. Qed.
Lemma best_empty w h (P : pset X) : (forall x t d, ~ P x t d) -> surely_empty (best w true h) P = true.
Proof. intros H. cbn [surely_empty best]. destruct (sig_not_dec _) as [n | n]; [exfalso; apply n; intros (x & t & d & Q); apply (H x t d Q) | reflexivity]. Qed.
Lemma best_time w decide h (P : pset X) lo hi : (exists x t d, P x t d /\ lo = t + d) -> (exists x t d, P x t d /\ hi = t + d) -> (forall x t d, P x t d -> lo <= t + d <= hi) ->
  time_range (best w decide h) P = Some (lo, hi).
Proof. intros A B C. cbn [time_range best]. apply hull_exact; [exact A | exact B |]. intros v (x & t & d & Pd & ->). apply (C x t d Pd). Qed.
Lemma best_value w decide h0 S h f lo hi :
  (exists x t d, e_set S x t /\ 0 <= d <= h /\ lo = f (flow sys (e_loc S) x d)) -> (exists x t d, e_set S x t /\ 0 <= d <= h /\ hi = f (flow sys (e_loc S) x d)) ->
  (forall x t d, e_set S x t -> 0 <= d <= h -> lo <= f (flow sys (e_loc S) x d) <= hi) ->
  value_range (best w decide h0) S h f = Some (lo - w, hi + w).
Proof.
  intros A B C. cbn [value_range best]. rewrite (hull_exact _ lo hi); [reflexivity | exact A | exact B |]. intros v (x & t & d & Sx & Bd & ->). apply (C x t d Sx Bd).
Qed.
Lemma best_function w decide h S f lo hi : (exists x t, e_set S x t /\ lo = f x) -> (exists x t, e_set S x t /\ hi = f x) -> (forall x t, e_set S x t -> lo <= f x <= hi) ->
  function_range (best w decide h) S f = Some (lo, hi).
Proof. intros A B C. cbn [function_range best]. apply hull_exact; [exact A | exact B |]. intros v (x & t & Sx & ->). apply (C x t Sx). Qed.
Lemma best_implicit w decide h0 S f h (g : X -> R) : (forall x t, e_set S x t -> 0 <= g x <= h /\ f x (g x) = 0 /\ forall s, 0 <= s <= h -> f x s = 0 -> s = g x) ->
  implicit (best w decide h0) S f h = Some (solution f h) /\ forall x t, e_set S x t -> solution f h x = g x.
Proof.
  intros A. cbn [implicit best]. destruct (sig_not_dec (solvable S f h)) as [n | n].
  - split; [reflexivity |]. intros x t Sx. destruct (A x t Sx) as (B & Z & U). apply solution_spec; assumption.
  - exfalso. apply n. intros x t Sx. exists (g x). apply (A x t Sx).
Qed.
Lemma best_step w decide h S : flow_step (best w decide h) S = Some h. Proof. reflexivity. Qed.
Lemma best_errors w decide h S : large_errors (best w decide h) S = false. Proof. reflexivity. Qed.
Lemma best_large w decide h S : too_large (best w decide h) S = false. Proof. reflexivity. Qed.
End BEST.
