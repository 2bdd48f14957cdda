(** * Properties of multivariate Chebyshev polynomials *)

From Coq Require Import List Arith NArith Bool Reals Lra Lia.
From Verif Require Import Poly_Model Cheb_Model Cheb_Spec Cheb_Proofs Cheb_Props MCheb_Model MCheb_Spec MCheb_Proofs.
Import ListNotations.
Local Open Scope R_scope.

(** ** C192: evaluation.  The full claim: the value at an enclosure of a point
    exists and encloses the value of the function. *)
Definition evaluates : Prop := forall (X M : Type) (O : ops X M) mem ub, encloses_ops O mem ub ->
  forall n p f x a, (0 < n)%nat -> mstands mem n p f -> length a = n -> Forall2 mem x a ->
  exists r, m_evaluate O p x = Some r /\ mem r (f a).
(** Refuted: the zero polynomial has no terms, and the first one is read. *)
Theorem C192_refuted : ~ evaluates.
Proof.
  intros H. assert (mstands eqmem 1 [] (fun _ => 0)) as Z by (split; [constructor|exists []; split; [constructor|reflexivity]]).
  destruct (H _ _ _ _ _ exact_encloses 1%nat [] _ [0] [0] ltac:(lia) Z eq_refl ltac:(repeat constructor)) as (r & R & _). discriminate R.
Qed.
(** It holds for polynomials with terms, in whatever order. *)
Theorem C192_partial : forall (X M : Type) (O : ops X M) mem ub, encloses_ops O mem ub ->
  forall n p f x a, (0 < n)%nat -> mstands mem n p f -> length a = n -> Forall2 mem x a -> p <> [] ->
  exists r, m_evaluate O p x = Some r /\ mem r (f a).
Proof.
  intros X M O mem ub E n p f x a N (L & c & C & F) La H Np. rewrite <- (F a La).
  apply (m_evaluate_ok O mem ub E); auto; [destruct a; [cbn in La; lia|discriminate]|]. rewrite La. auto.
Qed.
(** Constants, coordinates and basis elements stand for what they should. *)
Theorem C192_basis : forall (X M : Type) (O : ops X M) mem ub, encloses_ops O mem ub -> forall n,
  (forall c a, mem c a -> mstands mem n (m_constant n c) (fun _ => a)) /\
  (forall i, (i < n)%nat -> mstands mem n (m_coordinate O n i) (fun x => nth i x 0)) /\
  (forall i k, (i < n)%nat -> mstands mem n (m_basis O n i k) (fun x => T (N.to_nat k) (nth i x 0))).
Proof.
  intros X M O mem ub E n.
  assert (forall i k, (i < n)%nat -> mstands mem n (m_basis O n i k) (fun x => T (N.to_nat k) (nth i x 0))) as B.
  { intros i k I. split.
    - constructor; [|constructor]. cbn [fst]. unfold unit_times. rewrite map_length, seq_length. auto.
    - exists [(unit_times n i k, 1)]. split; [constructor; [split; auto; apply (e_of _ _ _ E 1)|constructor]|].
      intros x L. cbn [mfn]. rewrite prodT_unit by auto. ring. }
  split; [|split; [|exact B]].
  - intros c a H. split; [constructor; [apply repeat_length|constructor]|]. exists [(repeat 0%N n, a)].
    split; [constructor; [split; auto|constructor]|]. intros x _. cbn [mfn]. rewrite prodT_zero. ring.
  - intros i I. exact (B i 1%N I).
Qed.
Example C192_nonvacuous : let p := [([0%N; 2%N], 3); ([1%N; 0%N], 1); ([1%N; 1%N], 5)] in
  mstands eqmem 2 p (fun x => 3 * (2 * nth 1 x 0 * nth 1 x 0 - 1) + nth 0 x 0 + 5 * nth 0 x 0 * nth 1 x 0) /\ p <> [] /\ Forall2 eqmem [1; 2] [1; 2].
Proof.
  split; [|split; [discriminate|repeat constructor]]. split; [repeat constructor|]. exists [([0%N; 2%N], 3); ([1%N; 0%N], 1); ([1%N; 1%N], 5)].
  split; [repeat constructor|]. intros [|y [|z [|u x]]] L; try discriminate L. cbn [mfn prodT nth].
  change (N.to_nat 0) with 0%nat. change (N.to_nat 1) with 1%nat. change (N.to_nat 2) with 2%nat. rewrite T_SS, !T_1, !T_0. ring.
Qed.
Print Assumptions C192_refuted.
Print Assumptions C192_partial.
Print Assumptions C192_basis.

(** ** C193: linear operations and the norm. *)
Theorem C193_linear : forall (X M : Type) (O : ops X M) mem ub, encloses_ops O mem ub ->
  forall n p q f g, mstands mem n p f -> mstands mem n q g ->
  mstands mem n (m_neg O p) (fun x => - f x) /\ mstands mem n (m_add O p q) (fun x => f x + g x) /\
  mstands mem n (m_sub O p q) (fun x => f x - g x) /\
  (forall s a, mem s a -> mstands mem n (m_scale O p s) (fun x => f x * a)).
Proof.
  intros X M O mem ub E n p q f g (Lp & c & C & F) (Lq & d & D & G).
  assert (forall p, Forall (fun t : mi * X => length (fst t) = n) p -> Forall (fun t : mi * X => length (fst t) = n) (m_neg O p)) as N.
  { intros p' H. unfold m_neg. apply Forall_map. exact H. }
  split; [|split; [|split]].
  - split; [auto|]. exists (m_neg RO c). split; [apply (mcoefs_neg O mem ub E); auto|]. intros x L. rewrite mfn_neg, F; auto.
  - split; [apply m_add_size; auto|]. exists (m_add RO c d). split; [apply (mcoefs_add O mem ub E); auto|]. intros x L. rewrite mfn_add, F, G; auto.
  - split; [apply m_add_size; auto|]. exists (m_add RO c (m_neg RO d)). split.
    + apply (mcoefs_add O mem ub E); auto. apply (mcoefs_neg O mem ub E); auto.
    + intros x L. rewrite mfn_add, mfn_neg, F, G by auto. ring.
  - intros s a S. split; [unfold m_scale; apply Forall_map; exact Lp|]. exists (m_scale RO c a).
    split; [apply (mcoefs_scale O mem ub E); auto|]. intros x L. rewrite mfn_scale, F; auto.
Qed.
Theorem C193_norm : forall (X M : Type) (O : ops X M) mem ub, encloses_ops O mem ub ->
  forall n p f x, mstands mem n p f -> length x = n -> Forall (fun y => -1 <= y <= 1) x -> ub (m_norm O p) (Rabs (f x)).
Proof. intros X M O mem ub E n p f x (L & c & C & F) Lx H. rewrite <- F by auto. apply (mnorm_ok O mem ub E); auto. Qed.
Example C193_nonvacuous : mstands ivmem 3 (m_coordinate IO 3 1) (fun x => nth 1 x 0) /\
  mstands ivmem 3 (m_basis IO 3 2 4) (fun x => T 4 (nth 2 x 0)) /\ Forall (fun y => -1 <= y <= 1) [0; 1; -1].
Proof.
  destruct (C192_basis _ _ _ _ _ interval_encloses 3) as (_ & A & B). split; [apply A; lia|]. split; [apply (B 2%nat 4%N); lia|].
  repeat constructor; lra.
Qed.
Print Assumptions C193_linear.
Print Assumptions C193_norm.

(** ** C194: adding a constant.  The full claim as for one variable. *)
Definition m_adds_constants : Prop := forall (X M : Type) (O : ops X M) mem ub, encloses_ops O mem ub ->
  forall n p s f a, mstands mem n p f -> mem s a ->
  exists r, m_shift O n p s = Some r /\ mstands mem n r (fun x => f x + a).
(** Refuted: a coordinate plus a constant fails the assertion. *)
Theorem C194_refuted : ~ m_adds_constants.
Proof.
  intros H. destruct (C192_basis _ _ _ _ _ exact_encloses 2) as (_ & A & _).
  destruct (H _ _ _ _ _ exact_encloses 2%nat _ 1 _ 1 (A 0%nat ltac:(lia)) eq_refl) as (r & R & _). discriminate R.
Qed.
(** The sum exists exactly when the polynomial is empty or its first term is
    constant, and is then correct. *)
Theorem C194_partial : forall (X M : Type) (O : ops X M) mem ub, encloses_ops O mem ub ->
  forall n p s f a, mstands mem n p f -> mem s a ->
  (p = [] \/ (exists c p', p = (repeat 0%N n, c) :: p') <-> exists r, m_shift O n p s = Some r) /\
  (forall r, m_shift O n p s = Some r -> mstands mem n r (fun x => f x + a)).
Proof.
  intros X M O mem ub E n p s f a (L & c & C & F) S. destruct C as [|[i y] [i' b] p c [A B] C].
  - cbn [m_shift]. split; [split; eauto|]. intros r R. injection R as <-. split; [constructor; [apply repeat_length|constructor]|].
    exists [(repeat 0%N n, a)]. split; [constructor; [split; auto|constructor]|]. intros x Lx. rewrite <- F by auto. cbn [mfn]. rewrite prodT_zero. ring.
  - cbn [fst snd] in *. subst i'. cbn [m_shift].
    assert (length i = n) as Li by (inversion_clear L; auto).
    assert (forallb (N.eqb 0) i = true <-> i = repeat 0%N n) as Z.
    { clear -Li. subst n. induction i as [|k i IH]; cbn [forallb length repeat]; [tauto|]. rewrite andb_true_iff, IH, N.eqb_eq.
      split; [intros [<- <-]; auto|]. intros H. injection H as H1 H2. auto. }
    destruct (forallb (N.eqb 0) i) eqn:Ei.
    + split; [split; [eauto|intros _; right; exists y, p; rewrite (proj1 Z eq_refl); auto]|]. intros r R. injection R as <-.
      split; [inversion_clear L; constructor; auto|].
      exists ((i, b + a) :: c). split; [constructor; auto; split; auto; apply (e_add _ _ _ E); auto|].
      intros x Lx. rewrite <- F by auto. cbn [mfn]. rewrite (prodT_zero' i Ei). ring.
    + split; [|intros r R; discriminate R]. split; [|intros (r & R); discriminate R]. intros [Q|(c' & p' & Q)]; [discriminate|].
      injection Q as Q _ _. exfalso. apply Z in Q. discriminate.
Qed.
Example C194_nonvacuous : mstands eqmem 2 (m_constant 2 7) (fun _ => 7) /\ m_shift RO 2 (m_constant 2 7) 3 = Some [([0%N; 0%N], 7 + 3)].
Proof. split; [|reflexivity]. apply (C192_basis _ _ _ _ _ exact_encloses 2). reflexivity. Qed.
Print Assumptions C194_refuted.
Print Assumptions C194_partial.
