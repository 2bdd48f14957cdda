(** * Properties of the product of multivariate Chebyshev polynomials *)

From Coq Require Import List Arith NArith Bool Reals Sorted Lra Lia.
From Verif Require Import Poly_Model Cheb_Model Cheb_Spec Cheb_Proofs Cheb_Props MCheb_Model MCheb_Spec MCheb_Proofs MCheb_Props MProd_Model MProd_Proofs MProd_Exists.
Import ListNotations.
Local Open Scope R_scope.

(** The test for zero is sound. *)
Definition zero_test {X} (mem : X -> R -> Prop) (same0 : X -> bool) : Prop := forall c a, same0 c = true -> mem c a -> a = 0.
(** Every index occurs once. *)
Definition distinct {X} (p : mterms X) : Prop := NoDup (map fst p).
Definition rzero (x : R) : bool := if Req_EM_T x 0 then true else false.
Lemma rzero_ok : zero_test eqmem rzero.
Proof. intros c a H <-. unfold rzero in H. destruct (Req_EM_T c 0); congruence. Qed.

(** ** C195: the full claim: the product of two polynomials with terms exists
    and stands for the product of the functions. *)
Definition m_multiplies : Prop := forall (X M : Type) (O : ops X M) mem ub same0, encloses_ops O mem ub -> zero_test mem same0 ->
  forall n p q f g, (0 < n)%nat -> distinct p -> distinct q -> p <> [] -> q <> [] -> mstands mem n p f -> mstands mem n q g ->
  exists r, m_mul O same0 n p q = Some r /\ mstands mem n r (fun x => f x * g x).
(** Refuted: the sum [T0 + T1] is stored with the larger degree first, and the
    product takes the degree of the last term for the largest: the square of
    [1 + x] writes outside the buffer. *)
Definition one_plus_x : mterms R := m_add RO (m_constant 1 1) (m_coordinate RO 1 0).
Theorem C195_refuted : ~ m_multiplies.
Proof.
  intros H. destruct (C192_basis _ _ _ _ _ exact_encloses 1) as (A & B & _).
  destruct (C193_linear _ _ _ _ _ exact_encloses 1 _ _ _ _ (A 1 1 eq_refl) (B 0%nat ltac:(lia))) as (_ & S & _).
  assert (distinct one_plus_x) as D.
  { unfold distinct, one_plus_x. cbn. constructor; [intros [F|[]]; discriminate F|constructor; [intros []|constructor]]. }
  destruct (H _ _ _ _ _ rzero exact_encloses rzero_ok 1%nat one_plus_x one_plus_x _ _ ltac:(lia) D D ltac:(discriminate) ltac:(discriminate) S S) as (r & R & _).
  discriminate R.
Qed.
(** The same for a square made by the interface. *)
Theorem C195_sqr_refuted : m_sqr RO rzero 1 (m_add RO (m_constant 1 1) (m_coordinate RO 1 0)) = None.
Proof. reflexivity. Qed.
(** Whenever the product is computed without such an access, it is correct.
    Missing: existence of the product, which is false in general and proved
    below for ordered polynomials. *)
Theorem C195_partial : forall (X M : Type) (O : ops X M) mem ub same0, encloses_ops O mem ub -> zero_test mem same0 ->
  forall n p q f g r, distinct p -> distinct q -> mstands mem n p f -> mstands mem n q g ->
  m_mul O same0 n p q = Some r -> mstands mem n r (fun x => f x * g x).
Proof.
  intros X M O mem ub same0 E Z n p q f g r Dp Dq (Lp & c & C & F) (Lq & d & D & G) H.
  assert (forall (p : mterms X) c, mcoefficients mem p c -> map fst p = map fst c) as Q.
  { induction 1 as [|t u p' c' [A _] _ IH]; cbn [map]; congruence. }
  assert (forall (p : mterms X) c, mcoefficients mem p c -> Forall (fun t => length (fst t) = n) p -> lens n c) as W.
  { intros p' c' C'. induction C' as [|t u p' c' [A _] _ IH]; intros L; [constructor|]. inversion_clear L as [|? ? L1 L2].
    constructor; [exact (eq_trans (f_equal (@length _) (eq_sym A)) L1)|apply IH; auto]. }
  destruct (m_mul_ok O same0 mem ub E Z n p q r c d C D (W _ _ C Lp) (W _ _ D Lq)) as (e & Ce & Le & V); auto.
  - rewrite <- (Q _ _ C). exact Dp.
  - rewrite <- (Q _ _ D). exact Dq.
  - split.
    + clear -Ce Le. induction Ce as [|t u p' c' [A _] _ IH]; [constructor|]. inversion_clear Le as [|? ? L1 L2].
      constructor; [exact (eq_trans (f_equal (@length _) A) L1)|apply IH; auto].
    + exists e. split; [exact Ce|]. intros x L. rewrite <- psum_0, V, F, G by auto. auto.
Qed.
(** For polynomials with terms in increasing lexicographic order the product
    exists and is correct. *)
Definition lex_ordered {X} (p : mterms X) : Prop :=
  StronglySorted (fun s t : mi * X => lexicographic_less (fst s) (fst t) = true) p.
Theorem C195_ordered_partial : forall (X M : Type) (O : ops X M) mem ub same0, encloses_ops O mem ub -> zero_test mem same0 ->
  forall n p q f g, lex_ordered p -> lex_ordered q -> p <> [] -> q <> [] -> mstands mem n p f -> mstands mem n q g ->
  exists r, m_mul O same0 n p q = Some r /\ mstands mem n r (fun x => f x * g x).
Proof.
  intros X M O mem ub same0 E Z n p q f g Sp Sq Np Nq P Q.
  destruct (m_mul_exists O same0 n p q Np Nq Sp Sq (proj1 P) (proj1 Q)) as (r & R). exists r. split; [exact R|].
  eapply C195_partial; eauto; apply sorted_distinct; auto.
Qed.
(** Squares of ordered polynomials. *)
Theorem C195_sqr_partial : forall (X M : Type) (O : ops X M) mem ub same0, encloses_ops O mem ub -> zero_test mem same0 ->
  forall n p f, lex_ordered p -> p <> [] -> mstands mem n p f ->
  exists r, m_sqr O same0 n p = Some r /\ mstands mem n r (fun x => f x * f x).
Proof. intros X M O mem ub same0 E Z n p f Sp Np P. apply (C195_ordered_partial X M O mem ub same0 E Z n p p f f); auto. Qed.
Example C195_ordered_nonvacuous : let p := [([0%N; 1%N], 3); ([2%N; 0%N], 5); ([2%N; 1%N], 1)] in
  lex_ordered p /\ p <> [] /\ mstands eqmem 2 p (mfn p) /\ zero_test eqmem rzero.
Proof.
  split; [|split; [discriminate|split; [|apply rzero_ok]]].
  - repeat constructor.
  - split; [repeat constructor|]. eexists. split; [|reflexivity]. repeat constructor.
Qed.
Example C195_nonvacuous : let p := [([0%N; 1%N], 3); ([2%N; 0%N], 5)] in
  distinct p /\ mstands eqmem 2 p (mfn p) /\ exists r, m_mul RO (fun _ => false) 2 p p = Some r /\ r <> [].
Proof.
  split; [|split].
  - constructor; [intros [F|[]]; discriminate F|constructor; [intros []|constructor]].
  - split; [repeat constructor|]. eexists. split; [|reflexivity]. repeat constructor.
  - eexists. split; [reflexivity|discriminate].
Qed.
Print Assumptions C195_refuted.
Print Assumptions C195_sqr_refuted.
Print Assumptions C195_partial.
Print Assumptions C195_ordered_partial.
Print Assumptions C195_sqr_partial.
