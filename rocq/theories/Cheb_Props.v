(** * Properties of Chebyshev polynomials *)

From Coq Require Import List Arith Bool Reals Sorted Lra Lia.
From Verif Require Import Cheb_Model Cheb_Spec Cheb_Proofs.
Import ListNotations.
Local Open Scope R_scope.

(** The real numbers are a coefficient type. *)
Definition eqmem (x a : R) : Prop := x = a.
Definition rub (m a : R) : Prop := a <= m.
(** Used to show that the hypotheses on the coefficients can be met. *)
Lemma exact_encloses : encloses_ops RO eqmem rub.
Proof. constructor; unfold eqmem, rub; intros; cbn; subst; try reflexivity; lra. Qed.
(** Closed intervals with exact end points are one too. *)
Definition iv := (R * R)%type.
Definition ivmem (x : iv) (a : R) : Prop := fst x <= a <= snd x.
Definition min4 a b c d := Rmin (Rmin a b) (Rmin c d).
Definition max4 a b c d := Rmax (Rmax a b) (Rmax c d).
Definition IO : ops iv R := mkOps iv R (fun n => (INR n, INR n)) (fun x => (- snd x, - fst x)) (fun x => (fst x / 2, snd x / 2))
  (fun x y => (fst x + fst y, snd x + snd y)) (fun x y => (fst x - snd y, snd x - fst y))
  (fun x y => (min4 (fst x * fst y) (fst x * snd y) (snd x * fst y) (snd x * snd y), max4 (fst x * fst y) (fst x * snd y) (snd x * fst y) (snd x * snd y)))
  (fun x => Rmax (Rabs (fst x)) (Rabs (snd x))) Rplus.
Lemma iv_mul l u m n a b : l <= a <= u -> m <= b <= n ->
  min4 (l * m) (l * n) (u * m) (u * n) <= a * b <= max4 (l * m) (l * n) (u * m) (u * n).
Proof.
  intros A B.
  pose proof (Rmin_l (l * m) (l * n)). pose proof (Rmin_r (l * m) (l * n)). pose proof (Rmin_l (u * m) (u * n)). pose proof (Rmin_r (u * m) (u * n)).
  pose proof (Rmin_l (Rmin (l * m) (l * n)) (Rmin (u * m) (u * n))). pose proof (Rmin_r (Rmin (l * m) (l * n)) (Rmin (u * m) (u * n))).
  pose proof (Rmax_l (l * m) (l * n)). pose proof (Rmax_r (l * m) (l * n)). pose proof (Rmax_l (u * m) (u * n)). pose proof (Rmax_r (u * m) (u * n)).
  pose proof (Rmax_l (Rmax (l * m) (l * n)) (Rmax (u * m) (u * n))). pose proof (Rmax_r (Rmax (l * m) (l * n)) (Rmax (u * m) (u * n))).
  unfold min4, max4. set (lo := Rmin _ (Rmin (u * m) _)) in *. set (hi := Rmax _ (Rmax (u * m) _)) in *.
  destruct (Rle_dec 0 b), (Rle_dec 0 l), (Rle_dec 0 u); split; try nra;
  destruct (Rle_dec 0 a); nra.
Qed.
Lemma interval_encloses : encloses_ops IO ivmem rub.
Proof.
  constructor; unfold ivmem, rub; intros; cbn [IO o_of o_neg o_hlf o_add o_sub o_mul o_mag o_madd fst snd] in *; try lra.
  - apply iv_mul; auto.
  - unfold Rmax, Rabs. destruct (Rle_dec _ _); repeat destruct (Rcase_abs _); lra.
Qed.

(** ** C187: evaluation by the recurrence encloses the value of the sum of
    coefficients times Chebyshev polynomials. *)
Theorem C187_evaluate : forall (X M : Type) (O : ops X M) mem ub, encloses_ops O mem ub ->
  forall p x, increasing p -> forall f a, stands_for mem p f -> mem x a -> mem (evaluate O p x) (f a).
Proof.
  intros X M O mem ub E p x S f a (c & C & F) H. rewrite <- F. rewrite <- evaluate_exact.
  - eapply evaluate_mem; eauto.
  - unfold increasing in *. rewrite <- (coefs_fst _ _ _ C). exact S.
Qed.
(** The polynomials of the basis are the Chebyshev polynomials, with
    T_k(cos t) = cos(k t). *)
Theorem C187_basis : forall (X M : Type) (O : ops X M) mem ub, encloses_ops O mem ub ->
  (forall k, increasing (basis O k) /\ stands_for mem (basis O k) (T k)) /\
  (forall k t, T k (cos t) = cos (INR k * t)) /\
  stands_for mem (coordinate O) (fun x => x) /\ increasing (coordinate O) /\
  (forall c a, mem c a -> stands_for mem (constant c) (fun _ => a) /\ increasing (constant c)).
Proof.
  intros X M O mem ub E. split; [|split; [|split; [|split]]].
  - intros k. split; [repeat constructor|]. exists [(k, 1)]. split; [|intros x; cbn [fn]; ring].
    constructor; [|constructor]. split; auto. apply (e_of _ _ _ E 1).
  - apply T_cos.
  - exists [(1%nat, 1)]. split; [|intros x; cbn [fn]; rewrite T_1; ring]. constructor; [|constructor]. split; auto. apply (e_of _ _ _ E 1).
  - repeat constructor.
  - intros c a H. split; [|repeat constructor]. exists [(0%nat, a)]. split; [|intros x; cbn [fn]; rewrite T_0; ring]. constructor; [|constructor]. split; auto.
Qed.
(** A polynomial given by its coefficients stands for the sum. *)
Theorem C187_of_function : forall (X : Type) (mem : X -> R -> Prop) (d : nat) (g : nat -> X) (c : nat -> R),
  (forall i, (i <= d)%nat -> mem (g i) (c i)) ->
  increasing (of_function d g) /\ stands_for mem (of_function d g) (fun x => sum_f_R0 (fun i => c i * T i x) d).
Proof.
  intros X mem d g c H. unfold of_function. split.
  - unfold increasing. rewrite map_map. cbn [fst]. rewrite map_id. generalize (S d) 0%nat. clear.
    induction n as [|n IH]; intros k; cbn [seq]; constructor; auto. apply Forall_forall. intros i I. apply in_seq in I. lia.
  - exists (map (fun i => (i, c i)) (seq 0 (S d))). split.
    + assert (forall l, (forall i, In i l -> mem (g i) (c i)) -> coefficients mem (map (fun i => (i, g i)) l) (map (fun i => (i, c i)) l)) as G.
      { induction l as [|i l IH]; intros L; cbn [map]; constructor; [split; auto; apply L; left; auto|]. apply IH. intros j J. apply L. right. auto. }
      apply G. intros i I. apply in_seq in I. apply H. lia.
    + intros x. clear H. induction d as [|d IH]; [cbn [seq map fn sum_f_R0]; ring|].
      rewrite seq_S, map_app, fn_app, IH. cbn [map fn sum_f_R0 Nat.add]. ring.
Qed.
Example C187_nonvacuous : let p := [(0%nat, (1, 2)); (3%nat, (1, 1))] in
  increasing p /\ stands_for ivmem p (fun x => 3 / 2 + (4 * x * x * x - 3 * x)) /\ ivmem (1, 2) 1.
Proof.
  split; [|split]; [repeat constructor| |unfold ivmem; cbn; lra]. exists [(0%nat, 3 / 2); (3%nat, 1)]. split.
  - repeat constructor; cbn; lra.
  - intros x. cbn [fn]. unfold T. cbn. ring.
Qed.
Print Assumptions C187_evaluate.
Print Assumptions C187_basis.
Print Assumptions C187_of_function.

(** ** C188: linear operations. *)
Theorem C188_linear : forall (X M : Type) (O : ops X M) mem ub, encloses_ops O mem ub ->
  forall p q f g, increasing p -> increasing q -> stands_for mem p f -> stands_for mem q g ->
  (increasing (c_neg O p) /\ stands_for mem (c_neg O p) (fun x => - f x)) /\
  (increasing (c_add O p q) /\ stands_for mem (c_add O p q) (fun x => f x + g x)) /\
  (increasing (c_sub O p q) /\ stands_for mem (c_sub O p q) (fun x => f x - g x)) /\
  (forall s a, mem s a -> increasing (c_scale O p s) /\ stands_for mem (c_scale O p s) (fun x => f x * a)).
Proof.
  intros X M O mem ub E p q f g Ip Iq (c & C & F) (d & D & G).
  assert (forall p, increasing p -> increasing (c_neg O p)) as N.
  { intros p' H. unfold increasing, c_neg in *. rewrite map_map. exact H. }
  split; [|split; [|split]].
  - split; [auto|]. exists (c_neg RO c). split; [apply (coefs_neg O mem ub E); auto|]. intros x. rewrite fn_neg, F. auto.
  - split; [apply add_increasing; auto|]. exists (c_add RO c d). split; [apply (coefs_add O mem ub E); auto|]. intros x. rewrite fn_add, F, G. auto.
  - split; [apply add_increasing; auto|]. exists (c_add RO c (c_neg RO d)). split.
    + apply (coefs_add O mem ub E); auto. apply (coefs_neg O mem ub E); auto.
    + intros x. rewrite fn_add, fn_neg, F, G. ring.
  - intros s a S. split; [unfold increasing, c_scale in *; rewrite map_map; exact Ip|]. exists (c_scale RO c a).
    split; [apply (coefs_scale O mem ub E); auto|]. intros x. rewrite fn_scale, F. auto.
Qed.
Example C188_nonvacuous : increasing (coordinate IO) /\ stands_for ivmem (coordinate IO) (fun x => x).
Proof. destruct (C187_basis _ _ _ _ _ interval_encloses) as (_ & _ & A & B & _). auto. Qed.
Print Assumptions C188_linear.

(** ** C189: adding a constant to a polynomial.  The full claim: the sum of any
    polynomial and a constant exists and stands for f + a. *)
Definition adds_constants : Prop := forall (X M : Type) (O : ops X M) mem ub, encloses_ops O mem ub ->
  forall p s f a, increasing p -> stands_for mem p f -> mem s a ->
  exists r, c_shift O p s = Some r /\ stands_for mem r (fun x => f x + a).
(** Refuted: the coordinate plus a constant fails the assertion. *)
Theorem C189_refuted : ~ adds_constants.
Proof.
  intros H. destruct (C187_basis _ _ _ _ _ exact_encloses) as (_ & _ & A & B & _).
  destruct (H _ _ _ _ _ exact_encloses _ 1 _ 1 B A eq_refl) as (r & R & _). discriminate R.
Qed.
(** The sum exists exactly when the polynomial is empty or has a constant term,
    and is then correct. *)
Theorem C189_partial : forall (X M : Type) (O : ops X M) mem ub, encloses_ops O mem ub ->
  forall p s f a, increasing p -> stands_for mem p f -> mem s a ->
  (p = [] \/ In 0%nat (map fst p) <-> exists r, c_shift O p s = Some r) /\
  (forall r, c_shift O p s = Some r -> increasing r /\ stands_for mem r (fun x => f x + a)).
Proof.
  intros X M O mem ub E p s f a I (c & C & F) S. destruct C as [|[i y] [i' b] p c [A B] C].
  - cbn [c_shift]. split; [split; eauto|]. intros r R. injection R as <-. split; [repeat constructor|].
    exists [(0%nat, a)]. split; [constructor; [split; auto|constructor]|]. intros x. rewrite <- F. cbn [fn]. rewrite T_0. ring.
  - cbn [fst snd] in *. subst i'. cbn [c_shift]. destruct (Nat.eqb_spec i 0) as [->|N].
    + split; [split; [eauto|intros _; right; left; auto]|]. intros r R. injection R as <-. split; [exact I|].
      exists ((0%nat, b + a) :: c). split; [constructor; auto; split; auto; apply (e_add _ _ _ E); auto|].
      intros x. rewrite <- F. cbn [fn]. rewrite T_0. ring.
    + split; [|intros r R; discriminate R]. split; [|intros (r & R); discriminate R]. intros [Q|[Q|Q]]; [discriminate| |]; exfalso.
      * cbn [fst] in Q. auto.
      * unfold increasing in I. cbn [map fst] in I. inversion_clear I as [|? ? _ L]. rewrite Forall_forall in L. specialize (L _ Q). lia.
Qed.
Example C189_nonvacuous : let p := [(0%nat, 1); (2%nat, 5)] in
  increasing p /\ stands_for eqmem p (fun x => 1 + 5 * (2 * x * x - 1)) /\ c_shift RO p 3 = Some [(0%nat, 1 + 3); (2%nat, 5)].
Proof.
  split; [|split]; [repeat constructor| |reflexivity]. exists [(0%nat, 1); (2%nat, 5)]. split; [repeat constructor|]. intros x. cbn [fn]. unfold T. cbn. ring.
Qed.
Print Assumptions C189_refuted.
Print Assumptions C189_partial.

(** ** C190: products.  The full claim: the product of two polynomials exists
    and stands for the product of the functions. *)
Definition multiplies : Prop := forall (X M : Type) (O : ops X M) mem ub, encloses_ops O mem ub ->
  forall p q f g, increasing p -> increasing q -> stands_for mem p f -> stands_for mem q g ->
  exists r, c_mul O p q = Some r /\ increasing r /\ stands_for mem r (fun x => f x * g x).
(** Refuted: the zero polynomial has no terms, and the product reads its last
    term. *)
Theorem C190_refuted : ~ multiplies.
Proof.
  intros H. assert (stands_for eqmem [] (fun _ => 0)) as Z by (exists []; split; [constructor|reflexivity]).
  destruct (C187_basis _ _ _ _ _ exact_encloses) as (_ & _ & A & B & _).
  destruct (H _ _ _ _ _ exact_encloses [] _ _ _ (SSorted_nil _) B Z A) as (r & R & _). discriminate R.
Qed.
(** For polynomials with terms it holds, squares included. *)
Theorem C190_partial : forall (X M : Type) (O : ops X M) mem ub, encloses_ops O mem ub ->
  forall p q f g, increasing p -> increasing q -> p <> [] -> q <> [] -> stands_for mem p f -> stands_for mem q g ->
  exists r, c_mul O p q = Some r /\ increasing r /\ stands_for mem r (fun x => f x * g x).
Proof.
  intros X M O mem ub E p q f g Ip Iq Np Nq (c & C & F) (d & D & G).
  destruct (mul_some O p q Ip Iq Np Nq) as (r & R & Ir). exists r. split; [exact R|]. split; [exact Ir|].
  destruct (coefs_mul O mem ub E _ _ _ _ _ C D R) as (s & S & K). exists s. split; [exact K|]. intros x. rewrite (fn_mul _ _ _ x S), F, G. auto.
Qed.
Theorem C190_sqr_partial : forall (X M : Type) (O : ops X M) mem ub, encloses_ops O mem ub ->
  forall p f, increasing p -> p <> [] -> stands_for mem p f ->
  exists r, c_sqr O p = Some r /\ increasing r /\ stands_for mem r (fun x => f x * f x).
Proof. intros X M O mem ub E p f Ip Np F. apply (C190_partial X M O mem ub E p p f f); auto. Qed.
Example C190_nonvacuous : increasing (basis IO 2) /\ basis IO 2 <> [] /\ stands_for ivmem (basis IO 2) (T 2).
Proof. destruct (C187_basis _ _ _ _ _ interval_encloses) as (A & _). destruct (A 2%nat). split; [auto|split; [discriminate|auto]]. Qed.
Print Assumptions C190_refuted.
Print Assumptions C190_partial.
Print Assumptions C190_sqr_partial.

(** ** C191: the norm bounds the function on [-1,1]. *)
Theorem C191_norm : forall (X M : Type) (O : ops X M) mem ub, encloses_ops O mem ub ->
  forall p f x, stands_for mem p f -> -1 <= x <= 1 -> ub (sup_norm O p) (Rabs (f x)).
Proof. intros X M O mem ub E p f x (c & C & F) H. rewrite <- F. apply (sup_norm_ok O mem ub E); auto. Qed.
Example C191_nonvacuous : stands_for ivmem [(0%nat, (1, 2)); (3%nat, (-1, 1))] (fun x => 2 - (4 * x * x * x - 3 * x)) /\ -1 <= -1 <= 1.
Proof.
  split; [|lra]. exists [(0%nat, 2); (3%nat, -1)]. split.
  - repeat constructor; cbn; lra.
  - intros x. cbn [fn]. unfold T. cbn. ring.
Qed.
Print Assumptions C191_norm.
