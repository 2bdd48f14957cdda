(** * Properties C07-C14: Bounds arithmetic

    Each theorem is stated for every precision [prec] and exponent range
    [emax] (FloatDP is 53, 1024), for every pair of floats as bounds, and for
    every real between the bounds. *)

From Coq Require Import ZArith Reals Bool Lia Lra Psatz.
From Flocq Require Import Core IEEE754.BinarySingleNaN.
From Verif Require Import Float_Model Float_Spec Float_Proofs Logical_Model Bounds_Model Bounds_Spec Bounds_Proofs.
Local Open Scope R_scope.

(** Evaluate facts about double literals. *)
Ltac dpfin := vm_compute; reflexivity.
Lemma dp_in (X : bounds 53 1024) (v : DP) : is_finite v = true ->
  flt_le (b_l X) v && flt_le v (b_u X) = true -> contains X (B2R v).
Proof.
  intros F H. apply andb_prop in H. destruct H. split; [apply below_flt_le|apply above_flt_le]; auto.
Qed.
Lemma dp_out (X : bounds 53 1024) (v : DP) : is_finite v = true ->
  flt_le (b_l X) v && flt_le v (b_u X) = false -> ~ contains X (B2R v).
Proof.
  intros F H [A B]. apply below_flt_le in A; auto. apply above_flt_le in B; auto. rewrite A, B in H. discriminate.
Qed.

(** ** C07 *)
Theorem C07_add_sub_neg : forall prec emax (Hp : Prec_gt_0 prec) (He : Prec_lt_emax prec emax)
  (X Y : bounds prec emax) x y, contains X x -> contains Y y ->
  contains (b_add X Y) (x + y) /\ contains (b_sub X Y) (x - y) /\ contains (b_neg X) (- x) /\
  no_nan (b_add X Y) /\ no_nan (b_sub X Y) /\ no_nan (b_neg X).
Proof.
  intros. pose proof (b_add_contains X Y x y H H0). pose proof (b_sub_contains X Y x y H H0).
  pose proof (b_neg_contains X x H).
  split; [|split; [|split; [|split; [|split]]]]; auto; eapply contains_no_nan; eauto.
Qed.
Print Assumptions C07_add_sub_neg.
(** The same for the mixed operations with an exact float and for sums of two
    exact floats. *)
Theorem C07_mixed : forall prec emax (Hp : Prec_gt_0 prec) (He : Prec_lt_emax prec emax)
  (X : bounds prec emax) (f g : binary_float prec emax) x, contains X x ->
  is_finite f = true -> is_finite g = true ->
  contains (bf_add X f) (x + val f) /\ contains (fb_add f X) (val f + x) /\
  contains (bf_sub X f) (x - val f) /\ contains (fb_sub f X) (val f - x) /\
  contains (ff_add f g) (val f + val g) /\ contains (ff_sub f g) (val f - val g).
Proof.
  intros prec emax Hp He X f g x H F G. unfold val.
  destruct (bf_add_contains X f x F H). destruct (bf_sub_contains X f x F H).
  split; [|split; [|split; [|split; [|split]]]]; auto using ff_add_contains, ff_sub_contains.
Qed.
Print Assumptions C07_mixed.
(** The alternative [Operations<Bounds<F>>::_add(F,Bounds)]
    (float_bounds.inl.hpp:37-39, not reached by the friend functions) rounds
    the upper bound down: 1 + [0,2^-60] does not contain 1+2^-60. *)
Theorem C07_inl_add_refuted : exists (f : DP) (X : bounds 53 1024) x,
  is_finite f = true /\ contains X x /\ ~ contains (op_add_fb f X) (val f + x).
Proof.
  exists (dp 1 0), (mkB (dp 0 0) (dp 1 (-60))), (B2R (dp 1 (-60))).
  split; [dpfin|]. split; [apply dp_in; dpfin|].
  intros [_ U]. cbn [op_add_fb b_u] in U.
  assert (flt_le (fadd down (dp 1 0) (dp 1 (-60))) (dp 1 0) = true) as L by dpfin.
  apply (refines_above _ _ _ L) in U.
  assert (is_finite (dp 1 0) = true) as F by dpfin.
  apply (proj1 (above_finite _ _ F)) in U. unfold val in U.
  assert (0 < B2R (dp 1 (-60))) by (apply gt0_finite; dpfin).
  lra.
Qed.
Print Assumptions C07_inl_add_refuted.
(** The overload with the float on the right, and the sum of two
    Positive<Bounds> (float_bounds.hpp:528-529), are enclosures. *)
Theorem C07_inl_add_positive : forall prec emax (Hp : Prec_gt_0 prec) (He : Prec_lt_emax prec emax)
  (X Y : bounds prec emax) (f : binary_float prec emax) x y, contains X x -> contains Y y -> is_finite f = true ->
  contains (op_add_bf X f) (x + val f) /\ contains (pb_add X Y) (x + y).
Proof.
  intros prec emax Hp He X Y f x y HX HY F. split.
  - exact (b_add_contains X (b_of f) x (val f) HX (b_of_contains f F)).
  - exact (b_add_contains X Y x y HX HY).
Qed.
Print Assumptions C07_inl_add_positive.
(** Overflow and infinite operands are within the hypotheses. *)
Example C07_nonvacuous :
  let M := dp (2 ^ 53 - 1) 971 in
  contains (mkB M finf) (B2R M) /\ contains (mkB (dp 1 0) M) (B2R M) /\
  b_u (b_add (mkB (dp 1 0) M) (mkB (dp 1 0) M)) = B754_infinity false /\
  flt_eq (b_l (b_add (mkB M M) (mkB M M))) M = true /\
  flt_lt (b_l (b_add (mkB (dp 1 0) M) (mkB (dp 1 (-60)) M))) (b_u (b_add (mkB (dp 1 0) M) (mkB (dp 1 (-60)) M))) = true.
Proof.
  cbv zeta. split; [apply dp_in; dpfin|]. split; [apply dp_in; dpfin|].
  split; [apply B2SF_inj; dpfin|]. split; dpfin.
Qed.

(** ** C08 *)
Theorem C08_mul : forall prec emax (Hp : Prec_gt_0 prec) (He : Prec_lt_emax prec emax)
  (X Y : bounds prec emax) x y, finite_bounds X -> finite_bounds Y -> contains X x -> contains Y y ->
  contains (b_mul X Y) (x * y) /\ contains (b_sqr X) (x * x).
Proof.
  intros. split; [|apply b_sqr_contains; auto].
  apply b_mul_contains; auto. eapply b_mul_no_nan; eauto.
Qed.
Print Assumptions C08_mul.
(** With infinite bounds the product is still an enclosure unless it is NaN;
    squares are enclosures for all bounds. *)
Theorem C08_mul_infinite : forall prec emax (Hp : Prec_gt_0 prec) (He : Prec_lt_emax prec emax)
  (X Y : bounds prec emax) x y, contains X x -> contains Y y ->
  (no_nan (b_mul X Y) -> contains (b_mul X Y) (x * y)) /\ contains (b_sqr X) (x * x).
Proof. intros. split; [apply b_mul_contains; auto|apply b_sqr_contains; auto]. Qed.
Print Assumptions C08_mul_infinite.
(** NaN really occurs: [0,0]*[0,+inf] has a NaN upper bound, so the
    restriction to finite bounds (or to a non-NaN result) is needed. *)
Theorem C08_infinite_refuted : exists (X Y : bounds 53 1024) x y,
  contains X x /\ contains Y y /\ ~ contains (b_mul X Y) (x * y).
Proof.
  exists (mkB (dp 0 0) (dp 0 0)), (mkB (dp 0 0) finf), (B2R (dp 0 0)), (B2R (dp 0 0)).
  split; [apply dp_in; dpfin|]. split; [apply dp_in; dpfin|].
  intros [_ U]. assert (is_nan (b_u (b_mul (mkB (dp 0 0) (dp 0 0)) (mkB (dp 0 0) finf))) = true) as N by dpfin.
  apply above_not_nan in U. congruence.
Qed.
Print Assumptions C08_infinite_refuted.
(** Products with exact floats. *)
Theorem C08_mixed : forall prec emax (Hp : Prec_gt_0 prec) (He : Prec_lt_emax prec emax)
  (X : bounds prec emax) (f g : binary_float prec emax) x, finite_bounds X -> contains X x ->
  is_finite f = true -> is_finite g = true ->
  contains (bf_mul X f) (x * val f) /\ contains (fb_mul f X) (val f * x) /\
  contains (op_mul_bf X f) (x * val f) /\ contains (op_mul_fb f X) (val f * x) /\
  contains (ff_mul f g) (val f * val g) /\ contains (ff_sqr f) (val f * val f).
Proof.
  intros prec emax Hp He X f g x FX H F G. unfold val.
  assert (finite_bounds (b_of f)) by (split; auto).
  pose proof (b_of_contains f F).
  destruct (op_mul_bf_contains X f x F FX H).
  repeat match goal with |- _ /\ _ => split end; auto.
  - apply C08_mul; auto.
  - apply C08_mul; auto.
  - apply ff_mul_contains; auto.
  - apply (ff_mul_contains f f); auto.
Qed.
Print Assumptions C08_mixed.
(** The fused multiply-add, and squares of Positive<Bounds> (also infinite). *)
Theorem C08_fma_positive : forall prec emax (Hp : Prec_gt_0 prec) (He : Prec_lt_emax prec emax)
  (X Y Z : bounds prec emax) x y z, contains X x -> contains Y y -> contains Z z ->
  (finite_bounds X -> finite_bounds Y -> contains (b_fma X Y Z) (x * y + z)) /\
  (ge0 (b_l X) = true -> contains (pb_sqr X) (x * x)) /\
  (ge0 (b_l X) = true -> ge0 (b_l Y) = true -> finite_bounds X -> finite_bounds Y -> contains (pb_mul X Y) (x * y)).
Proof.
  intros prec emax Hp He X Y Z x y z HX HY HZ. repeat split; intros.
  - apply b_add_contains; auto. apply C08_mul; auto.
  - apply b_add_contains; auto. apply C08_mul; auto.
  - apply pb_sqr_contains; auto.
  - apply pb_sqr_contains; auto.
  - apply pb_mul_contains; auto. destruct H1, H2. split; cbn; eapply rounded_not_nan, fmul_rounded; auto.
  - apply pb_mul_contains; auto. destruct H1, H2. split; cbn; eapply rounded_not_nan, fmul_rounded; auto.
Qed.
Print Assumptions C08_fma_positive.
Example C08_nonvacuous :
  let X := mkB (dp (-3) 0) (dp 5 0) in let Y := mkB (dp (-7) 0) (dp 2 0) in
  contains X (B2R (dp 5 0)) /\ contains Y (B2R (dp (-7) 0)) /\
  b_same (b_mul X Y) (mkB (dp (-35) 0) (dp 21 0)) = true /\ b_same (b_sqr X) (mkB (dp 0 0) (dp 25 0)) = true /\
  b_same (b_mul (mkB (dp 1 0) (dp 2 0)) Y) (mkB (dp (-14) 0) (dp 4 0)) = true.
Proof.
  cbv zeta. split; [apply dp_in; dpfin|]. split; [apply dp_in; dpfin|]. split; [dpfin|]. split; dpfin.
Qed.

(** ** C09 *)
Theorem C09_div : forall prec emax (Hp : Prec_gt_0 prec) (He : Prec_lt_emax prec emax)
  (X Y : bounds prec emax) x y, contains X x -> contains Y y -> y <> 0 ->
  contains (b_div X Y) (x / y) /\ contains (b_rec Y) (/ y).
Proof. intros. split; [apply b_div_contains|apply b_rec_contains]; auto. Qed.
Print Assumptions C09_div.
Theorem C09_zero_divisor : forall prec emax (Hp : Prec_gt_0 prec) (He : Prec_lt_emax prec emax)
  (X Y : bounds prec emax), contains Y 0 -> whole_line (b_div X Y) /\ whole_line (b_rec Y).
Proof. intros. apply b_div_zero; auto. Qed.
Print Assumptions C09_zero_divisor.
(** Division by an exact float, and of positive bounds. *)
Theorem C09_mixed : forall prec emax (Hp : Prec_gt_0 prec) (He : Prec_lt_emax prec emax)
  (X Y : bounds prec emax) (f : binary_float prec emax) x y, contains X x -> contains Y y ->
  is_finite f = true -> val f <> 0 -> y <> 0 ->
  contains (bf_div X f) (x / val f) /\ contains (op_div_bf X f) (x / val f) /\
  contains (fb_div f Y) (val f / y) /\ contains (ff_rec f) (/ val f) /\ contains (ff_div f f) 1 /\
  (ge0 (b_l X) = true -> gt0 (b_l Y) = true -> contains (pb_div X Y) (x / y)).
Proof.
  intros prec emax Hp He X Y f x y HX HY F N Ny. unfold val in *. pose proof (b_of_contains f F).
  repeat match goal with |- _ /\ _ => split end.
  - apply C09_div; auto.
  - apply op_div_bf_contains; auto.
  - apply C09_div; auto.
  - apply ff_rec_contains; auto.
  - replace 1 with (B2R f / B2R f) by (field; auto). apply ff_div_contains; auto.
  - intros A B. apply pb_div_contains; auto. unfold nonneg_bounds.
    destruct HY as [L _]. destruct (lower_split _ _ L) as [(K & _ & _ & _ & T & _)|(_ & _ & T)]; [|congruence].
    apply ge0_finite; auto. specialize (T B); lra.
Qed.
Print Assumptions C09_mixed.
(** The alternative [Operations<Bounds<F>>::_div(F,Bounds)]
    (float_bounds.inl.hpp:77-87) encloses the quotient of any finite float, zero
    included, and answers the whole line if the divisor may be zero; the
    reciprocal of Positive<Bounds> encloses the reciprocals. *)
Theorem C09_inl_div_positive : forall prec emax (Hp : Prec_gt_0 prec) (He : Prec_lt_emax prec emax)
  (Y : bounds prec emax) (f : binary_float prec emax) y, contains Y y -> is_finite f = true ->
  (y <> 0 -> contains (op_div_fb f Y) (val f / y)) /\
  (contains Y 0 -> whole_line (op_div_fb f Y)) /\
  (gt0 (b_l Y) = true -> contains (pb_rec Y) (/ y)).
Proof.
  intros prec emax Hp He Y f y HY F.
  split; [intros; apply op_div_fb_contains; auto|].
  split; [intros; apply op_div_fb_zero; auto|intros; apply pb_rec_contains; auto].
Qed.
Print Assumptions C09_inl_div_positive.
Example C09_nonvacuous_positive :
  b_same (op_div_fb (dp 6 0) (mkB (dp (-4) 0) (dp (-2) 0))) (mkB (dp (-3) 0) (dp (-3) (-1))) = true /\
  b_same (op_div_fb (dp (-6) 0) (mkB (dp 2 0) (dp 4 0))) (mkB (dp (-3) 0) (dp (-3) (-1))) = true /\
  b_same (pb_rec (mkB (dp 2 0) (dp 4 0))) (mkB (dp 1 (-2)) (dp 1 (-1))) = true /\
  b_same (pb_sqr (mkB (dp 2 0) (dp 4 0))) (mkB (dp 4 0) (dp 16 0)) = true /\
  b_same (b_fma (mkB (dp 2 0) (dp 4 0)) (mkB (dp (-1) 0) (dp 4 0)) (mkB (dp 1 0) (dp 1 0))) (mkB (dp (-3) 0) (dp 17 0)) = true.
Proof. repeat (split; [dpfin|]); dpfin. Qed.
Example C09_nonvacuous :
  let X := mkB (dp (-3) 0) (dp 5 0) in let Y := mkB (dp (-4) 0) (dp (-2) 0) in
  contains X (B2R (dp 5 0)) /\ contains Y (B2R (dp (-3) 0)) /\ B2R (dp (-3) 0) <> 0 /\
  b_same (b_div X Y) (mkB (dp (-5) (-1)) (dp 3 (-1))) = true /\
  contains (mkB (dp (-1) 0) (dp 1 0)) 0 /\ flt_lt (b_l (b_rec (mkB (dp 3 0) (dp 3 0)))) (b_u (b_rec (mkB (dp 3 0) (dp 3 0)))) = true.
Proof.
  cbv zeta. split; [apply dp_in; dpfin|]. split; [apply dp_in; dpfin|]. split.
  - assert (B2R (dp (-3) 0) < 0) by (apply lt0_finite; dpfin). lra.
  - split; [dpfin|]. split; [|dpfin].
    assert (B2R (dp 0 0) = 0) as <- by reflexivity. apply dp_in; dpfin.
Qed.

(** ** C10 *)
(** What each answer of a comparison claims, for all members. *)
Theorem C10_sound : forall prec emax
  (X Y : bounds prec emax) x y, contains X x -> contains Y y ->
  (b_lt X Y = TRUE -> x < y) /\ (b_lt X Y = FALSE -> ~ x < y) /\
  (b_gt X Y = TRUE -> x > y) /\ (b_gt X Y = FALSE -> ~ x > y) /\
  (b_le X Y = TRUE -> x <= y) /\ (b_le X Y = FALSE -> ~ x <= y) /\
  (b_ge X Y = TRUE -> x >= y) /\ (b_ge X Y = FALSE -> ~ x >= y) /\
  (b_eq X Y = TRUE -> x = y) /\ (b_eq X Y = FALSE -> x <> y) /\
  (b_neq X Y = TRUE -> x <> y) /\ (b_neq X Y = FALSE -> x = y) /\
  (b_sgn X = TRUE -> 0 < x) /\ (b_sgn X = FALSE -> x < 0) /\
  (b_is_zero X = TRUE -> x = 0) /\ (b_is_zero X = FALSE -> x <> 0) /\
  (b_is_positive X = TRUE -> 0 <= x) /\ (b_is_positive X = FALSE -> x < 0).
Proof.
  intros prec emax X Y x y HX HY.
  pose proof (b_lt_true X Y x y HX HY). pose proof (b_lt_false X Y x y HX HY).
  pose proof (b_lt_true Y X y x HY HX). pose proof (b_lt_false Y X y x HY HX).
  pose proof (b_eq_true X Y x y HX HY). pose proof (b_eq_false X Y x y HX HY).
  assert (contains (mkB fzero fzero : bounds prec emax) 0) as HZ by (split; cbn; lra).
  rewrite b_is_zero_eq.
  repeat match goal with |- _ /\ _ => split end.
  all: try (intros E; first [specialize (H E)|specialize (H0 E)]; lra).
  all: try (apply b_sgn_true; auto). all: try (apply b_sgn_false; auto).
  all: try (apply b_is_positive_true; auto). all: try (apply b_is_positive_false; auto).
  all: try (apply b_eq_true; auto). all: try (apply b_eq_false; auto).
  all: try (unfold b_gt; intros E; first [specialize (H1 E)|specialize (H2 E)]; lra).
  - unfold b_le. destruct (b_lt Y X) eqn:E; try discriminate. intros _. specialize (H2 eq_refl). lra.
  - unfold b_le. destruct (b_lt Y X) eqn:E; try discriminate. intros _. specialize (H1 eq_refl). lra.
  - unfold b_ge. destruct (b_lt X Y) eqn:E; try discriminate. intros _. specialize (H0 eq_refl). lra.
  - unfold b_ge. destruct (b_lt X Y) eqn:E; try discriminate. intros _. specialize (H eq_refl). lra.
  - unfold b_neq. destruct (b_eq X Y) eqn:E; try discriminate. intros _. auto.
  - unfold b_neq. destruct (b_eq X Y) eqn:E; try discriminate. intros _. auto.
Qed.
Print Assumptions C10_sound.

(** If the answer is not definite, both outcomes occur among the members. *)
Theorem C10_complete : forall prec emax
  (X Y : bounds prec emax), inhabited X -> inhabited Y ->
  (b_lt X Y <> TRUE -> b_lt X Y <> FALSE ->
     (exists x y, contains X x /\ contains Y y /\ x < y) /\ (exists x y, contains X x /\ contains Y y /\ ~ x < y)) /\
  (b_le X Y <> TRUE -> b_le X Y <> FALSE ->
     (exists x y, contains X x /\ contains Y y /\ x <= y) /\ (exists x y, contains X x /\ contains Y y /\ ~ x <= y)) /\
  (b_eq X Y <> TRUE -> b_eq X Y <> FALSE ->
     (exists x y, contains X x /\ contains Y y /\ x = y) /\ (exists x y, contains X x /\ contains Y y /\ x <> y)) /\
  (b_sgn X <> TRUE -> b_sgn X <> FALSE ->
     (exists x, contains X x /\ ~ 0 < x) /\ (exists x, contains X x /\ ~ x < 0)) /\
  (b_is_zero X <> TRUE -> b_is_zero X <> FALSE ->
     (exists x, contains X x /\ x = 0) /\ (exists x, contains X x /\ x <> 0)) /\
  (b_is_positive X <> TRUE -> b_is_positive X <> FALSE ->
     (exists x, contains X x /\ 0 <= x) /\ (exists x, contains X x /\ x < 0)).
Proof.
  intros prec emax X Y HX HY.
  repeat match goal with |- _ /\ _ => split end; intros A B.
  - assert (b_lt X Y = INDET) as E by (destruct (b_lt_values X Y) as [E|[E|E]]; congruence).
    destruct (b_lt_indet X Y HX HY E) as [P (x & y & ? & ? & ?)]. split; auto.
    exists x, y. split; [|split]; auto; lra.
  - assert (b_lt Y X = INDET) as E.
    { unfold b_le in *. destruct (b_lt_values Y X) as [E|[E|E]]; rewrite E in *; auto; cbn in *; congruence. }
    destruct (b_lt_indet Y X HY HX E) as [(y & x & ? & ? & ?) (y' & x' & ? & ? & ?)].
    split; [exists x', y'|exists x, y]; (split; [|split]; auto; lra).
  - assert (b_eq X Y = INDET) as E.
    { revert A B. unfold b_eq. repeat match goal with |- context [if ?c then _ else _] => destruct c end; congruence. }
    apply b_eq_indet; auto.
  - assert (b_sgn X = INDET) as E.
    { revert A B. unfold b_sgn. repeat match goal with |- context [if ?c then _ else _] => destruct c end; congruence. }
    destruct (b_sgn_indet X HX E) as [(x & ? & ?) (x' & ? & ?)].
    split; [exists x|exists x']; (split; auto; lra).
  - rewrite b_is_zero_eq in A, B. assert (b_eq X b_zero = INDET) as E.
    { revert A B. unfold b_eq. repeat match goal with |- context [if ?c then _ else _] => destruct c end; congruence. }
    destruct (b_eq_indet X b_zero HX b_zero_inhabited E) as [(x & y & ? & HY1 & ?) (x' & y' & ? & HY2 & ?)].
    apply b_zero_contains in HY1. apply b_zero_contains in HY2.
    split; [exists x|exists x']; (split; auto; lra).
  - assert (b_is_positive X = INDET) as E.
    { revert A B. unfold b_is_positive. repeat match goal with |- context [if ?c then _ else _] => destruct c end; congruence. }
    destruct (b_is_positive_indet X HX E) as [(x & ? & ?) (x' & ? & ?)].
    split; [exists x'|exists x]; (split; auto; lra).
Qed.
Print Assumptions C10_complete.
Example C10_nonvacuous :
  let X := mkB (dp 1 0) (dp 2 0) in let Y := mkB (dp 3 0) finf in let Z := mkB (dp (-1) 0) (dp 1 0) in
  contains X (B2R (dp 1 0)) /\ contains Y (B2R (dp 3 0)) /\ contains Z (B2R (dp 0 0)) /\
  b_lt X Y = TRUE /\ b_lt Y X = FALSE /\ b_lt Z X = INDET /\ b_le Z X = TRUE /\ b_eq X Y = FALSE /\ b_eq X X = INDET /\
  b_eq (b_of (dp 1 0)) (b_of (dp 1 0)) = TRUE /\ b_sgn Z = INDET /\ b_is_positive X = TRUE /\ b_is_zero Z = INDET.
Proof.
  cbv zeta. split; [apply dp_in; dpfin|]. split; [apply dp_in; dpfin|]. split; [apply dp_in; dpfin|].
  repeat (split; [dpfin|]); dpfin.
Qed.

(** ** C11 *)
Theorem C11_lattice : forall prec emax
  (X Y : bounds prec emax), inhabited X -> inhabited Y ->
  (b_refines X Y = true <-> subset X Y) /\
  (forall r, contains (b_refinement X Y) r <-> contains X r /\ contains Y r) /\
  subset X (b_coarsening X Y) /\ subset Y (b_coarsening X Y) /\
  (forall Z, subset X Z -> subset Y Z -> subset (b_coarsening X Y) Z) /\
  (b_consistent X Y = true <-> exists r, contains X r /\ contains Y r) /\
  (b_inconsistent X Y = true <-> ~ exists r, contains X r /\ contains Y r) /\
  (forall v, is_finite v = true -> (b_models X v = true <-> contains X (val v))).
Proof.
  intros prec emax X Y HX HY. pose proof (inhabited_no_nan X HX). pose proof (inhabited_no_nan Y HY).
  split; [apply b_refines_iff; auto|]. split; [intros; apply b_refinement_iff; auto|].
  split; [apply b_coarsening_l|]. split; [apply b_coarsening_r; auto|].
  split; [intros; apply b_coarsening_least; auto|]. split; [apply b_consistent_iff; auto|].
  split; [apply b_inconsistent_iff; auto|]. intros; apply b_models_iff; auto.
Qed.
Print Assumptions C11_lattice.
(** [refinement] is exact for all non-NaN bounds, also if one is empty. *)
Theorem C11_refinement_exact : forall prec emax (X Y : bounds prec emax) r, no_nan X -> no_nan Y ->
  (contains (b_refinement X Y) r <-> contains X r /\ contains Y r).
Proof. intros. apply b_refinement_iff; auto. Qed.
Print Assumptions C11_refinement_exact.
Example C11_nonvacuous :
  let X := mkB (dp 1 0) (dp 4 0) in let Y := mkB (dp 3 0) finf in
  inhabited X /\ inhabited Y /\ b_refines X Y = false /\ b_refines (mkB (dp 3 0) (dp 4 0)) Y = true /\
  b_same (b_refinement X Y) (mkB (dp 3 0) (dp 4 0)) = true /\ b_same (b_coarsening X Y) (mkB (dp 1 0) finf) = true /\
  b_consistent X Y = true /\ b_inconsistent (mkB (dp 1 0) (dp 2 0)) Y = true /\ b_models X (dp 4 0) = true.
Proof.
  cbv zeta. split; [exists (B2R (dp 1 0)); apply dp_in; dpfin|]. split; [exists (B2R (dp 3 0)); apply dp_in; dpfin|].
  repeat (split; [dpfin|]); dpfin.
Qed.

(** ** C12 *)
(** Whenever the error is finite, value and error enclose the interval. *)
Theorem C12_value_error_partial : forall prec emax (Hp : Prec_gt_0 prec) (He : Prec_lt_emax prec emax)
  (X : bounds prec emax), finite_bounds X ->
  (is_finite (b_error X) = true -> is_finite (b_value X) = true) /\
  (is_finite (b_value X) = true -> forall r, contains X r ->
     above (b_error X) (Rabs (r - val (b_value X))) /\
     contains (b_pm (b_of (b_value X)) (b_error X)) r) /\
  (is_finite (b_value X) = false -> b_error X = B754_infinity false).
Proof.
  intros prec emax Hp He X F. destruct (b_value_error X F) as [[V H]|(V & _ & E)].
  - split; auto. split; [|congruence]. intros _ r Hr. unfold val. split; auto. apply b_pm_contains; auto.
  - rewrite E. split; [discriminate|]. split; [congruence|auto].
Qed.
Print Assumptions C12_value_error_partial.
(** When the midpoint overflows the value is infinite and [value pm error] is
    a NaN interval. *)
Theorem C12_overflow_refuted : exists (X : bounds 53 1024) r, finite_bounds X /\ contains X r /\
  b_value X = B754_infinity false /\ ~ contains (b_pm (b_of (b_value X)) (b_error X)) r.
Proof.
  exists (mkB (dp 1 1023) (dp 1 1023)), (B2R (dp 1 1023)).
  split; [split; dpfin|]. split; [apply dp_in; dpfin|]. split; [apply B2SF_inj; dpfin|].
  intros [L _].
  apply below_not_nan in L.
  assert (is_nan (b_l (b_pm (b_of (b_value (mkB (dp 1 1023) (dp 1 1023)))) (b_error (mkB (dp 1 1023) (dp 1 1023))))) = true) as N by dpfin.
  congruence.
Qed.
Print Assumptions C12_overflow_refuted.
(** [pm] encloses any perturbation bounded by its argument. *)
Theorem C12_pm : forall prec emax (Hp : Prec_gt_0 prec) (He : Prec_lt_emax prec emax)
  (X : bounds prec emax) e x d, contains X x -> above e (Rabs d) -> contains (b_pm X e) (x + d).
Proof. intros. apply b_pm_contains_gen; auto. Qed.
Print Assumptions C12_pm.
Example C12_nonvacuous :
  let X := mkB (dp 1 0) (dp (2 ^ 52 + 1) (-52)) in
  finite_bounds X /\ contains X (B2R (dp 1 0)) /\ is_finite (b_value X) = true /\
  flt_lt (dp 0 0) (b_error X) = true /\ flt_lt (b_error X) (dp 1 (-51)) = true.
Proof.
  cbv zeta. split; [split; dpfin|]. split; [apply dp_in; dpfin|]. repeat (split; [dpfin|]); dpfin.
Qed.

(** ** C13 *)
Theorem C13_pow : forall prec emax (Hp : Prec_gt_0 prec) (He : Prec_lt_emax prec emax)
  (X : bounds prec emax) x n, contains X x -> contains (b_pow X n) (x ^ N.to_nat n).
Proof. intros. apply b_pow_contains; auto. Qed.
Print Assumptions C13_pow.
Theorem C13_pow_integer : forall prec emax (Hp : Prec_gt_0 prec) (He : Prec_lt_emax prec emax)
  (X : bounds prec emax) x n, contains X x -> (x <> 0 \/ (0 <= n)%Z) -> contains (b_powz X n) (powerRZ x n).
Proof. intros. apply b_powz_contains; auto. Qed.
Print Assumptions C13_pow_integer.
Theorem C13_pow_float : forall prec emax (Hp : Prec_gt_0 prec) (He : Prec_lt_emax prec emax)
  (f : binary_float prec emax) n, is_finite f = true -> contains (ff_pow f n) (val f ^ N.to_nat n).
Proof. intros. apply ff_pow_contains; auto. Qed.
Print Assumptions C13_pow_float.
Example C13_nonvacuous :
  let X := mkB (dp (-3) 0) (dp 2 0) in
  contains X (B2R (dp (-3) 0)) /\ b_same (b_pow X 2) (mkB (dp 0 0) (dp 9 0)) = true /\
  b_same (b_pow X 3) (mkB (dp (-27) 0) (dp 8 0)) = true /\ b_same (b_pow X 0) (mkB (dp 1 0) (dp 1 0)) = true /\
  b_same (b_powz (mkB (dp 2 0) (dp 4 0)) (-2)) (mkB (dp 1 (-4)) (dp 1 (-2))) = true.
Proof. cbv zeta. split; [apply dp_in; dpfin|]. repeat (split; [dpfin|]); dpfin. Qed.

(** ** C14 *)
Theorem C14_max_min_abs_widen : forall prec emax (Hp : Prec_gt_0 prec) (He : Prec_lt_emax prec emax)
  (X Y : bounds prec emax) x y, contains X x -> contains Y y ->
  contains (b_max X Y) (Rmax x y) /\ contains (b_min X Y) (Rmin x y) /\ contains (b_abs X) (Rabs x) /\
  above (b_mag X) (Rabs x) /\ below (b_mig X) (Rabs x) /\
  (forall m d, is_finite m = true -> Rabs d <= val m -> contains (b_widen m X) (x + d)).
Proof.
  intros. split; [apply b_max_contains; auto|]. split; [apply b_min_contains; auto|].
  split; [apply b_abs_contains; auto|]. split; [apply b_mag_above; auto|]. split; [apply b_mig_below; auto|].
  intros. apply b_widen_margin; auto.
Qed.
Print Assumptions C14_max_min_abs_widen.

(** Halving is exact, hence an enclosure, if the bounds are infinite, zero or
    at least 2^(3-emax) in size (so that the half is a normal number),
    whatever the current rounding mode. *)
Theorem C14_hlf_partial : forall prec emax (Hp : Prec_gt_0 prec) (He : Prec_lt_emax prec emax) m
  (X : bounds prec emax) x,
  (forall b, b = b_l X \/ b = b_u X -> is_finite b = false \/ val b = 0 \/ bpow radix2 (3 - emax) <= Rabs (val b)) ->
  contains X x -> contains (b_hlf m X) (x / 2).
Proof. intros. apply b_hlf_contains; auto; apply H; auto. Qed.
Print Assumptions C14_hlf_partial.
(** In every rounding mode the half of the smallest positive double is not in
    hlf of the bounds consisting of that double alone. *)
Theorem C14_hlf_refuted : exists (X : bounds 53 1024) x, contains X x /\ forall m, ~ contains (b_hlf m X) (x / 2).
Proof.
  exists (mkB (dp 1 (-1074)) (dp 1 (-1074))), (B2R (dp 1 (-1074))).
  split; [apply dp_in; dpfin|]. intros m [A B].
  assert (0 < B2R (dp 1 (-1074))) as P by (apply gt0_finite; dpfin).
  assert (is_finite (fhlf m (dp 1 (-1074))) = true) as F by (destruct m; dpfin).
  cbn [b_hlf b_l b_u] in *. apply (below_finite _ _ F) in A. apply (above_finite _ _ F) in B.
  assert (B2R (fhlf m (dp 1 (-1074))) = 0 \/ B2R (fhlf m (dp 1 (-1074))) = B2R (dp 1 (-1074))) as [E|E]; [|lra|lra].
  assert (flt_eq (fhlf m (dp 1 (-1074))) fzero = true \/ flt_eq (fhlf m (dp 1 (-1074))) (dp 1 (-1074)) = true) as [E|E].
  { destruct m; first [left; dpfin|right; dpfin]. }
  - left. apply flt_eq_finite in E; auto.
  - right. apply flt_eq_finite in E; auto; dpfin.
Qed.
Print Assumptions C14_hlf_refuted.

(** narrow moves the lower bound inwards ... *)
Theorem C14_narrow_lower_partial : forall prec emax (Hp : Prec_gt_0 prec) (He : Prec_lt_emax prec emax)
  (m : binary_float prec emax) (X : bounds prec emax) r, is_finite m = true -> 0 <= val m -> is_finite (b_l X) = true ->
  contains (b_narrow m X) r -> below (b_l X) r.
Proof. intros. apply b_narrow_lower with m; auto. Qed.
Print Assumptions C14_narrow_lower_partial.
(** ... but adds to the upper bound instead of subtracting, so narrow(X) is
    not contained in X: X = [0,2^-120], m = 2^-126. *)
Theorem C14_narrow_refuted : exists (X : bounds 53 1024) r,
  contains (b_narrow (dp 1 (-126)) X) r /\ ~ contains X r.
Proof.
  exists (mkB (dp 0 0) (dp 1 (-120))), (B2R (fadd down (dp 1 (-120)) (dp 1 (-126)))).
  split; [apply dp_in; dpfin|apply dp_out; dpfin].
Qed.
Print Assumptions C14_narrow_refuted.
(** min of two Positive<Bounds> takes the second upper bound twice
    (float_bounds.hpp:548-549).  The result is still an enclosure, but not the
    tight one: min([1,4],[3,5]) = [1,5]. *)
Theorem C14_positive_min_sound : forall prec emax
  (X Y : bounds prec emax) x y, contains X x -> contains Y y -> contains (pb_min X Y) (Rmin x y).
Proof.
  intros prec emax X Y x y [A B] [C D]. split; cbn.
  - unfold Rmin; destruct Rle_dec; [apply below_fmin_l; auto|apply below_fmin_r; auto; eapply below_not_nan; eauto].
  - apply above_fmin; eapply above_ge; try exact D; apply Rmin_r.
Qed.
Print Assumptions C14_positive_min_sound.
Theorem C14_positive_max_sound : forall prec emax (Hp : Prec_gt_0 prec) (He : Prec_lt_emax prec emax)
  (X Y : bounds prec emax) x y, contains X x -> contains Y y -> contains (pb_max X Y) (Rmax x y).
Proof. intros. exact (b_max_contains X Y x y H H0). Qed.
Print Assumptions C14_positive_max_sound.
Example C14_nonvacuous :
  let X := mkB (dp (-3) 0) (dp 2 0) in let Y := mkB (dp 1 0) (dp 4 0) in
  contains X (B2R (dp (-3) 0)) /\ contains Y (B2R (dp 4 0)) /\
  b_same (b_max X Y) Y = true /\ b_same (b_min X Y) X = true /\ b_same (b_abs X) (mkB (dp 0 0) (dp 3 0)) = true /\
  flt_eq (b_mag X) (dp 3 0) = true /\ flt_eq (b_mig Y) (dp 1 0) = true /\
  b_refines X (b_widen (dp 1 (-126)) X) = true /\ b_same (b_hlf near X) (mkB (dp (-3) (-1)) (dp 1 0)) = true /\
  b_same (pb_min Y (mkB (dp 3 0) (dp 5 0))) (mkB (dp 1 0) (dp 5 0)) = true.
Proof.
  cbv zeta. split; [apply dp_in; dpfin|]. split; [apply dp_in; dpfin|]. repeat (split; [dpfin|]); dpfin.
Qed.
