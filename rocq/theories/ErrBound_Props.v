(** * Properties C17, C18: Error, UpperBound and LowerBound

    Every positive theorem holds in every precision and exponent range.
    [above f r]: f is not NaN and r <= f in the extended reals; [below] dually. *)

From Coq Require Import ZArith NArith Reals List Bool Lia Lra Psatz.
From Flocq Require Import Core IEEE754.BinarySingleNaN.
From Verif Require Import Float_Model Float_Spec Float_Proofs Bounds_Model Bounds_Spec Bounds_Proofs Bounds_Props
  Ball_Model Ball_Spec Ball_Proofs Ball_Props LRU_Model ErrBound_Model ErrBound_Spec ErrBound_Proofs.
Import ListNotations.
Local Open Scope R_scope.

(** ** C17 *)
(** Each operation of Error rounds up.  [is_nan] can only hold for a product
    of zero and infinity. *)
Theorem C17_error_operations : forall prec emax (Hp : Prec_gt_0 prec) (He : Prec_lt_emax prec emax)
  (f g h : binary_float prec emax) x y z, 0 <= x -> 0 <= y -> 0 <= z -> above f x -> above g y -> above h z ->
  above (er_add f g) (x + y) /\
  (is_nan (er_mul f g) = false -> above (er_mul f g) (x * y)) /\
  above (er_sqr f) (x * x) /\
  (is_nan (er_fma f g h) = false -> above (er_fma f g h) (x * y + z)) /\
  above (er_max f g) (Rmax x y) /\ above (er_min f g) (Rmin x y) /\
  (forall n, above (er_add_nat f n) (x + IZR (Z.of_N n))) /\
  (forall n, n <> 0%N -> above (er_div_nat f n) (x / IZR (Z.of_N n))) /\
  (forall l d, is_finite l = true -> 0 < B2R l <= d -> above (er_div f l) (x / d)).
Proof.
  intros. split; [apply fadd_up_above; auto|]. split; [intros; apply er_mul_above; auto|].
  split; [apply fsqr_up_nonneg; auto|].
  split; [intros; apply er_fma_above; auto|]. split; [apply max_above; auto|]. split; [apply min_above; auto|].
  split; [intros; apply fadd_up_above; auto; apply fnat_up_above|].
  split; [intros n Hn; destruct (fnat_down (prec:=prec) (emax:=emax) n Hn); apply er_div_above; auto|].
  intros; apply er_div_above; auto.
Qed.
Print Assumptions C17_error_operations.
(** A float plus an error bounds from above, a float minus an error from below. *)
Theorem C17_float_plus_error : forall prec emax (Hp : Prec_gt_0 prec) (He : Prec_lt_emax prec emax)
  (f e : binary_float prec emax) y, is_finite f = true -> above e y ->
  above (er_fadd f e) (val f + y) /\ below (er_fsub f e) (val f - y).
Proof.
  intros prec emax Hp He f e y F A. unfold val. split.
  - apply fadd_up_above; auto. apply above_finite; auto; lra.
  - apply fsub_down_below; auto. apply below_finite; auto; lra.
Qed.
Print Assumptions C17_float_plus_error.

(** The product is an upper bound for finite and for strictly positive operands. *)
Theorem C17_error_product_defined : forall prec emax (Hp : Prec_gt_0 prec) (He : Prec_lt_emax prec emax)
  (f g : binary_float prec emax) x y, 0 <= x -> 0 <= y -> above f x -> above g y ->
  (is_finite f = true /\ is_finite g = true) \/ (gt0 f = true /\ gt0 g = true) ->
  above (er_mul f g) (x * y).
Proof.
  intros prec emax Hp He f g x y Hx Hy A B [[F G]|[F G]].
  - apply er_mul_above; auto. exact (rounded_not_nan _ _ _ (fmul_rounded up f g F G)).
  - apply (fmul_up_pos f g x y); auto.
Qed.
Print Assumptions C17_error_product_defined.

(** Expression trees.  If no intermediate result is a NaN the result is an upper
    bound of the exact value. *)
Theorem C17_expressions : forall prec emax (Hp : Prec_gt_0 prec) (He : Prec_lt_emax prec emax)
  (env : nat -> binary_float prec emax) rho e, (forall i, 0 <= rho i /\ above (env i) (rho i)) -> ee_defined e ->
  (forall s, In s (ee_subs e) -> is_nan (ee_eval env s) = false) ->
  above (ee_eval env e) (ee_real rho e).
Proof. intros. apply ee_above; auto. Qed.
Print Assumptions C17_expressions.

(** With strictly positive leaves, infinity included, no NaN appears. *)
Theorem C17_expressions_positive : forall prec emax (Hp : Prec_gt_0 prec) (He : Prec_lt_emax prec emax)
  (env : nat -> binary_float prec emax) rho e, (forall i, gt0 (env i) = true) ->
  (forall i, 0 <= rho i /\ above (env i) (rho i)) -> ee_defined e ->
  above (ee_eval env e) (ee_real rho e).
Proof. intros. apply ee_above_pos; auto. Qed.
Print Assumptions C17_expressions_positive.

(** For arbitrary non-negative leaves the claim fails: with x=0, y=inf, z=5 the
    expression max(x, x*y+z) evaluates to 0, although its value is at least 5,
    since 0*inf is a NaN and max(0,NaN) is 0. *)
Theorem C17_nan_lost_refuted : exists (env : nat -> DP) rho e,
  (forall i, 0 <= rho i /\ above (env i) (rho i)) /\ ee_defined e /\
  is_finite (ee_eval env e) = true /\ ~ above (ee_eval env e) (ee_real rho e).
Proof.
  set (env := fun i => match i with 0%nat => dp 0 0 | 1%nat => finf | _ => dp 5 0 end).
  set (rho := fun i => match i with 0%nat => 0 | 1%nat => 1 | _ => 5 end).
  exists env, rho, (EMax (EVar 0) (EAdd (EMul (EVar 0) (EVar 1)) (EVar 2))).
  assert (B2R (dp 5 0) = 5) as V by (dpval (dp 5 0); lra).
  split; [|split; [|split]].
  - intros [|[|i]]; cbn [env rho]; (split; [lra|]).
    + apply above_finite; [dpfin|]. cbn; lra.
    + reflexivity.
    + apply above_finite; [dpfin|]. rewrite V. lra.
  - cbn. tauto.
  - dpfin.
  - intros A. assert (is_finite (ee_eval env (EMax (EVar 0) (EAdd (EMul (EVar 0) (EVar 1)) (EVar 2)))) = true) as F by dpfin.
    apply (proj1 (above_finite _ _ F)) in A. rewrite dp_zero in A by dpfin. cbn [ee_real rho] in A.
    unfold Rmax in A. destruct Rle_dec in A; lra.
Qed.
Print Assumptions C17_nan_lost_refuted.

(** Powers: right below 2^31; above, the conversion of the exponent to a signed
    integer makes it negative. *)
Theorem C17_pow_partial : forall prec emax (Hp : Prec_gt_0 prec) (He : Prec_lt_emax prec emax)
  (u : binary_float prec emax) x n, (n < 2 ^ 31)%N -> 0 <= x -> above u x ->
  exists r, er_pow u n = Ret r /\ above r (x ^ N.to_nat n).
Proof. intros. apply er_pow_above; auto. Qed.
Print Assumptions C17_pow_partial.
Theorem C17_pow_refuted : exists (u : DP) n r, (n < 2 ^ 32)%N /\ er_pow u n = Ret r /\ is_finite u = true /\
  is_finite r = true /\ ~ above r (B2R u ^ N.to_nat n).
Proof.
  exists (dp 2 0), 4294967295%N. eexists. split; [reflexivity|]. split; [reflexivity|]. split; [dpfin|].
  match goal with |- is_finite ?r = true /\ _ => assert (is_finite r = true) as F by dpfin;
    assert (flt_lt r (dp 1 0) = true) as L by dpfin; split; [exact F|]; set (rr := r) in * end.
  intros A. apply (proj1 (above_finite _ _ F)) in A.
  assert (B2R (dp 2 0) = 2) as V by (dpval (dp 2 0); lra). rewrite V in A.
  assert (B2R (dp 1 0) = 1) as V1 by (dpval (dp 1 0); lra).
  assert (B2R rr < B2R (dp 1 0)) as L' by (eapply flt_lt_above_below; [exact L|apply above_finite; auto; lra|apply below_finite; [dpfin|lra]]).
  pose proof (pow_R1_Rle 2 (N.to_nat 4294967295) ltac:(lra)). lra.
Qed.
Print Assumptions C17_pow_refuted.

(** Upper and lower bounds of arbitrary sign. *)
Theorem C17_bound_operations : forall prec emax (Hp : Prec_gt_0 prec) (He : Prec_lt_emax prec emax)
  (u v l k : binary_float prec emax) x y, above u x -> above v y -> below l x -> below k y ->
  below (ub_neg u) (- x) /\ above (ub_add u v) (x + y) /\ above (ub_sub u k) (x - y) /\
  above (ub_max u v) (Rmax x y) /\ above (ub_min u v) (Rmin x y) /\
  above (lb_neg l) (- x) /\ below (lb_add l k) (x + y) /\ below (lb_sub l v) (x - y) /\
  below (lb_max l k) (Rmax x y) /\ below (lb_min l k) (Rmin x y).
Proof.
  intros. split; [apply below_fneg; auto|]. split; [apply fadd_up_above; auto|]. split; [apply fsub_up_above; auto|].
  split; [apply max_above; auto|]. split; [apply min_above; auto|].
  split; [apply above_fneg; auto|]. split; [apply fadd_down_below; auto|]. split; [apply fsub_down_below; auto|].
  split; [apply max_below; auto|apply min_below; auto].
Qed.
Print Assumptions C17_bound_operations.

(** Products and quotients with positive bounds. *)
Theorem C17_positive_bounds : forall prec emax (Hp : Prec_gt_0 prec) (He : Prec_lt_emax prec emax)
  (p : bounds prec emax) (u l : binary_float prec emax) x y, contains p x -> 0 <= x ->
  is_finite (b_l p) = true -> 0 <= B2R (b_l p) -> above u y -> below l y ->
  (is_nan (ub_mul_pb p u) = false -> above (ub_mul_pb p u) (x * y)) /\
  (is_nan (lb_mul_pb p l) = false -> below (lb_mul_pb p l) (x * y)) /\
  (0 < B2R (b_l p) -> above (ub_div_pb u p) (y / x) /\ below (lb_div_pb l p) (y / x)).
Proof.
  intros prec emax Hp He p u l x y C Hx F P A B.
  split; [apply ub_mul_pb_above; auto; apply C|]. split; [apply lb_mul_pb_below; auto|].
  intros Q. split; [apply ub_div_pb_above; auto|apply lb_div_pb_below; auto].
Qed.
Print Assumptions C17_positive_bounds.

(** 1/3 + 1/7 squared times 3, with inexact leaves. *)
Example C17_nonvacuous :
  let env := fun i : nat => match i with 0%nat => fdiv up (dp 1 0) (dp 3 0) | _ => finf end in
  let rho := fun i : nat => match i with 0%nat => 1 / 3 | _ => 17 end in
  let e := EAddNat (EMulNat (ESqr (EAdd (EVar 0) (EDivNat (EVar 0) 7))) 3) 1 in
  (forall i, 0 <= rho i /\ above (env i) (rho i)) /\ (forall i, gt0 (env i) = true) /\ ee_defined e /\
  is_finite (ee_eval env e) = true /\ (exists r, er_pow (env 0%nat) 5 = Ret r /\ gt0 r = true).
Proof.
  cbv zeta. split; [|split; [|split; [|split]]].
  - intros [|i]; (split; [lra|]); [|reflexivity].
    apply fdiv_up_above; [dpfin| |].
    + assert (B2R (dp 3 0) = 3) as -> by (dpval (dp 3 0); lra). lra.
    + assert (B2R (dp 3 0) = 3) as -> by (dpval (dp 3 0); lra). assert (B2R (dp 1 0) = 1) as -> by (dpval (dp 1 0); lra). lra.
  - intros [|i]; dpfin.
  - cbn. repeat split; discriminate.
  - dpfin.
  - eexists. split; [reflexivity|dpfin].
Qed.

(** ** C18 *)
(** Conversions that keep the bound. *)
Theorem C18_conversions_partial : forall p1 e1 p2 e2 (Hp : Prec_gt_0 p2) (He : Prec_lt_emax p2 e2)
  (x : binary_float p1 e1) (b : bounds p1 e1) r,
  (above x r -> above (ub_of_upper (p2:=p2) (e2:=e2) x) r) /\
  (below x r -> below (lb_of_lower (p2:=p2) (e2:=e2) x) r) /\
  (below x r -> below (lb_of_float (p2:=p2) (e2:=e2) x) r) /\
  (contains b r -> below (lb_of_bounds (p2:=p2) (e2:=e2) b) r).
Proof.
  intros. split; [apply fconv_up_above|]. split; [apply fconv_down_below|]. split; [apply fconv_down_below|].
  intros [L _]. apply fconv_down_below; auto.
Qed.
Print Assumptions C18_conversions_partial.

(** The converting constructors of UpperBound from a float and from Bounds round
    down: 1+2^-52 becomes 1 in single precision. *)
Theorem C18_upper_conversion_refuted : forall (Hp : Prec_gt_0 24) (He : Prec_lt_emax 24 128),
  exists (x : DP), is_finite x = true /\
  is_finite (ub_of_float (p2:=24) (e2:=128) x) = true /\
  ~ above (ub_of_float (p2:=24) (e2:=128) x) (B2R x) /\
  contains (mkB x x) (B2R x) /\ ~ above (ub_of_bounds (p2:=24) (e2:=128) (mkB x x)) (B2R x).
Proof.
  intros. set (x := dp (2 ^ 52 + 1) (-52)). exists x.
  assert (is_finite x = true) as Fx by dpfin.
  assert (B2R (dp 1 0) < B2R x) as L.
  { apply (flt_lt_above_below (dp 1 0) x); [dpfin|apply above_finite; [dpfin|lra]|apply below_finite; [dpfin|lra]]. }
  assert (B2R (dp 1 0) = 1) as V by (dpval (dp 1 0); lra). rewrite V in L.
  assert (B2SF (ub_of_float (p2:=24) (e2:=128) x) = SpecFloat.S754_finite false (2^23)%positive (-23)) as E by dpfin.
  assert (is_finite (ub_of_float (p2:=24) (e2:=128) x) = true) as F by dpfin.
  assert (B2R (ub_of_float (p2:=24) (e2:=128) x) = 1) as W.
  { rewrite <- SF2R_B2SF, E. unfold SF2R, F2R; cbn [Fnum Fexp cond_Zopp].
    change (Z.pos (2^23)) with (2^23)%Z. rewrite (IZR_Zpower radix2) by lia. rewrite <- bpow_plus. reflexivity. }
  assert (~ above (ub_of_float (p2:=24) (e2:=128) x) (B2R x)) as N.
  { intros A. apply (proj1 (above_finite _ _ F)) in A. lra. }
  split; [exact Fx|]. split; [exact F|]. split; [exact N|]. split; [|exact N].
  split; cbn [b_l b_u]; [apply below_finite|apply above_finite]; auto; lra.
Qed.
Print Assumptions C18_upper_conversion_refuted.

(** Positive bounds: the operations that are right. *)
Theorem C18_positive_partial : forall prec emax (Hp : Prec_gt_0 prec) (He : Prec_lt_emax prec emax)
  (u l v k : binary_float prec emax) x y, 0 < x -> 0 < y ->
  is_finite l = true -> 0 < B2R l -> is_finite k = true -> 0 < B2R k ->
  above u x -> above v y -> below l x -> below k y ->
  above (pu_sqr u) (x * x) /\ (is_nan (pu_mul u v) = false -> above (pu_mul u v) (x * y)) /\
  above (pu_rec k) (/ y) /\ above (pu_div u k) (x / y) /\
  below (pl_sqr l) (x * x) /\ below (pl_mul l k) (x * y) /\
  below (pl_rec v) (/ y) /\ below (pl_div l v) (x / y) /\
  (forall f, is_finite f = true -> 0 <= B2R f -> below (pl_div_float f v) (B2R f / y)).
Proof.
  intros prec emax Hp He u l v k x y Hx Hy Fl Pl Fk Pk U V L K.
  apply (proj1 (below_finite _ _ Fl)) in L. apply (proj1 (below_finite _ _ Fk)) in K.
  split; [apply fsqr_up_nonneg; auto; lra|]. split; [intros; apply er_mul_above; auto; lra|].
  split; [apply pu_rec_above; auto; lra|]. split; [apply er_div_above; auto; lra|].
  split. { apply below_le with (B2R l * B2R l); [apply rounded_down_below, fmul_rounded; auto|nra]. }
  split. { apply below_le with (B2R l * B2R k); [apply rounded_down_below, fmul_rounded; auto|nra]. }
  split. { replace (/ y) with (1 / y) by (field; lra). apply pl_div_below; auto; [apply fone_finite|rewrite fone_val; lra]. }
  split; [apply pl_div_below; auto; lra|].
  intros f Ff Pf. apply pl_div_below; auto; lra.
Qed.
Print Assumptions C18_positive_partial.

(** A positive float divided by a positive lower bound is rounded down: not an
    upper bound.  [PositiveLowerBound / PositiveUpperBound] multiplies. *)
Theorem C18_float_div_lower_refuted : exists (x l : DP), is_finite x = true /\ is_finite l = true /\ 0 < B2R l /\
  0 < B2R x /\ ~ above (pu_div_float x l) (B2R x / B2R l).
Proof.
  exists (dp 1 0), (dp 3 0).
  assert (B2R (dp 1 0) = 1) as V1 by (dpval (dp 1 0); lra).
  assert (B2R (dp 3 0) = 3) as V3 by (dpval (dp 3 0); lra).
  split; [dpfin|]. split; [dpfin|]. split; [lra|]. split; [lra|]. rewrite V1, V3.
  intros A. assert (is_finite (pu_div_float (dp 1 0) (dp 3 0)) = true) as F by dpfin.
  apply (proj1 (above_finite _ _ F)) in A. revert A. dpval (pu_div_float (dp 1 0) (dp 3 0)). lra.
Qed.
Print Assumptions C18_float_div_lower_refuted.
Theorem C18_positive_lower_quotient_refuted : exists (l u : DP), is_finite l = true /\ is_finite u = true /\
  0 < B2R l /\ 0 < B2R u /\ ~ below (pl_div_op l u) (B2R l / B2R u).
Proof.
  exists (dp 4 0), (dp 8 0).
  assert (B2R (dp 4 0) = 4) as V1 by (dpval (dp 4 0); lra).
  assert (B2R (dp 8 0) = 8) as V3 by (dpval (dp 8 0); lra).
  split; [dpfin|]. split; [dpfin|]. split; [lra|]. split; [lra|]. rewrite V1, V3.
  intros A. assert (is_finite (pl_div_op (dp 4 0) (dp 8 0)) = true) as F by dpfin.
  apply (proj1 (below_finite _ _ F)) in A. revert A. dpval (pl_div_op (dp 4 0) (dp 8 0)). lra.
Qed.
Print Assumptions C18_positive_lower_quotient_refuted.

Example C18_nonvacuous :
  above (dp 1 0) (1 / 3) /\ below (dp 1 (-2)) (1 / 3) /\ 0 < B2R (dp 1 (-2)) /\
  is_nan (pu_mul (dp 1 0) finf) = false /\ flt_lt (pl_div (dp 1 0) (dp 3 0)) (pu_div (dp 1 0) (dp 3 0)) = true.
Proof.
  assert (B2R (dp 1 (-2)) = 1 / 4) as V by (dpval (dp 1 (-2)); lra).
  split; [apply above_finite; [dpfin|]; dpval (dp 1 0); lra|].
  split; [apply below_finite; [dpfin|]; rewrite V; lra|]. split; [rewrite V; lra|]. split; dpfin.
Qed.
