(** * Properties C15, C16, C50, C51: Balls

    Every theorem holds in every precision and exponent range.  [m] is the
    rounding mode in force when the operation is called (to nearest unless the
    program changed it). *)

From Coq Require Import ZArith Reals Bool Lia Lra Psatz.
From Flocq Require Import Core IEEE754.BinarySingleNaN.
From Verif Require Import Float_Model Float_Spec Float_Proofs Logical_Model Logical_Spec Bounds_Model Bounds_Spec Bounds_Proofs Bounds_Props
  Ball_Model Ball_Spec Ball_Proofs.
Local Open Scope R_scope.

Lemma dp_ball_in (X : ball 53 1024) (f : DP) : is_finite (v_ X) && is_finite (e_ X) && is_finite f && bl_models X f = true ->
  in_ball X (B2R f).
Proof.
  intros H. repeat (apply andb_prop in H; destruct H as [H ?]). apply bl_models_in; auto. split; auto.
Qed.
Lemma dp_ball_out (X : ball 53 1024) (f : DP) :
  is_finite (v_ X) && is_finite (e_ X) && is_finite f && flt_lt (e_ X) (bl_dist down (v_ X) f) = true -> ~ in_ball X (B2R f).
Proof.
  intros H I. repeat (apply andb_prop in H; destruct H as [H ?]).
  destruct (in_ball_fin X _ ltac:(auto) I) as [V A]. rewrite Rabs_minus_sym in A.
  apply (Rlt_irrefl (B2R (e_ X))). eapply Rlt_le_trans; [|exact A].
  eapply flt_lt_above_below; [eassumption| |apply dist_below; auto]. apply above_finite; auto. lra.
Qed.

(** The real value of a double literal. *)
Ltac dpval f :=
  rewrite <- (SF2R_B2SF 53 1024 f);
  let s := eval vm_compute in (B2SF f) in
  replace (B2SF f) with s by (vm_compute; reflexivity);
  unfold SF2R, F2R; cbn [Fnum Fexp cond_Zopp];
  cbn [bpow radix2 radix_val Z.pow_pos Pos.iter Z.mul Pos.mul Z.opp].
Lemma dp_bpow_min : B2R (dp 1 (-1021)) = bpow radix2 (3 - 1024).
Proof.
  rewrite <- (SF2R_B2SF 53 1024 (dp 1 (-1021))).
  replace (B2SF (dp 1 (-1021))) with (SpecFloat.S754_finite false (2^52)%positive (-1073)) by (vm_compute; reflexivity).
  unfold SF2R, F2R; cbn [Fnum Fexp cond_Zopp].
  change (Z.pos (2^52)) with (2^52)%Z. rewrite (IZR_Zpower radix2) by lia.
  rewrite <- bpow_plus. reflexivity.
Qed.
Lemma dp_zero (f : DP) : match f with B754_zero _ => true | _ => false end = true -> B2R f = 0.
Proof. destruct f; intros; try discriminate. reflexivity. Qed.

(** ** C15 *)
Theorem C15_add_sub_neg : forall prec emax (Hp : Prec_gt_0 prec) (He : Prec_lt_emax prec emax)
  (m : mode) (X Y : ball prec emax) x y, in_ball X x -> in_ball Y y ->
  (is_finite (e_ (bl_add m X Y)) = true -> in_ball (bl_add m X Y) (x + y)) /\
  (is_finite (e_ (bl_sub m X Y)) = true -> in_ball (bl_sub m X Y) (x - y)) /\
  in_ball (bl_neg X) (- x).
Proof. intros. split; [|split]; intros; auto using bl_add_in, bl_sub_in, bl_neg_in. Qed.
Print Assumptions C15_add_sub_neg.

(** Exact floats: the ball is the exact sum within half a unit in the last
    place. *)
Theorem C15_floats : forall prec emax (Hp : Prec_gt_0 prec) (He : Prec_lt_emax prec emax)
  (m : mode) (f g : binary_float prec emax), is_finite f = true -> is_finite g = true ->
  (is_finite (e_ (blf_add m f g)) = true -> in_ball (blf_add m f g) (val f + val g)) /\
  (is_finite (e_ (blf_sub m f g)) = true -> in_ball (blf_sub m f g) (val f - val g)).
Proof. intros. split; intros; [apply blf_add_in|apply blf_sub_in]; auto. Qed.
Print Assumptions C15_floats.

(** 1 ± 2^-60 plus 2^-60 ± 2^-70 rounds; the result is finite and non-trivial. *)
Example C15_nonvacuous :
  let X := mkBall (dp 1 0) (dp 1 (-60)) in let Y := mkBall (dp 1 (-60)) (dp 1 (-70)) in
  is_finite (e_ (bl_add near X Y)) = true /\ in_ball X (B2R (dp 1 0)) /\ in_ball Y (B2R (dp 1 (-60))) /\
  flt_lt (fadd up (dp 1 (-60)) (dp 1 (-70))) (e_ (bl_add near X Y)) = true.
Proof. cbv zeta. split; [dpfin|split; [apply dp_ball_in; dpfin|split; [apply dp_ball_in; dpfin|dpfin]]]. Qed.

(** ** C16 *)
(** Multiplication: right in upward mode, and in every mode when the product
    of the two values is zero or not in the subnormal range. *)
Theorem C16_mul_partial : forall prec emax (Hp : Prec_gt_0 prec) (He : Prec_lt_emax prec emax)
  (m : mode) (X Y : ball prec emax) x y, in_ball X x -> in_ball Y y ->
  m = up \/ no_underflow emax (val (v_ X) * val (v_ Y)) ->
  is_finite (e_ (bl_mul m X Y)) = true -> in_ball (bl_mul m X Y) (x * y).
Proof. intros. apply bl_mul_in; auto. Qed.
Print Assumptions C16_mul_partial.

(** In the default mode the unconditional claim fails: 2^-600 * 2^-600 = 0 ± 0. *)
Theorem C16_mul_underflow_refuted : exists (X Y : ball 53 1024) x y,
  in_ball X x /\ in_ball Y y /\ finite_ball (bl_mul near X Y) /\ ~ in_ball (bl_mul near X Y) (x * y).
Proof.
  set (a := dp 1 (-600)). exists (bl_of a), (bl_of a), (B2R a), (B2R a).
  assert (finite_ball (bl_mul near (bl_of a) (bl_of a))) as F by (split; dpfin).
  split; [|split; [|split]]; auto; try (apply dp_ball_in; dpfin).
  intros I. destruct (in_ball_fin _ _ (proj2 F) I) as [_ A].
  assert (0 < B2R a) as P by (apply gt0_finite; [dpfin|dpfin]).
  assert (B2R (v_ (bl_mul near (bl_of a) (bl_of a))) = 0) as Z1.
  { apply dp_zero. dpfin. }
  assert (B2R (e_ (bl_mul near (bl_of a) (bl_of a))) = 0) as Z2.
  { apply dp_zero. dpfin. }
  rewrite Z1, Z2 in A. rewrite Rabs_pos_eq in A by nra. nra.
Qed.
Print Assumptions C16_mul_underflow_refuted.

(** Reciprocal and division: right when the divisor ball excludes zero. *)
Theorem C16_rec_partial : forall prec emax (Hp : Prec_gt_0 prec) (He : Prec_lt_emax prec emax)
  (Y : ball prec emax) y, in_ball Y y -> finite_ball Y -> val (e_ Y) < Rabs (val (v_ Y)) ->
  is_finite (e_ (bl_rec Y)) = true -> y <> 0 /\ in_ball (bl_rec Y) (/ y).
Proof.
  intros prec emax Hp He Y y I [V F] L K. split; [|apply bl_rec_in; auto].
  destruct (rec_bounds Y y F L I); auto.
Qed.
Print Assumptions C16_rec_partial.
Theorem C16_div_partial : forall prec emax (Hp : Prec_gt_0 prec) (He : Prec_lt_emax prec emax)
  (m : mode) (X Y : ball prec emax) x y, in_ball X x -> in_ball Y y ->
  finite_ball Y -> val (e_ Y) < Rabs (val (v_ Y)) ->
  m = up \/ no_underflow emax (val (v_ X) * val (v_ (bl_rec Y))) ->
  is_finite (e_ (bl_div m X Y)) = true -> in_ball (bl_div m X Y) (x / y).
Proof. intros prec emax Hp He m X Y x y I J [V F] L M K. apply bl_div_in; auto. Qed.
Print Assumptions C16_div_partial.

(** A divisor ball containing zero gives a finite ball which misses most
    reciprocals: rec(1 ± 2) = 1 ± 2/3 although 1/4 is in 1 ± 2. *)
Theorem C16_rec_zero_refuted : exists (Y : ball 53 1024) y,
  in_ball Y y /\ y <> 0 /\ finite_ball (bl_rec Y) /\ ~ in_ball (bl_rec Y) (/ y) /\
  finite_ball (bl_div near (bl_of (dp 1 0)) Y) /\ ~ in_ball (bl_div near (bl_of (dp 1 0)) Y) (1 / y).
Proof.
  exists (mkBall (dp 1 0) (dp 2 0)), (B2R (dp 1 (-2))).
  assert (/ B2R (dp 1 (-2)) = B2R (dp 4 0)) as E.
  { dpval (dp 1 (-2)). dpval (dp 4 0). lra. }
  assert (B2R (dp 1 (-2)) <> 0) as N.
  { intros Z. assert (0 < B2R (dp 1 (-2))); [apply gt0_finite; dpfin|lra]. }
  split; [apply dp_ball_in; dpfin|]. split; auto.
  split; [split; dpfin|]. split; [rewrite E; apply dp_ball_out; dpfin|].
  split; [split; dpfin|]. unfold Rdiv. rewrite Rmult_1_l, E. apply dp_ball_out; dpfin.
Qed.
Print Assumptions C16_rec_zero_refuted.

(** Halving and squaring. *)
Theorem C16_hlf_partial : forall prec emax (Hp : Prec_gt_0 prec) (He : Prec_lt_emax prec emax)
  (m : mode) (X : ball prec emax) x, in_ball X x ->
  no_underflow emax (val (v_ X)) -> m = up \/ no_underflow emax (val (e_ X)) ->
  is_finite (e_ (bl_hlf m X)) = true -> in_ball (bl_hlf m X) (x / 2).
Proof.
  intros prec emax Hp He m X x I V E F. apply bl_hlf_in; auto; [right; exact V|].
  destruct E as [E|E]; [left; auto|right; right; exact E].
Qed.
Print Assumptions C16_hlf_partial.
Theorem C16_hlf_refuted : exists (X : ball 53 1024) x,
  in_ball X x /\ finite_ball (bl_hlf near X) /\ ~ in_ball (bl_hlf near X) (x / 2).
Proof.
  set (a := dp 1 (-1074)). exists (bl_of a), (B2R a).
  assert (finite_ball (bl_hlf near (bl_of a))) as F by (split; dpfin).
  split; [apply dp_ball_in; dpfin|]. split; auto.
  intros I. destruct (in_ball_fin _ _ (proj2 F) I) as [_ A].
  assert (0 < B2R a) as P by (apply gt0_finite; [dpfin|dpfin]).
  assert (B2R (v_ (bl_hlf near (bl_of a))) = 0) as Z1.
  { apply dp_zero. dpfin. }
  assert (B2R (e_ (bl_hlf near (bl_of a))) = 0) as Z2.
  { apply dp_zero. dpfin. }
  rewrite Z1, Z2 in A. rewrite Rabs_pos_eq in A by lra. lra.
Qed.
Print Assumptions C16_hlf_refuted.

Theorem C16_sqr_partial : forall prec emax (Hp : Prec_gt_0 prec) (He : Prec_lt_emax prec emax)
  (m : mode) (X : ball prec emax) x, in_ball X x ->
  m = up \/ (no_underflow emax (val (v_ X) * val (v_ X)) /\
             no_underflow emax (val (fadd up (e_ (bl_mul m X X)) (v_ (bl_mul m X X))))) ->
  is_finite (e_ (bl_sqr m X)) = true -> in_ball (bl_sqr m X) (x * x).
Proof.
  intros prec emax Hp He m X x I M F. apply bl_sqr_in; auto.
  destruct M as [M|[M M']]; auto. right. split; auto. right. exact M'.
Qed.
Print Assumptions C16_sqr_partial.
(** The square of a ball does not reach below zero. *)
Theorem C16_sqr_nonneg : forall prec emax (Hp : Prec_gt_0 prec) (He : Prec_lt_emax prec emax)
  m (X : ball prec emax) z, is_finite (v_ (bl_sqr m X)) = true -> is_finite (e_ (bl_sqr m X)) = true ->
  in_ball (bl_sqr m X) z -> 0 <= z.
Proof. intros prec emax Hp He m X z V F I. eapply bl_sqr_nonneg; eauto. Qed.
Print Assumptions C16_sqr_nonneg.

(** Powers go through Bounds and are right without conditions. *)
Theorem C16_pow : forall prec emax (Hp : Prec_gt_0 prec) (He : Prec_lt_emax prec emax)
  (X : ball prec emax) x, in_ball X x ->
  (forall n, is_finite (e_ (bl_pow X n)) = true -> in_ball (bl_pow X n) (x ^ N.to_nat n)) /\
  (forall n, x <> 0 \/ (0 <= n)%Z -> is_finite (e_ (bl_powz X n)) = true -> in_ball (bl_powz X n) (powerRZ x n)).
Proof. intros. split; intros; [apply bl_pow_in|apply bl_powz_in]; auto. Qed.
Print Assumptions C16_pow.

(** Products and quotients of exact floats. *)
Theorem C16_floats_partial : forall prec emax (Hp : Prec_gt_0 prec) (He : Prec_lt_emax prec emax)
  (m : mode) (f g : binary_float prec emax), is_finite f = true -> is_finite g = true ->
  (m = up \/ no_underflow emax (val f * val g) ->
   is_finite (e_ (blf_mul m f g)) = true -> in_ball (blf_mul m f g) (val f * val g)) /\
  (val g <> 0 -> m = up \/ no_underflow emax (val f / val g) ->
   is_finite (e_ (blf_div m f g)) = true -> in_ball (blf_div m f g) (val f / val g)).
Proof. intros. split; intros; [apply blf_mul_in|apply blf_div_in]; auto. Qed.
Print Assumptions C16_floats_partial.

Lemma dp_no_underflow (f : DP) : is_finite f && flt_le (dp 1 (-1021)) (fabs f) = true -> no_underflow 1024 (B2R f).
Proof.
  intros H. apply andb_prop in H. destruct H as [F H]. right.
  apply flt_le_finite in H; [|dpfin|rewrite fabs_fin; auto]. rewrite fabs_val in H.
  eapply Rle_trans; [|exact H]. right. rewrite (dp_bpow_min). reflexivity.
Qed.

Example C16_nonvacuous :
  let X := mkBall (dp 3 0) (dp 1 (-20)) in let Y := mkBall (dp (-5) 0) (dp 1 (-20)) in
  in_ball X (B2R (dp 3 0)) /\ in_ball Y (B2R (dp (-5) 0)) /\ finite_ball Y /\
  val (e_ Y) < Rabs (val (v_ Y)) /\ is_finite (e_ (bl_mul near X Y)) = true /\
  is_finite (e_ (bl_rec Y)) = true /\ is_finite (e_ (bl_div near X Y)) = true /\
  is_finite (e_ (bl_sqr near Y)) = true /\ is_finite (e_ (bl_pow Y 3)) = true /\
  is_finite (e_ (bl_powz Y (-3))) = true /\
  no_underflow 1024 (val (v_ X)) /\ no_underflow 1024 (val (e_ X)) /\
  no_underflow 1024 (val (v_ X) * val (v_ Y)).
Proof.
  cbv zeta. split; [apply dp_ball_in; dpfin|split; [apply dp_ball_in; dpfin|split; [split; dpfin|]]].
  split.
  { unfold val. cbn [v_ e_]. rewrite <- fabs_val. apply flt_lt_finite; dpfin. }
  do 6 (split; [dpfin|]).
  assert (no_underflow 1024 (B2R (dp (-15) 0))) as P by (apply dp_no_underflow; dpfin).
  split; [apply dp_no_underflow; dpfin|split; [apply dp_no_underflow; dpfin|]].
  replace (val (v_ (mkBall (dp 3 0) (dp 1 (-20)))) * val (v_ (mkBall (dp (-5) 0) (dp 1 (-20))))) with (B2R (dp (-15) 0)); auto.
  unfold val; cbn [v_]. dpval (dp 3 0). dpval (dp (-5) 0). dpval (dp (-15) 0). lra.
Qed.

(** ** C50: absolute value, maximum, minimum *)
(** The claim: abs, max and min of balls enclose.  It is false for every ball
    of negative numbers: [_abs] returns its argument whenever the ball does not
    contain zero. *)
Theorem C50_abs_refuted : exists (X : ball 53 1024) x, finite_ball X /\ in_ball X x /\
  bl_abs near X = X /\ ~ in_ball (bl_abs near X) (Rabs x).
Proof.
  exists (mkBall (dp (-3) 0) (dp 1 0)), (B2R (dp (-3) 0)).
  split; [split; dpfin|]. split; [apply dp_ball_in; dpfin|]. split; [reflexivity|].
  rewrite <- fabs_val. apply dp_ball_out; dpfin.
Qed.
Print Assumptions C50_abs_refuted.
(** max(1,4) = 1 and min(1,4) = 4. *)
Theorem C50_max_min_refuted : exists (X Y : ball 53 1024) x y,
  in_ball X x /\ in_ball Y y /\ finite_ball (bl_max near X Y) /\ finite_ball (bl_min near X Y) /\
  ~ in_ball (bl_max near X Y) (Rmax x y) /\ ~ in_ball (bl_min near X Y) (Rmin x y).
Proof.
  exists (bl_of (dp 1 0)), (bl_of (dp 4 0)), (B2R (dp 1 0)), (B2R (dp 4 0)).
  assert (B2R (dp 1 0) <= B2R (dp 4 0)) as L by (apply flt_le_finite; dpfin).
  split; [apply dp_ball_in; dpfin|]. split; [apply dp_ball_in; dpfin|].
  split; [split; dpfin|]. split; [split; dpfin|].
  rewrite Rmax_right, Rmin_left by auto. split; apply dp_ball_out; dpfin.
Qed.
Print Assumptions C50_max_min_refuted.

(** What does hold: abs is right on balls with a non-negative value or
    containing zero; mag and mig always bound the absolute value. *)
Theorem C50_abs_partial : forall prec emax (Hp : Prec_gt_0 prec) (He : Prec_lt_emax prec emax)
  (m : mode) (X : ball prec emax) x, in_ball X x -> finite_ball X ->
  0 <= val (v_ X) \/ Rabs (val (v_ X)) <= val (e_ X) ->
  m = up \/ no_underflow emax (val (fadd up (fabs (v_ X)) (e_ X))) ->
  is_finite (e_ (bl_abs m X)) = true -> in_ball (bl_abs m X) (Rabs x).
Proof.
  intros prec emax Hp He m X x I [V E] S M F. apply bl_abs_in; auto.
  - unfold val in S. intros L. destruct S; auto. lra.
  - destruct M as [M|M]; auto. right. right. exact M.
Qed.
Print Assumptions C50_abs_partial.
Theorem C50_mag_mig : forall prec emax (Hp : Prec_gt_0 prec) (He : Prec_lt_emax prec emax)
  (X : ball prec emax) x, in_ball X x -> above (bl_mag X) (Rabs x) /\ below (bl_mig X) (Rabs x).
Proof. intros. split; [apply bl_mag_above|apply bl_mig_below]; auto. Qed.
Print Assumptions C50_mag_mig.
(** max and min are right when the difference ball of the operands satisfies
    the condition of [C50_abs_partial] and nothing underflows. *)
Theorem C50_max_min_partial : forall prec emax (Hp : Prec_gt_0 prec) (He : Prec_lt_emax prec emax)
  (m : mode) (X Y : ball prec emax) x y, in_ball X x -> in_ball Y y ->
  let D := bl_sub m X Y in
  0 <= val (v_ D) \/ Rabs (val (v_ D)) <= val (e_ D) ->
  m = up \/ no_underflow emax (val (fadd up (fabs (v_ D)) (e_ D))) ->
  (let S := bl_add m (bl_add m X Y) (bl_abs m D) in
   no_underflow emax (val (v_ S)) -> m = up \/ no_underflow emax (val (e_ S)) ->
   is_finite (e_ (bl_max m X Y)) = true -> in_ball (bl_max m X Y) (Rmax x y)) /\
  (let S := bl_sub m (bl_add m X Y) (bl_abs m D) in
   no_underflow emax (val (v_ S)) -> m = up \/ no_underflow emax (val (e_ S)) ->
   is_finite (e_ (bl_min m X Y)) = true -> in_ball (bl_min m X Y) (Rmin x y)).
Proof.
  intros prec emax Hp He m X Y x y I J D S M. unfold val in *.
  assert (B2R (e_ D) < Rabs (B2R (v_ D)) -> 0 <= B2R (v_ D)) as S' by (intros L; destruct S; auto; lra).
  assert (m = up \/ halvable (fadd up (fabs (v_ D)) (e_ D))) as M'.
  { destruct M as [M|M]; auto. right. right. exact M. }
  cbv zeta; split; intros N1 N2 F; [apply bl_max_in|apply bl_min_in]; auto.
  all: split; [auto|split; [auto|split; [right; exact N1|]]].
  all: destruct N2 as [N2|N2]; [left; auto|right; right; exact N2].
Qed.
Print Assumptions C50_max_min_partial.
Example C50_nonvacuous :
  let X := mkBall (dp 4 0) (dp 1 (-20)) in let Y := mkBall (dp 1 0) (dp 1 (-20)) in
  in_ball X (B2R (dp 4 0)) /\ in_ball Y (B2R (dp 1 0)) /\ 0 <= val (v_ (bl_sub near X Y)) /\
  is_finite (e_ (bl_max near X Y)) = true /\
  no_underflow 1024 (val (v_ (bl_add near (bl_add near X Y) (bl_abs near (bl_sub near X Y))))) /\
  in_ball (bl_max near X Y) (B2R (dp 4 0)).
Proof.
  cbv zeta. split; [apply dp_ball_in; dpfin|split; [apply dp_ball_in; dpfin|]].
  split; [unfold val; apply ge0_finite; dpfin|].
  split; [dpfin|]. split; [apply dp_no_underflow; dpfin|apply dp_ball_in; dpfin].
Qed.

(** ** C51: tests and comparisons of balls are sound *)
Theorem C51_tests : forall prec emax (Hp : Prec_gt_0 prec) (He : Prec_lt_emax prec emax)
  (X Y : ball prec emax), finite_ball X -> finite_ball Y ->
  (bl_refines X Y = true \/ op_refines X Y = true -> forall r, in_ball X r -> in_ball Y r) /\
  (bl_inconsistent X Y = true -> forall r, ~ (in_ball X r /\ in_ball Y r)) /\
  (0 <= val (e_ X) -> 0 <= val (e_ Y) -> bl_consistent X Y = true -> exists r, in_ball X r /\ in_ball Y r) /\
  (forall f, is_finite f = true -> bl_models X f = true -> in_ball X (val f)).
Proof.
  intros prec emax Hp He X Y FX FY. split; [|split; [|split]].
  - intros [T|T]; [apply bl_refines_sub|apply op_refines_sub]; auto.
  - intros T r [I J]. apply (bl_inconsistent_disjoint X Y FX FY T r I J).
  - intros. apply bl_consistent_meet; auto.
  - intros. apply bl_models_in; auto.
Qed.
Print Assumptions C51_tests.

Theorem C51_comparisons : forall prec emax (Hp : Prec_gt_0 prec) (He : Prec_lt_emax prec emax)
  (X Y : ball prec emax) x y, in_ball X x -> in_ball Y y ->
  (bl_lt X Y = TRUE -> x < y) /\ (bl_lt X Y = FALSE -> y <= x) /\
  (bl_eq X Y = TRUE -> x = y) /\ (bl_eq X Y = FALSE -> x <> y) /\
  (bl_sgn X = TRUE -> 0 < x) /\ (bl_sgn X = FALSE -> x < 0).
Proof.
  intros prec emax Hp He X Y x y I J.
  pose proof (bl_bounds_contains X x I) as C. pose proof (bl_bounds_contains Y y J) as D.
  destruct (bl_sgn_sound X x I).
  pose proof (C10_sound prec emax (bl_bounds X) (bl_bounds Y) x y C D) as S.
  unfold bl_lt, bl_eq. split; [tauto|split; [|tauto]].
  intros T. apply Rnot_lt_le. tauto.
Qed.
Print Assumptions C51_comparisons.

(** Conversions between balls and bounds keep every member; refinement and
    coarsening of balls (through bounds) keep the common members, the members
    of either. *)
Theorem C51_conversions : forall prec emax (Hp : Prec_gt_0 prec) (He : Prec_lt_emax prec emax)
  (X Y : ball prec emax) (B : bounds prec emax) r,
  (in_ball X r -> contains (bl_bounds X) r) /\
  (is_finite (e_ (bl_of_bounds B)) = true -> contains B r -> in_ball (bl_of_bounds B) r) /\
  (is_finite (e_ (bl_refinement X Y)) = true -> in_ball X r -> in_ball Y r -> in_ball (bl_refinement X Y) r) /\
  (is_finite (e_ (bl_coarsening X Y)) = true -> inhabited (bl_bounds X) -> inhabited (bl_bounds Y) ->
     in_ball X r \/ in_ball Y r -> in_ball (bl_coarsening X Y) r).
Proof.
  intros prec emax Hp He X Y B r. split; [|split; [|split]]; intros.
  - apply bl_bounds_contains; auto.
  - apply bl_of_bounds_in; auto.
  - apply bl_of_bounds_in; auto.
    destruct (bl_bounds_contains X r), (bl_bounds_contains Y r); auto. split; cbn [b_refinement b_l b_u].
    + apply below_fmax; auto.
    + apply above_fmin; auto.
  - apply bl_of_bounds_in; auto. destruct H0 as [a [A1 A2]], H1 as [b [B1 B2]].
    split; cbn [b_coarsening b_l b_u]; destruct H2 as [I|I]; destruct (bl_bounds_contains _ _ I).
    + apply below_fmin_l; auto.
    + apply below_fmin_r; eauto using below_not_nan.
    + apply above_fmax_l; auto.
    + apply above_fmax_r; eauto using above_not_nan.
Qed.
Print Assumptions C51_conversions.

Example C51_nonvacuous :
  let X := mkBall (dp 1 0) (dp 1 (-20)) in let Y := mkBall (dp 1 0) (dp 1 (-10)) in
  let Z := mkBall (dp 2 0) (dp 1 (-10)) in
  finite_ball X /\ finite_ball Y /\ bl_refines X Y = true /\ bl_refines Y X = false /\
  bl_consistent X Y = true /\ bl_inconsistent X Z = true /\ bl_consistent X Z = false /\
  bl_lt X Z = TRUE /\ bl_lt Z X = FALSE /\ bl_lt X Y = INDET /\ bl_eq X Z = FALSE /\ bl_sgn X = TRUE /\
  bl_sgn (bl_neg X) = FALSE /\ is_finite (e_ (bl_refinement X Y)) = true /\ is_finite (e_ (bl_coarsening X Z)) = true.
Proof. cbv zeta. do 2 (split; [split; dpfin|]). repeat (split; [dpfin|]). dpfin. Qed.
