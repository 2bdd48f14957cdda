(** Properties of the exact numbers: rationals, dyadics, decimals and integers, and of
    rational and dyadic bounds and balls. *)
From Coq Require Import ZArith NArith QArith Qreals Reals List Lia Lra Bool.
From Flocq Require Import Core.
From Coquelicot Require Import Rbar.
From Verif Require Import Exact_Model Exact_Spec Exact_Proofs Exact_Dyadic_Proofs Exact_Bounds_Proofs Exact_Text_Proofs.
Import ListNotations.
Local Open Scope R_scope.

(** * C66: rational numbers *)

(** Arithmetic is that of the extended reals; undefined results are NaN. *)
Theorem C66_rational_arithmetic : forall x y,
  rmean (r_neg x) = lift1 Rbar_opp (rmean x) /\ rmean (r_hlf x) = lift1 xhalf (rmean x) /\
  rmean (r_abs x) = lift1 Rbar_abs (rmean x) /\ rmean (r_add x y) = lift2 xplus (rmean x) (rmean y) /\
  rmean (r_sub x y) = lift2 xminus (rmean x) (rmean y) /\ rmean (r_mul x y) = lift2 xmult (rmean x) (rmean y) /\
  rmean (r_sqr x) = lift2 xmult (rmean x) (rmean x).
Proof.
  intros x y. pose proof (xgood_q x) as X. pose proof (xgood_q y) as Y.
  repeat split;
    [exact (neg_sound _ _ _ q_exact x X)|exact (hlf_sound _ _ _ q_exact x X)|exact (abs_sound _ _ _ q_exact x X)
    |exact (add_sound _ _ _ q_exact x y X Y)|exact (sub_sound _ _ _ q_exact x y X Y)|apply r_mul_sound|exact (sqr_sound _ _ _ q_exact x X)].
Qed.
Print Assumptions C66_rational_arithmetic.
Example C66_arithmetic_nonvacuous :
  r_add (Fin (1 # 6)) (Fin (1 # 3)) = Fin (1 # 2) /\ r_sub PInf PInf = NaN /\ r_mul (Fin (0 # 1)) NInf = NaN /\ r_mul (Fin (-1 # 2)) NInf = PInf.
Proof. repeat split. Qed.

(** Division is exact; it fails (throws) exactly for a zero divisor. *)
Theorem C66_rational_division : forall x y,
  (rmean y <> Some (Finite 0) ->
     (exists z, r_div x y = Some z /\ rmean z = lift2 xdiv (rmean x) (rmean y)) /\
     (exists z, r_rec y = Some z /\ rmean z = lift1 Rbar_inv (rmean y))) /\
  (rmean y = Some (Finite 0) -> r_div x y = None /\ r_rec y = None).
Proof.
  intros x y. split; intro H; split.
  - apply div_sound, H.
  - apply rec_sound, H.
  - apply div_zero, H.
  - apply rec_zero, H.
Qed.
Print Assumptions C66_rational_division.
Example C66_division_nonvacuous :
  r_div (Fin (2 # 3)) (Fin (-4 # 9)) = Some (Fin (-3 # 2)) /\ r_div (Fin (2 # 3)) NInf = Some (Fin (0 # 1)) /\ r_div (Fin (2 # 3)) (Fin (0 # 1)) = None.
Proof. repeat split. Qed.

(** Powers are repeated products; negative powers are reciprocals of these. *)
Theorem C66_rational_powers : forall x,
  (forall m, rmean (r_pow x m) = xpow (rmean x) (N.to_nat m)) /\
  (forall n, (0 <= n)%Z -> exists z, r_powz x n = Some z /\ rmean z = xpow (rmean x) (Z.to_nat n)) /\
  (forall n, (- 2 ^ 31 < n < 0)%Z -> xpow (rmean x) (Z.to_nat (- n)) <> Some (Finite 0) ->
     exists z, r_powz x n = Some z /\ rmean z = lift1 Rbar_inv (xpow (rmean x) (Z.to_nat (- n)))).
Proof.
  intro x. split; [|split].
  - apply pow_sound.
  - intros n N. unfold r_powz. destruct (Z.ltb_spec n 0); [lia|]. eexists. split; [reflexivity|].
    rewrite pow_sound, Z_N_nat. reflexivity.
  - intros n N H. unfold r_powz. destruct (Z.ltb_spec n 0); [|lia]. destruct (Z.eqb_spec n (- 2 ^ 31)); [lia|].
    rewrite <- Z_N_nat, <- pow_sound in *. apply rec_sound, H.
Qed.
Print Assumptions C66_rational_powers.
Example C66_powers_nonvacuous :
  r_powz (Fin (-2 # 3)) (-3) = Some (Fin (-27 # 8)) /\ r_pow NInf 3 = NInf /\ r_pow (Fin (-2 # 3)) 5 = Fin (-32 # 243).
Proof. repeat split. Qed.

(** Every operation keeps fractions in lowest terms, and for such numbers [==] is equality of
    values; NaN equals nothing. *)
Theorem C66_rational_equality : forall x y, canonical x -> canonical y ->
  (r_eq x y = true <-> rmean x = rmean y /\ rmean x <> None) /\
  (canonical (r_add x y) /\ canonical (r_sub x y) /\ canonical (r_mul x y) /\ canonical (r_neg x) /\
   canonical (r_hlf x) /\ canonical (r_sqr x) /\ canonical (r_abs x) /\ canonical (r_max x y) /\ canonical (r_min x y)) /\
  (forall z, r_div x y = Some z -> canonical z) /\ (forall z, r_rec x = Some z -> canonical z) /\
  (forall m, canonical (r_pow x m)) /\ (forall n d, canonical (r_make n d)) /\ (forall d, canonical (r_of_d d)).
Proof.
  intros x y X Y. split; [apply eq_sound; assumption|]. split; [apply canonical_ops; assumption|].
  split; [intro z; apply canonical_div; assumption|]. split; [intro z; apply canonical_rec; assumption|].
  split; [intro m; apply canonical_pow, X|]. split; [apply canonical_make|apply r_of_d_canonical].
Qed.
Print Assumptions C66_rational_equality.
Example C66_equality_nonvacuous : canonical (Fin (2 # 3)) /\ r_make 4 (-6) = Fin (-2 # 3) /\
  r_eq (r_make 4 (-6)) (r_neg (Fin (2 # 3))) = true /\ r_eq NaN NaN = false.
Proof. repeat split. Qed.

Theorem C66_rational_constructor : forall n d, (d <> 0)%Z -> rmean (r_make n d) = Some (Finite (IZR n / IZR d)).
Proof. apply make_mean. Qed.
Print Assumptions C66_rational_constructor.

(** Comparisons of numbers other than NaN decide the order of the extended reals. *)
Theorem C66_rational_order_partial : forall x y a b, rmean x = Some a -> rmean y = Some b ->
  (r_lt x y = true <-> Rbar_lt a b) /\ (r_le x y = true <-> Rbar_le a b) /\
  (r_ge x y = true <-> Rbar_le b a) /\ (r_gt x y = true <-> Rbar_lt b a).
Proof.
  intros x y a b X Y. split; [apply lt_sound; assumption|]. split; [apply le_sound; assumption|].
  split; [apply ge_sound; assumption|apply gt_sound; assumption].
Qed.
Print Assumptions C66_rational_order_partial.
Example C66_order_nonvacuous : r_lt (Fin (-2 # 3)) (Fin (1 # 7)) = true /\ r_lt NInf (Fin (0 # 1)) = true /\ r_le (Fin (1 # 1)) NInf = false.
Proof. repeat split. Qed.
(** NaN compares as less than every number, and every number as less than NaN. *)
Theorem C66_rational_order_refuted : forall x, r_lt NaN x = true /\ r_lt x NaN = true.
Proof. intros [q| | |]; split; reflexivity. Qed.
Print Assumptions C66_rational_order_refuted.

Theorem C66_rational_max_min : forall x y,
  (forall a b, rmean x = Some a -> rmean y = Some b ->
     (exists c, rmean (r_max x y) = Some c /\ is_max a b c) /\ (exists c, rmean (r_min x y) = Some c /\ is_min a b c)) /\
  (rmean x = None \/ rmean y = None -> rmean (r_max x y) = None /\ rmean (r_min x y) = None).
Proof.
  intros x y. split.
  - intros a b A B. split; [exact (max_sound _ _ _ q_exact x y a b A B)|exact (min_sound _ _ _ q_exact x y a b A B)].
  - exact (max_nan q_ops Q2R x y).
Qed.
Print Assumptions C66_rational_max_min.
Example C66_max_min_nonvacuous : r_max (Fin (1 # 3)) (Fin (2 # 5)) = Fin (2 # 5) /\ r_min (Fin (1 # 3)) PInf = Fin (1 # 3).
Proof. repeat split. Qed.

(** Rounding to integers, the number being finite. *)
Theorem C66_rational_rounding : forall q, exists f c r,
  r_floor (Fin q) = Some f /\ is_floor (Q2R q) f /\ r_ceil (Fin q) = Some c /\ is_ceil (Q2R q) c /\
  r_round (Fin q) = Some r /\ is_round (Q2R q) r.
Proof.
  intros q. do 3 eexists. split; [reflexivity|]. split; [apply floor_frac; lia|]. split; [reflexivity|]. split; [apply ceil_frac; lia|].
  split; [reflexivity|apply round_frac; lia].
Qed.
Print Assumptions C66_rational_rounding.
Example C66_rounding_nonvacuous : r_floor (Fin (-7 # 2)) = Some (-4)%Z /\ r_ceil (Fin (-7 # 2)) = Some (-3)%Z /\ r_round (Fin (-7 # 2)) = Some (-4)%Z.
Proof. repeat split. Qed.

(** * C67: dyadic numbers *)

(** Arithmetic is exact for numbers of moderate size (at most 4000 bits, exponents at most 4000). *)
Theorem C67_dyadic_arithmetic_partial : forall x y, moderate x -> moderate y ->
  dmean (d_neg x) = lift1 Rbar_opp (dmean x) /\ dmean (d_hlf x) = lift1 xhalf (dmean x) /\
  dmean (d_abs x) = lift1 Rbar_abs (dmean x) /\ dmean (d_add x y) = lift2 xplus (dmean x) (dmean y) /\
  dmean (d_sub x y) = lift2 xminus (dmean x) (dmean y) /\ dmean (d_mul x y) = lift2 xmult (dmean x) (dmean y).
Proof.
  intros x y HX HY. pose proof (xgood_moderate x HX) as X. pose proof (xgood_moderate y HY) as Y.
  repeat split;
    [exact (neg_sound _ _ _ dops_exact x X)|exact (hlf_sound _ _ _ dops_exact x X)|exact (abs_sound _ _ _ dops_exact x X)
    |exact (add_sound _ _ _ dops_exact x y X Y)|exact (sub_sound _ _ _ dops_exact x y X Y)|exact (mul_sound _ _ _ dops_exact x y X Y)].
Qed.
Print Assumptions C67_dyadic_arithmetic_partial.
Example C67_arithmetic_nonvacuous : moderate (Fin (mkD 3 (-2))) /\ d_eq (d_add (Fin (mkD 3 (-2))) (Fin (mkD 5 1))) (Fin (mkD 43 (-2))) = true.
Proof. split; [unfold moderate, sized; cbn [mant expo]|vm_compute; reflexivity]. split; [|lia]. assert (2 ^ 2 <= 2 ^ 4000)%Z by (apply Z.pow_le_mono_r; lia). lia. Qed.

(** Sums wider than the fixed precision lose their low bits, whatever that precision is. *)
Theorem C67_dyadic_addition_refuted : exists x y a b, dmean x = Some (Finite a) /\ dmean y = Some (Finite b) /\
  dmean (d_add x y) <> Some (Finite (a + b)).
Proof.
  exists (Fin (mkD 1 maximum_precision)), (Fin (mkD 1 0)), (bpow radix2 maximum_precision), 1.
  split; [|split].
  - unfold dmean; cbn [meaning]. unfold dval; cbn [mant expo]. rewrite Rmult_1_l. reflexivity.
  - unfold dmean; cbn [meaning]. unfold dval; cbn [mant expo]. rewrite Rmult_1_l. reflexivity.
  - unfold d_add, dops. cbn [x_add]. unfold dmean; cbn [meaning]. rewrite add_truncates by (unfold maximum_precision; lia).
    intro H. assert (E : bpow radix2 maximum_precision = bpow radix2 maximum_precision + 1) by congruence. lra.
Qed.
Print Assumptions C67_dyadic_addition_refuted.

Theorem C67_dyadic_order_partial : forall x y a b, dmean x = Some a -> dmean y = Some b ->
  (d_lt x y = true <-> Rbar_lt a b) /\ (d_le x y = true <-> Rbar_le a b) /\ (d_eq x y = true <-> a = b) /\
  (d_gt x y = true <-> Rbar_lt b a) /\ (d_ge x y = true <-> Rbar_le b a) /\ (d_ne x y = true <-> a <> b).
Proof.
  intros x y a b X Y. pose proof (d_lt_sound x y a b X Y) as L. pose proof (d_le_sound y x b a Y X) as G. pose proof (d_eq_sound x y a b X Y) as E.
  split; [exact L|]. split; [apply d_le_sound; assumption|]. split; [exact E|]. split; [apply d_lt_sound; assumption|].
  split; [exact G|]. unfold d_ne. rewrite negb_true_iff, <- not_true_iff_false, E. reflexivity.
Qed.
Print Assumptions C67_dyadic_order_partial.
Example C67_order_nonvacuous : d_lt (Fin (mkD 3 (-2))) (Fin (mkD 1 0)) = true /\ d_eq (Fin (mkD 4 (-2))) (Fin (mkD 1 0)) = true /\ d_le PInf (Fin (mkD 1 0)) = false.
Proof. repeat split. Qed.
(** NaN is less than or equal to, and greater than or equal to, every number. *)
Theorem C67_dyadic_order_refuted : forall x, d_le NaN x = true /\ d_ge NaN x = true.
Proof. intros [q| | |]; split; reflexivity. Qed.
Print Assumptions C67_dyadic_order_refuted.

Theorem C67_dyadic_max_min : forall x y,
  (forall a b, dmean x = Some a -> dmean y = Some b ->
     (exists c, dmean (d_max x y) = Some c /\ is_max a b c) /\ (exists c, dmean (d_min x y) = Some c /\ is_min a b c)) /\
  (dmean x = None \/ dmean y = None -> dmean (d_max x y) = None /\ dmean (d_min x y) = None).
Proof.
  intros x y. split.
  - intros a b A B. split; [exact (max_sound _ _ _ dops_exact x y a b A B)|exact (min_sound _ _ _ dops_exact x y a b A B)].
  - exact (max_nan dops dval x y).
Qed.
Print Assumptions C67_dyadic_max_min.

Theorem C67_dyadic_powers_partial : forall x m, (0 < Z.of_N m <= 16)%Z -> moderate x ->
  dmean (d_pow x m) = xpow (dmean x) (N.to_nat m).
Proof. intros x m M X. apply d_pow_sound; [lia|exact X|lia]. Qed.
Print Assumptions C67_dyadic_powers_partial.
Example C67_powers_nonvacuous : d_pow (Fin (mkD (-3) (-1))) 3 = Fin (mkD (-27) (-3)) /\ d_pow NInf 2 = PInf.
Proof. split; vm_compute; reflexivity. Qed.
(** The empty product is 1 for rationals but infinite for infinite dyadics. *)
Theorem C67_dyadic_powers_refuted : dmean (d_pow PInf 0) <> xpow (dmean PInf) 0 /\ rmean (r_pow PInf 0) = xpow (rmean PInf) 0.
Proof. split; [discriminate|]. rewrite pow_sound. reflexivity. Qed.
Print Assumptions C67_dyadic_powers_refuted.

Theorem C67_dyadic_rounding_partial : forall a,
  (exists z, d_floor (Fin a) = Some z /\ is_floor (dval a) z) /\ (exists z, d_ceil (Fin a) = Some z /\ is_ceil (dval a) z) /\
  (sized 4000 4000 a -> exists z, d_round (Fin a) = Some z /\ is_round (dval a) z).
Proof. intro a. split; [apply d_floor_sound|]. split; [apply d_ceil_sound|apply d_round_sound]. Qed.
Print Assumptions C67_dyadic_rounding_partial.
Example C67_rounding_nonvacuous : d_floor (Fin (mkD (-7) (-1))) = Some (-4)%Z /\ d_round (Fin (mkD (-7) (-1))) = Some (-4)%Z /\ d_ceil (Fin (mkD (-7) (-1))) = Some (-3)%Z.
Proof. repeat split; vm_compute; reflexivity. Qed.

(** Conversion to a rational keeps the value. *)
Theorem C67_dyadic_to_rational : forall x, rmean (r_of_d x) = dmean x /\ canonical (r_of_d x).
Proof. intro x. split; [apply r_of_d_mean|apply r_of_d_canonical]. Qed.
Print Assumptions C67_dyadic_to_rational.
Example C67_to_rational_nonvacuous : r_of_d (Fin (mkD 6 (-2))) = Fin (3 # 2).
Proof. reflexivity. Qed.

(** Construction from an mpf number gives 0. *)
Theorem C67_dyadic_from_mpf_refuted : exists f, dmean (d_of_mpf f) <> Some (Finite (dval f)).
Proof.
  exists (mkD 1 0). unfold dmean, d_of_mpf; cbn [meaning]. unfold dval; cbn [mant expo]. intro H.
  assert (E : 0 * bpow radix2 0 = 1 * bpow radix2 0) by congruence. cbn in E. lra.
Qed.
Print Assumptions C67_dyadic_from_mpf_refuted.

(** Copies, moves, and assignments to objects that have not been moved from keep values. *)
Theorem C67_dyadic_copies_partial : forall x y, moderate (value_ y) ->
  value_ (d_copy y) = value_ y /\ value_ (fst (d_move y)) = value_ y /\ value_ (fst (d_move_assign x y)) = value_ y /\
  (prec_ x = maximum_precision -> value_ (d_assign x y) = value_ y).
Proof.
  intros x y M.
  assert (S : d_store maximum_precision (value_ y) = value_ y).
  { destruct (value_ y) as [a| | |]; [|reflexivity..]. cbn [d_store]. f_equal.
    apply trunc_id with 4000%Z; [unfold maximum_precision; lia..|]. apply M. }
  split; [exact S|]. split; [reflexivity|]. split; [reflexivity|]. intro P. unfold d_assign; cbn [value_]. rewrite P. exact S.
Qed.
Print Assumptions C67_dyadic_copies_partial.
(** Assigning to a moved-from object loses low bits. *)
Theorem C67_dyadic_copies_refuted : exists x y, value_ (d_assign (snd (d_move x)) y) <> value_ y.
Proof.
  pose (o := {| prec_ := maximum_precision; value_ := Fin (mkD (2 ^ 64 + 1) 0) |}).
  exists o, o. vm_compute. discriminate.
Qed.
Print Assumptions C67_dyadic_copies_refuted.

(** * C68: rational and dyadic bounds, dyadic balls *)

Theorem C68_rational_bounds_partial : forall a b x y, finite_rb a -> finite_rb b -> in_rbounds a x -> in_rbounds b y ->
  in_rbounds (rb_add a b) (x + y) /\ in_rbounds (rb_sub a b) (x - y) /\ in_rbounds (rb_neg a) (- x) /\
  in_rbounds (rb_mul a b) (x * y) /\ in_rbounds (rb_sqr a) (x * x) /\ in_rbounds (rb_abs a) (Rabs x) /\
  in_rbounds (rb_max a b) (Rmax x y) /\ in_rbounds (rb_min a b) (Rmin x y) /\
  (forall m, N.odd m = true -> in_rbounds (rb_pow a m) (x ^ N.to_nat m)) /\
  (y <> 0 -> exists c, rb_div a b = Some c /\ in_rbounds c (x / y)) /\
  (y <> 0 -> exists c, rb_rec b = Some c /\ in_rbounds c (/ y)).
Proof.
  intros a b x y A B X Y. destruct (rb_linear_in a b x y A B X Y) as [? [? ?]]. destruct (rb_lattice_in a b x y A B X Y).
  repeat (split; [assumption|]). split; [apply rb_mul_in; assumption|]. split; [apply rb_sqr_in; assumption|].
  split; [apply rb_abs_in; assumption|]. split; [assumption|]. split; [assumption|].
  split; [intros m M; apply rb_pow_odd_in; assumption|]. split; [apply rb_div_in; assumption|apply rb_rec_in; assumption].
Qed.
Print Assumptions C68_rational_bounds_partial.
Example C68_rational_bounds_nonvacuous :
  rb_mul (mkRB (Fin (-1 # 2)) (Fin (3 # 1))) (mkRB (Fin (-2 # 1)) (Fin (5 # 1))) = mkRB (Fin (-6 # 1)) (Fin (15 # 1)) /\
  in_rbounds (mkRB (Fin (-1 # 2)) (Fin (3 # 1))) 1 /\ rb_div (mkRB (Fin (1 # 1)) (Fin (2 # 1))) (mkRB (Fin (-4 # 1)) (Fin (-2 # 1))) = Some (mkRB (Fin (-1 # 1)) (Fin (-1 # 4))).
Proof. split; [reflexivity|]. split; [|reflexivity]. apply in_fin. unfold Q2R; cbn. lra. Qed.

(** Halving swaps the ends, and even powers ignore the sign. *)
Theorem C68_rational_bounds_refuted :
  (exists a x, finite_rb a /\ in_rbounds a x /\ ~ in_rbounds (rb_hlf a) (x / 2)) /\
  (exists a x m, finite_rb a /\ in_rbounds a x /\ ~ in_rbounds (rb_pow a m) (x ^ N.to_nat m)).
Proof.
  split.
  - exists (mkRB (Fin (0 # 1)) (Fin (2 # 1))), 1. split; [do 2 eexists; reflexivity|]. split; [apply in_fin; unfold Q2R; cbn; lra|].
    change (rb_hlf (mkRB (Fin (0 # 1)) (Fin (2 # 1)))) with (mkRB (Fin (1 # 1)) (Fin (0 # 1))). rewrite in_fin. unfold Q2R; cbn. lra.
  - exists (mkRB (Fin (-2 # 1)) (Fin (1 # 1))), 0, 2%N. split; [do 2 eexists; reflexivity|]. split; [apply in_fin; unfold Q2R; cbn; lra|].
    change (rb_pow (mkRB (Fin (-2 # 1)) (Fin (1 # 1))) 2) with (mkRB (Fin (4 # 1)) (Fin (1 # 1))). rewrite in_fin. unfold Q2R; cbn. lra.
Qed.
Print Assumptions C68_rational_bounds_refuted.

Theorem C68_rational_bounds_comparisons : forall a b x y, finite_rb a -> finite_rb b -> in_rbounds a x -> in_rbounds b y ->
  (forall t, rb_eqs a b = Some t -> (t = true <-> x = y)) /\
  (forall t, rb_les a b = Some t -> (t = true <-> x <= y)) /\
  (forall t, rb_lts a b = Some t -> (t = true <-> x < y)).
Proof. apply rb_compare_sound. Qed.
Print Assumptions C68_rational_bounds_comparisons.
Example C68_comparisons_nonvacuous :
  rb_lts (mkRB (Fin (0 # 1)) (Fin (1 # 1))) (mkRB (Fin (2 # 1)) (Fin (3 # 1))) = Some true /\ rb_lts (mkRB (Fin (0 # 1)) (Fin (2 # 1))) (mkRB (Fin (1 # 1)) (Fin (3 # 1))) = None /\
  rb_les (mkRB (Fin (2 # 1)) (Fin (3 # 1))) (mkRB (Fin (0 # 1)) (Fin (1 # 1))) = Some false /\ rb_eqs (mkRB (Fin (1 # 1)) (Fin (1 # 1))) (mkRB (Fin (1 # 1)) (Fin (1 # 1))) = Some true.
Proof. repeat split. Qed.

Theorem C68_rational_bounds_sets : forall a b, finite_rb a -> finite_rb b ->
  (forall x, in_rbounds (rb_refinement a b) x <-> in_rbounds a x /\ in_rbounds b x) /\
  (forall x, in_rbounds a x \/ in_rbounds b x -> in_rbounds (rb_coarsening a b) x) /\
  (rb_refines a b = true -> forall x, in_rbounds a x -> in_rbounds b x) /\
  (rb_inconsistent a b = true -> forall x, ~ (in_rbounds a x /\ in_rbounds b x)).
Proof. apply rb_sets_sound. Qed.
Print Assumptions C68_rational_bounds_sets.
Example C68_sets_nonvacuous :
  rb_refines (mkRB (Fin (1 # 1)) (Fin (2 # 1))) (mkRB (Fin (0 # 1)) (Fin (2 # 1))) = true /\ rb_inconsistent (mkRB (Fin (0 # 1)) (Fin (1 # 1))) (mkRB (Fin (2 # 1)) (Fin (3 # 1))) = true.
Proof. split; reflexivity. Qed.

(** Dyadic bounds (entries of moderate size). *)
Theorem C68_dyadic_bounds_partial : forall a b x y, finite_db a -> finite_db b -> in_dbounds a x -> in_dbounds b y ->
  in_dbounds (db_add a b) (x + y) /\ in_dbounds (db_sub a b) (x - y) /\ in_dbounds (db_minus a) (- x) /\
  in_dbounds (db_hlf a) (x / 2) /\ in_dbounds (db_abs a) (Rabs x) /\
  (forall m, (Z.of_N m <= 16)%Z -> in_dbounds (db_pow a m) (x ^ N.to_nat m)).
Proof.
  intros a b x y A B X Y. destruct (db_linear_in a b x y A B X Y) as [? [? [? [? ?]]]].
  repeat (split; [assumption|]). intros m M. apply db_pow_in; assumption.
Qed.
Print Assumptions C68_dyadic_bounds_partial.
Lemma small_finite_db : forall l u, (Z.abs l < 16)%Z -> (Z.abs u < 16)%Z -> finite_db (mkDB (Fin (mkD l 0)) (Fin (mkD u 0))).
Proof.
  intros l u L U. assert (2 ^ 4 <= 2 ^ 4000)%Z by (apply Z.pow_le_mono_r; lia).
  do 2 eexists. split; [reflexivity|]. unfold sized; cbn [mant expo]. lia.
Qed.
Lemma in_dint : forall l u r, in_dbounds (mkDB (Fin (mkD l 0)) (Fin (mkD u 0))) r <-> IZR l <= r <= IZR u.
Proof. intros. rewrite in_dfin. unfold dval; cbn [mant expo]. change (bpow radix2 0) with 1. rewrite !Rmult_1_r. reflexivity. Qed.
Example C68_dyadic_bounds_nonvacuous :
  finite_db (mkDB (Fin (mkD (-2) 0)) (Fin (mkD 1 0))) /\ in_dbounds (mkDB (Fin (mkD (-2) 0)) (Fin (mkD 1 0))) (-1) /\
  in_dbounds (db_pow (mkDB (Fin (mkD (-2) 0)) (Fin (mkD 1 0))) 2) 1.
Proof.
  assert (F : finite_db (mkDB (Fin (mkD (-2) 0)) (Fin (mkD 1 0)))) by (apply small_finite_db; lia).
  assert (I : in_dbounds (mkDB (Fin (mkD (-2) 0)) (Fin (mkD 1 0))) (-1)) by (apply in_dint; lra).
  split; [exact F|]. split; [exact I|]. replace 1 with ((-1) ^ N.to_nat 2) by (change (N.to_nat 2) with 2%nat; ring).
  apply db_pow_in; [lia|exact F|exact I].
Qed.
(** [neg] (unlike the operator) does not swap the ends. *)
Theorem C68_dyadic_bounds_refuted : exists a x, finite_db a /\ in_dbounds a x /\ ~ in_dbounds (db_neg a) (- x).
Proof.
  exists (mkDB (Fin (mkD 1 0)) (Fin (mkD 2 0))), 1. split; [apply small_finite_db; lia|]. split; [apply in_dint; lra|].
  assert (E : db_neg (mkDB (Fin (mkD 1 0)) (Fin (mkD 2 0))) = mkDB (Fin (mkD (-1) 0)) (Fin (mkD (-2) 0))) by (vm_compute; reflexivity).
  rewrite E, in_dint. lra.
Qed.
Print Assumptions C68_dyadic_bounds_refuted.

Theorem C68_dyadic_ball_partial : forall a b x y, finite_dball a -> finite_dball b -> in_dball a x -> in_dball b y ->
  in_dball (dl_add a b) (x + y) /\ in_dball (dl_sub a b) (x - y) /\ in_dball (dl_mul a b) (x * y) /\ in_dball (dl_abs a) (Rabs x) /\
  (forall t, dl_lt a b = Some t -> (t = true <-> x < y)).
Proof.
  intros a b x y A B X Y. destruct (dl_ops_in a b x y A B X Y) as [? [? [? ?]]].
  repeat (split; [assumption|]). intros t. apply dl_compare_sound; assumption.
Qed.
Print Assumptions C68_dyadic_ball_partial.
(** Relations between balls, and conversions to and from bounds, keep the set of numbers. *)
Theorem C68_dyadic_ball_sets_partial : forall a b, finite_dball a -> finite_dball b ->
  (dl_inconsistent a b = true -> forall x, ~ (in_dball a x /\ in_dball b x)) /\
  (dl_refines a b = true -> forall x, in_dball a x -> in_dball b x) /\
  (forall x, in_dball a x <-> in_dbounds (dl_bounds a) x) /\
  (forall c, finite_db c -> forall x, in_dbounds c x <-> in_dball (dl_of_bounds c) x).
Proof.
  intros a b A B. destruct (dl_sets_sound a b A B) as [? ?]. split; [assumption|]. split; [assumption|].
  split; [apply (dl_bounds_sound a (mkDB (Fin (mkD 0 0)) (Fin (mkD 0 0))) A); apply small_finite_db; lia|].
  intros c C. apply (dl_bounds_sound a c A C).
Qed.
Print Assumptions C68_dyadic_ball_sets_partial.
Example C68_dyadic_ball_nonvacuous :
  let a := mkDBall (Fin (mkD 1 0)) (Fin (mkD 1 (-1))) in let b := mkDBall (Fin (mkD 3 0)) (Fin (mkD 1 0)) in
  finite_dball a /\ finite_dball b /\ in_dball a 1 /\ in_dball b 2 /\ dl_lt a b = Some true /\ dl_inconsistent a b = true.
Proof.
  cbv zeta. assert (2 ^ 4 <= 2 ^ 4000)%Z by (apply Z.pow_le_mono_r; lia).
  split; [do 2 eexists; split; [reflexivity|]; unfold sized; cbn [mant expo]; lia|].
  split; [do 2 eexists; split; [reflexivity|]; unfold sized; cbn [mant expo]; lia|].
  split; [|split; [|split; vm_compute; reflexivity]]; unfold in_dball, dval; cbn [dv de mant expo]; apply Rabs_le; cbn; lra.
Qed.

(** * C69: decimal numbers *)

Theorem C69_decimal_arithmetic : forall a b,
  decval (dec_add a b) = decval a + decval b /\ decval (dec_sub a b) = decval a - decval b /\
  decval (dec_mul a b) = decval a * decval b /\ decval (dec_neg a) = - decval a /\
  decval (dec_sqr a) = decval a * decval a /\ decval (dec_hlf a) = decval a / 2 /\ decval (dec_abs a) = Rabs (decval a).
Proof. apply dec_arith. Qed.
Print Assumptions C69_decimal_arithmetic.
Example C69_arithmetic_nonvacuous : dec_add (mkDec 15 1) (mkDec (-25) 2) = mkDec 125 2 /\ dec_hlf (mkDec 15 1) = mkDec 75 2.
Proof. split; reflexivity. Qed.

(** Division gives the exact rational quotient. *)
Theorem C69_decimal_division : forall a b, decval b <> 0 ->
  exists z, dec_div a b = Some z /\ rmean z = Some (Finite (decval a / decval b)).
Proof. apply dec_div_sound. Qed.
Print Assumptions C69_decimal_division.
Example C69_division_nonvacuous : dec_div (mkDec 15 1) (mkDec 3 0) = Some (Fin (1 # 2)) /\ dec_div (mkDec 1 0) (mkDec 3 1) = Some (Fin (10 # 3)).
Proof. split; reflexivity. Qed.

(** Conversions keep the value; canonical decimals have no trailing zeros. *)
Theorem C69_decimal_conversions : forall d,
  rmean (r_of_dec d) = Some (Finite (decval d)) /\ (forall a, decval (dec_of_d (Fin a)) = dval a) /\
  decval (dec_canonicalize d) = decval d /\
  (dq (dec_canonicalize d) = 0%N \/ ~ (10 | dp (dec_canonicalize d))%Z).
Proof.
  intro d. split; [apply r_of_dec_sound|]. split; [apply dec_of_d_sound|]. split; [apply canon_val|].
  destruct (canonicalize_min (N.to_nat (dq d)) (dp d) (dq d)) as [H|H]; [lia|left; exact H|right].
  intros [k K]. apply H. fold (dec_canonicalize d). rewrite K. apply rem_div_conv. lia.
Qed.
Print Assumptions C69_decimal_conversions.
Example C69_conversions_nonvacuous : dec_of_d (Fin (mkD (-5) (-3))) = mkDec (-625) 3 /\ dec_canonicalize (mkDec 1500 3) = mkDec 15 1.
Proof. split; reflexivity. Qed.

Theorem C69_decimal_order_partial : forall a b,
  (dec_op_eq a b = true <-> decval a = decval b) /\ (dec_op_ne a b = true <-> decval a <> decval b) /\
  (dec_op_ge a b = true <-> decval b <= decval a) /\ (dec_op_lt a b = true <-> decval a < decval b) /\
  decval (dec_max a b) = Rmax (decval a) (decval b) /\ decval (dec_min a b) = Rmin (decval a) (decval b).
Proof.
  intros a b. unfold dec_max, dec_min, dec_op_lt, dec_op_eq, dec_op_ne, dec_op_ge.
  pose proof (dec_cmp_sound a b) as C. pose proof (dec_cmp_sound b a) as D.
  split; [|split; [|split; [|split; [|split]]]].
  1-4: destruct (dec_cmp a b); split; intro; try discriminate; try reflexivity; lra.
  - destruct (dec_cmp a b); [rewrite Rmax_left|rewrite Rmax_right|rewrite Rmax_left]; lra.
  - destruct (dec_cmp b a); [rewrite Rmin_left|rewrite Rmin_right|rewrite Rmin_left]; lra.
Qed.
Print Assumptions C69_decimal_order_partial.
Example C69_order_nonvacuous : dec_op_lt (mkDec 15 1) (mkDec 151 2) = true /\ dec_op_eq (mkDec 150 2) (mkDec 15 1) = true.
Proof. split; reflexivity. Qed.
(** [<=] decides [>=], and [>] decides [<]. *)
Theorem C69_decimal_order_refuted : forall a b,
  (dec_op_le a b = true <-> decval b <= decval a) /\ (dec_op_gt a b = true <-> decval a < decval b) /\
  dec_op_le (mkDec 1 0) (mkDec 2 0) = false /\ dec_op_gt (mkDec 1 0) (mkDec 2 0) = true.
Proof.
  intros a b. unfold dec_op_le, dec_op_gt. pose proof (dec_cmp_sound b a) as C.
  split; [|split; [|split; reflexivity]]; destruct (dec_cmp b a); split; intro; try discriminate; try reflexivity; lra.
Qed.
Print Assumptions C69_decimal_order_refuted.

(** Text read as a decimal has the value of its digits; a second point is rejected. *)
Theorem C69_decimal_parse : forall l1 l2, Forall is_digit l1 -> Forall is_digit l2 -> l1 <> [] ->
  (forall sg k, (sg = [] \/ sg = [Plus]) /\ k = 1 \/ sg = [Minus] /\ k = -1 ->
     exists d, dec_parse (sg ++ map Dig l1 ++ Point :: map Dig l2) = Some d /\
       decval d = k * (IZR (digits_value 0 (l1 ++ l2)) / IZR (10 ^ Z.of_nat (length l2)))) /\
  (forall s, dec_parse (map Dig l1 ++ Point :: map Dig l2 ++ Point :: s) = None).
Proof.
  intros l1 l2 F1 F2 N.
  assert (P : forall s, dec_parse (map Dig l1 ++ s) = option_map (fun d => mkDec (dp d * 1) (dq d)) (dec_parse_loop (map Dig l1 ++ s) 0 0 0 false)).
  { intro s. destruct l1 as [|c l1]; [contradiction|]. reflexivity. }
  destruct (parse_value l1 l2 F1 F2) as [d [E V]]. split.
  - intros sg k [[[ -> | -> ] -> ] | [ -> -> ]].
    + exists (mkDec (dp d * 1) (dq d)). rewrite app_nil_l, P, E. split; [reflexivity|]. rewrite <- V. unfold decval; cbn [dp dq]. rewrite Z.mul_1_r. ring.
    + exists (mkDec (dp d * 1) (dq d)). cbn [app]. unfold dec_parse. rewrite E. split; [reflexivity|]. rewrite <- V. unfold decval; cbn [dp dq]. rewrite Z.mul_1_r. ring.
    + exists (mkDec (dp d * -1) (dq d)). cbn [app]. unfold dec_parse. rewrite E. split; [reflexivity|]. rewrite <- V. unfold decval; cbn [dp dq]. rewrite mult_IZR. field. apply ten_nz.
  - intro s. rewrite P, parse_second_point by assumption. reflexivity.
Qed.
Print Assumptions C69_decimal_parse.
Example C69_parse_nonvacuous : dec_parse [Minus; Dig 1; Point; Dig 0; Dig 5; Dig 0] = Some (mkDec (-105) 2).
Proof. reflexivity. Qed.

(** Printing and reading back gives the same number. *)
Theorem C69_decimal_print_parse : forall d, exists d', dec_parse (dec_print d) = Some d' /\ decval d' = decval d.
Proof. apply print_parse. Qed.
Print Assumptions C69_decimal_print_parse.
Example C69_print_nonvacuous : dec_print (mkDec (-10305) 4) = [Minus; Dig 1; Point; Dig 0; Dig 3; Dig 0; Dig 5].
Proof. reflexivity. Qed.

(** * C70: integers *)

(** Conversions from built-in integers, except near the ends of their ranges. *)
Theorem C70_integer_from_builtin_partial :
  (forall m, (0 <= m < 2 ^ 63 - 2 ^ 32)%Z -> z_of_nat64 m = m) /\
  (forall n, (Z.abs n < 2 ^ 63 - 2 ^ 32)%Z -> z_of_int64 n = Some n) /\
  (forall n, (0 <= n < 2 ^ 31)%Z -> z_of_int32 n = n).
Proof.
  split; [|split].
  - intros m M. apply nat64_partial. lia.
  - intros n N. apply int64_partial. lia.
  - intros n N. unfold z_of_int32. apply Z.mod_small. lia.
Qed.
Print Assumptions C70_integer_from_builtin_partial.
Example C70_from_builtin_nonvacuous : z_of_nat64 9000000000000000000 = 9000000000000000000%Z.
Proof. reflexivity. Qed.
(** The largest 64-bit integer, and every negative 32-bit one, become other numbers. *)
Theorem C70_integer_from_builtin_refuted :
  z_of_int64 (2 ^ 63 - 1) <> Some (2 ^ 63 - 1)%Z /\ z_of_int64 (- 2 ^ 63) = None /\
  (forall n, int32_range n -> (n < 0)%Z -> z_of_int32 n = (2 ^ 64 + n)%Z).
Proof.
  split; [vm_compute; discriminate|]. split; [reflexivity|]. intros n [A B] N. unfold z_of_int32.
  rewrite <- (Z_mod_plus_full n 1). rewrite Z.mod_small; lia.
Qed.
Print Assumptions C70_integer_from_builtin_refuted.

(** [get<N>()] returns the value when it fits and fails its assertion when it does not, for
    signed types of up to 62 bits. *)
Theorem C70_integer_get_partial : forall w z, (1 <= w <= 62)%Z ->
  ((- 2 ^ (w - 1) <= z < 2 ^ (w - 1))%Z -> z_get w z = Some z) /\
  (~ (- 2 ^ (w - 1) <= z < 2 ^ (w - 1))%Z -> z_get w z = None).
Proof. apply get_sound. Qed.
Print Assumptions C70_integer_get_partial.
Example C70_get_nonvacuous : z_get 32 (-2147483648) = Some (-2147483648)%Z /\ z_get 32 2147483648 = None.
Proof. split; reflexivity. Qed.
Theorem C70_integer_get_refuted : exists z, int64_range z /\ z_get 64 z = None.
Proof. exists (2 ^ 63 - 1)%Z. split; [unfold int64_range; lia|reflexivity]. Qed.
Print Assumptions C70_integer_get_refuted.

(** Factorials and binomial coefficients do not overflow for any argument the assertions let through. *)
Theorem C70_factorials :
  (forall n, (n < 9)%nat -> fac_w 16 9 (Z.of_nat n) = Some (factorial n)) /\
  (forall n, (n < 13)%nat -> fac_w 32 13 (Z.of_nat n) = Some (factorial n)) /\
  (forall n, (n < 21)%nat -> fac_w 64 21 (Z.of_nat n) = Some (factorial n)).
Proof. split; [|split]; apply fac_all; [exact fac16|exact fac32|exact fac64]. Qed.
Print Assumptions C70_factorials.
Theorem C70_binomials_partial : forall n k, (k <= n + 1)%nat ->
  ((n < 16)%nat -> bin_w 16 16 (Z.of_nat n) (Z.of_nat k) = Some (binomial n k)) /\
  ((n < 31)%nat -> bin_w 32 31 (Z.of_nat n) (Z.of_nat k) = Some (binomial n k)) /\
  ((n < 63)%nat -> bin_w 64 63 (Z.of_nat n) (Z.of_nat k) = Some (binomial n k)) /\
  ((n < 31)%nat -> bin_w 32 32 (Z.of_nat n) (Z.of_nat k) = Some (binomial n k)).
Proof.
  intros n k K. split; [|split; [|split]]; intro N.
  - exact (bin_all _ _ _ bin16 n k N K).
  - exact (bin_all _ _ _ bin32 n k N K).
  - exact (bin_all _ _ _ bin64 n k N K).
  - exact (bin_all _ _ _ bin8 n k N K).
Qed.
Print Assumptions C70_binomials_partial.
Example C70_binomials_nonvacuous : bin_w 64 63 62 31 = Some 465428353255261088%Z.
Proof. vm_compute. reflexivity. Qed.
(** The version for 8-bit arguments lets 31 through, and overflows. *)
Theorem C70_binomials_refuted : bin_w 32 32 31 16 <> Some (binomial 31 16).
Proof. rewrite <- row_binomial. vm_compute. discriminate. Qed.
Print Assumptions C70_binomials_refuted.

(** Printing an integer into its 512-character buffer: right when it has at most 510 digits,
    and past the end of the buffer for more than 511. *)
Theorem C70_integer_print_partial : forall z, (Z.abs z < 10 ^ 510)%Z ->
  exists l, z_print z = Some ((if (z <? 0)%Z then [Minus] else []) ++ map Dig l) /\ Forall is_digit l /\ digits_value 0 l = Z.abs z.
Proof.
  intros z B. exists (digits (Z.abs z)). destruct (digits_spec (Z.abs z)) as [F V]; [lia|]. split; [|auto]. unfold z_print.
  assert (L : (length (digits (Z.abs z)) <= 510)%nat).
  { destruct (Z.eq_dec z 0) as [->|N]; [cbn; lia|]. destruct (digits_length (Z.abs z)) as [j [-> [J _]]]; [lia|].
    assert (Z.of_nat j < 510)%Z by (apply (Z.pow_lt_mono_r_iff 10); lia). lia. }
  match goal with |- (if ?c then _ else _) = _ => destruct c eqn:E end; [reflexivity|]. apply Z.leb_gt in E.
  rewrite app_length, map_length in E. destruct (z <? 0)%Z; cbn [length] in E; lia.
Qed.
Print Assumptions C70_integer_print_partial.
Theorem C70_integer_print_refuted : forall z, (10 ^ 511 <= z)%Z -> z_print z = None.
Proof.
  intros z B. assert (P : (0 < 10 ^ 511)%Z) by (apply Z.pow_pos_nonneg; lia).
  destruct (digits_length (Z.abs z)) as [j [L [_ J]]]; [lia|].
  assert (511 < Z.of_nat j + 1)%Z by (apply (Z.pow_lt_mono_r_iff 10); lia).
  unfold z_print. match goal with |- (if ?c then _ else _) = _ => destruct c eqn:E end; [|reflexivity]. apply Z.leb_le in E.
  rewrite app_length, map_length, L in E. lia.
Qed.
Print Assumptions C70_integer_print_refuted.
Example C70_print_nonvacuous : z_print (-120) = Some [Minus; Dig 1; Dig 2; Dig 0].
Proof. reflexivity. Qed.
