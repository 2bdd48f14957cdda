(** Proofs about exact dyadic numbers. *)
From Coq Require Import ZArith NArith QArith Qreals Reals List Lia Lra Bool Psatz.
From Flocq Require Import Core.
From Coquelicot Require Import Rbar.
From Verif Require Import Exact_Model Exact_Spec Exact_Proofs.
Import ListNotations.
Local Open Scope R_scope.

Lemma izr_pow2 : forall k, (0 <= k)%Z -> IZR (2 ^ k) = bpow radix2 k.
Proof. intros k H. apply (IZR_Zpower radix2 k H). Qed.

Lemma dval_shift : forall m e k, (k <= e)%Z -> IZR (m * 2 ^ (e - k)) * bpow radix2 k = IZR m * bpow radix2 e.
Proof.
  intros m e k H. rewrite mult_IZR, izr_pow2, Rmult_assoc, <- bpow_plus by lia. do 2 f_equal. lia.
Qed.

Lemma align_val : forall a b m n e, d_align a b = (m, n, e) ->
  IZR m * bpow radix2 e = dval a /\ IZR n * bpow radix2 e = dval b.
Proof.
  intros a b m n e H. injection H as <- <- <-. split; apply dval_shift; lia.
Qed.

Lemma addx_val : forall a b, dval (d_addx a b) = dval a + dval b.
Proof.
  intros a b. unfold d_addx. destruct (d_align a b) as [[m n] e] eqn:E.
  destruct (align_val _ _ _ _ _ E) as [<- <-]. unfold dval; cbn [mant expo]. rewrite plus_IZR. ring.
Qed.
Lemma negx_val : forall a, dval (d_negx a) = - dval a.
Proof. intro a. unfold dval, d_negx; cbn [mant expo]. rewrite opp_IZR. ring. Qed.
Lemma mulx_val : forall a b, dval (d_mulx a b) = dval a * dval b.
Proof. intros a b. unfold dval, d_mulx; cbn [mant expo]. rewrite mult_IZR, bpow_plus. ring. Qed.

Lemma cmpx_val : forall a b,
  match d_cmpx a b with Lt => dval a < dval b | Eq => dval a = dval b | Gt => dval b < dval a end.
Proof.
  intros a b. unfold d_cmpx. destruct (d_align a b) as [[m n] e] eqn:E.
  destruct (align_val _ _ _ _ _ E) as [<- <-]. pose proof (bpow_gt_0 radix2 e).
  destruct (Z.compare_spec m n) as [C|C|C].
  - rewrite C. reflexivity.
  - apply Rmult_lt_compat_r; [assumption|]. apply IZR_lt, C.
  - apply Rmult_lt_compat_r; [assumption|]. apply IZR_lt, C.
Qed.

(** Truncation loses nothing when the bits fit. *)
Lemma trunc_id : forall p s a, (1 <= p)%Z -> (s <= p)%Z -> (Z.abs (mant a) < 2 ^ s)%Z -> trunc_bits p a = a.
Proof.
  intros p s a P S H. unfold trunc_bits.
  assert (L : (Z.log2 (Z.abs (mant a)) + 1 <= p)%Z).
  { destruct (Z.eq_dec (mant a) 0) as [Z|Z].
    - rewrite Z. cbn. lia.
    - assert (Z.log2 (Z.abs (mant a)) < s)%Z; [|lia]. apply Z.log2_lt_pow2; lia. }
  apply Z.leb_le in L. rewrite L. reflexivity.
Qed.

Lemma sized_neg : forall s t a, sized s t a -> sized s t (d_negx a).
Proof. intros s t a [A B]. split; cbn [d_negx mant expo]; [rewrite Z.abs_opp; exact A|exact B]. Qed.

Lemma addx_sized : forall s t a b, (0 <= s)%Z -> (0 <= t)%Z -> sized s t a -> sized s t b -> sized (s + 2 * t + 1) t (d_addx a b).
Proof.
  intros s t a b S T [A A'] [B B']. unfold d_addx, d_align. split; cbn [mant expo]; [|lia].
  set (e := Z.min (expo a) (expo b)).
  assert (G : forall m k, (Z.abs m < 2 ^ s)%Z -> (0 <= k <= 2 * t)%Z -> (Z.abs (m * 2 ^ k) < 2 ^ (s + 2 * t))%Z).
  { intros m k M K. rewrite Z.abs_mul, (Z.abs_eq (2 ^ k)) by (apply Z.pow_nonneg; lia).
    rewrite Z.pow_add_r by lia.
    assert (2 ^ k <= 2 ^ (2 * t))%Z by (apply Z.pow_le_mono_r; lia).
    assert (0 < 2 ^ k)%Z by (apply Z.pow_pos_nonneg; lia). nia. }
  assert (GA := G (mant a) (expo a - e)%Z A ltac:(unfold e; lia)).
  assert (GB := G (mant b) (expo b - e)%Z B ltac:(unfold e; lia)).
  rewrite Z.pow_add_r by lia. change (2 ^ 1)%Z with 2%Z. lia.
Qed.
Lemma mulx_sized : forall s t s' t' a b, (0 <= s)%Z -> (0 <= s')%Z -> sized s t a -> sized s' t' b -> sized (s + s') (t + t') (d_mulx a b).
Proof.
  intros s t s' t' a b S S' [A A'] [B B']. split; cbn [d_mulx mant expo]; [|lia].
  rewrite Z.abs_mul, Z.pow_add_r by lia.
  assert (0 < 2 ^ s)%Z by (apply Z.pow_pos_nonneg; lia). assert (0 < 2 ^ s')%Z by (apply Z.pow_pos_nonneg; lia). nia.
Qed.

Lemma sgn_d_pos : forall p a, f_sgn (d_ops p) a = POSITIVE <-> 0 < dval a.
Proof.
  intros p a. cbn. unfold dval. pose proof (bpow_gt_0 radix2 (expo a)) as B. destruct (mant a) as [|m|m]; cbn [sgn_z]; split; intro H; try discriminate; try reflexivity.
  - lra.
  - apply Rmult_lt_0_compat; [apply IZR_lt; lia|exact B].
  - assert (IZR (Zneg m) < 0) by (apply IZR_lt; lia). nra.
Qed.
Lemma sgn_d_neg : forall p a, f_sgn (d_ops p) a = NEGATIVE <-> dval a < 0.
Proof.
  intros p a. cbn. unfold dval. pose proof (bpow_gt_0 radix2 (expo a)) as B. destruct (mant a) as [|m|m]; cbn [sgn_z]; split; intro H; try discriminate; try reflexivity.
  - lra.
  - assert (0 < IZR (Zpos m)) by (apply IZR_lt; lia). nra.
  - assert (IZR (Zneg m) < 0) by (apply IZR_lt; lia). nra.
Qed.

Lemma d_exact : forall p s t, (1 <= p)%Z -> (0 <= s)%Z -> (0 <= t)%Z -> (2 * s <= p)%Z -> (s + 2 * t + 1 <= p)%Z ->
  exact_ops (d_ops p) dval (sized s t).
Proof.
  intros p s t P S T C1 C2. split; cbn [d_ops f_sgn f_zero f_cmp f_neg f_hlf f_abs f_sqr f_add f_sub f_mul].
  - apply (sgn_d_pos p).
  - apply (sgn_d_neg p).
  - unfold dval; cbn; ring.
  - apply cmpx_val.
  - intros f G. rewrite (trunc_id p s); [apply negx_val|lia|lia|apply (sized_neg s t f G)].
  - intros f [G G']. rewrite (trunc_id p s); [|lia|lia|exact G]. unfold dval; cbn [mant expo].
    replace (expo f - 1)%Z with (expo f + -1)%Z by lia. rewrite bpow_plus. change (bpow radix2 (-1)) with (/ 2). field.
  - intros f [G G']. rewrite (trunc_id p s); [|lia|lia|cbn [mant]; lia]. unfold dval; cbn [mant expo].
    rewrite abs_IZR, Rabs_mult, (Rabs_right (bpow _ _)); [reflexivity|]. apply Rle_ge, bpow_ge_0.
  - intros f G. rewrite (trunc_id p (s + s)); [apply mulx_val|lia|lia|]. apply (mulx_sized s t s t); assumption.
  - intros f g G H. rewrite (trunc_id p (s + 2 * t + 1)); [apply addx_val|lia|lia|]. apply addx_sized; assumption.
  - intros f g G H. rewrite (trunc_id p (s + 2 * t + 1)); [rewrite addx_val, negx_val; ring|lia|lia|].
    apply addx_sized; try assumption. apply sized_neg; assumption.
  - intros f g G H. rewrite (trunc_id p (s + s)); [apply mulx_val|lia|lia|]. apply (mulx_sized s t s t); assumption.
Qed.

Lemma dops_exact : exact_ops dops dval (sized 4000 4000).
Proof. apply d_exact; vm_compute; discriminate. Qed.
(** Larger sizes, for the intermediate results of compound operations. *)
Lemma dops_exact_big : exact_ops dops dval (sized 20000 20000).
Proof. apply d_exact; vm_compute; discriminate. Qed.

Lemma xgood_moderate : forall x, moderate x -> xgood (sized 4000 4000) x.
Proof. intros [a| | |] H; exact H. Qed.

(** ** Order *)
Lemma d_cmp_sound : forall x y a b, dmean x = Some a -> dmean y = Some b ->
  (d_cmp x y = cmp_LESS /\ Rbar_lt a b) \/ (d_cmp x y = cmp_EQUAL /\ a = b) \/ (d_cmp x y = cmp_GREATER /\ Rbar_lt b a).
Proof. intros x y a b Hx Hy. apply (cmp_sound _ _ _ dops_exact x y a b Hx Hy). Qed.
Lemma d_lt_sound : forall x y a b, dmean x = Some a -> dmean y = Some b -> d_lt x y = true <-> Rbar_lt a b.
Proof.
  intros x y a b Hx Hy. unfold d_lt.
  destruct (d_cmp_sound x y a b Hx Hy) as [[E L]|[[E L]|[E L]]]; rewrite E; cbn.
  - split; [intro; exact L|reflexivity].
  - subst b. split; [discriminate|]. destruct a; cbn; try tauto. intro; lra.
  - split; [discriminate|]. intro H. exfalso. destruct a, b; cbn in *; try tauto; lra.
Qed.
Lemma d_le_sound : forall x y a b, dmean x = Some a -> dmean y = Some b -> d_le x y = true <-> Rbar_le a b.
Proof.
  intros x y a b Hx Hy. unfold d_le. rewrite negb_true_iff, le_not_lt, <- (d_lt_sound y x b a Hy Hx).
  destruct (d_lt y x); split; intro H; try discriminate; try reflexivity; try (intro; discriminate).
  exfalso; apply H; reflexivity.
Qed.
Lemma d_eq_sound : forall x y a b, dmean x = Some a -> dmean y = Some b -> d_eq x y = true <-> a = b.
Proof.
  intros x y a b Hx Hy. unfold d_eq.
  destruct (d_cmp_sound x y a b Hx Hy) as [[E L]|[[E L]|[E L]]]; rewrite E; cbn.
  - split; [discriminate|]. intros ->. destruct b; cbn in L; try tauto; lra.
  - tauto.
  - split; [discriminate|]. intros ->. destruct b; cbn in L; try tauto; lra.
Qed.

(** ** Sums of [p+1] bits are not exact *)
Lemma log2_ones : forall p, (1 <= p)%Z -> Z.log2 (2 ^ p + 1) = p.
Proof.
  intros p P. apply Z.log2_unique; [lia|]. assert (2 <= 2 ^ p)%Z by (change 2%Z with (2 ^ 1)%Z at 1; apply Z.pow_le_mono_r; lia).
  rewrite Z.pow_succ_r by lia. lia.
Qed.
Lemma add_truncates : forall p, (1 <= p)%Z ->
  dval (f_add (d_ops p) (mkD 1 p) (mkD 1 0)) = bpow radix2 p.
Proof.
  intros p P. cbn [f_add d_ops]. unfold d_addx, d_align. cbn [mant expo]. rewrite Z.min_r by lia.
  rewrite !Z.sub_0_r, !Z.mul_1_l. change (2 ^ 0)%Z with 1%Z. unfold trunc_bits; cbn [mant expo].
  assert (0 < 2 ^ p)%Z by (apply Z.pow_pos_nonneg; lia).
  rewrite Z.abs_eq, log2_ones by lia. destruct (Z.leb_spec (p + 1) p); [lia|].
  replace (p + 1 - p)%Z with 1%Z by lia. change (2 ^ 1)%Z with 2%Z.
  rewrite Z.quot_div_nonneg by lia. replace (2 ^ p)%Z with (2 * 2 ^ (p - 1))%Z by (rewrite <- Z.pow_succ_r by lia; f_equal; lia).
  rewrite Z.mul_comm, Z.div_add_l by lia. change (1 / 2)%Z with 0%Z. rewrite Z.add_0_r.
  unfold dval; cbn [mant expo]. rewrite izr_pow2, <- bpow_plus by lia. f_equal. lia.
Qed.

(** ** Conversion to Rational *)
Lemma q_of_fin_val : forall a, Q2R (q_of_fin a) = dval a.
Proof.
  intro a. unfold q_of_fin. rewrite Q2R_red. destruct (Z.leb_spec 0 (expo a)) as [H|H].
  - unfold Q2R, inject_Z; cbn [Qnum Qden]. rewrite mult_IZR, izr_pow2 by exact H. unfold dval. field.
  - rewrite Q2R_make. assert (0 < 2 ^ (- expo a))%Z by (apply Z.pow_pos_nonneg; lia).
    rewrite Z2Pos.id, izr_pow2 by lia. rewrite bpow_opp. unfold dval, Rdiv. rewrite Rinv_inv. reflexivity.
Qed.
Lemma r_of_d_mean : forall x, rmean (r_of_d x) = dmean x.
Proof. intros [a| | |]; try reflexivity. cbn [r_of_d rmean dmean meaning]. unfold rmean; cbn [meaning]. rewrite q_of_fin_val. reflexivity. Qed.
Lemma r_of_d_canonical : forall x, canonical (r_of_d x).
Proof. intros [a| | |]; try exact I. apply qred_idem. Qed.

(** ** Rounding *)
Lemma dval_frac : forall a, (expo a < 0)%Z -> dval a = IZR (mant a) / IZR (2 ^ (- expo a)).
Proof.
  intros a H. unfold dval. rewrite izr_pow2, bpow_opp by lia. unfold Rdiv. rewrite Rinv_inv. reflexivity.
Qed.
Lemma dval_int : forall a, (0 <= expo a)%Z -> dval a = IZR (mant a * 2 ^ expo a).
Proof. intros a H. unfold dval. rewrite mult_IZR, izr_pow2 by exact H. reflexivity. Qed.
Lemma d_floor_sound : forall a, exists z, d_floor (Fin a) = Some z /\ is_floor (dval a) z.
Proof.
  intro a. eexists; split; [reflexivity|]. destruct (Z.leb_spec 0 (expo a)) as [H|H].
  - rewrite dval_int by exact H. unfold is_floor; lra.
  - rewrite dval_frac by exact H. apply floor_frac. apply Z.pow_pos_nonneg; lia.
Qed.
Lemma d_ceil_sound : forall a, exists z, d_ceil (Fin a) = Some z /\ is_ceil (dval a) z.
Proof.
  intro a. eexists; split; [reflexivity|]. destruct (Z.leb_spec 0 (expo a)) as [H|H].
  - rewrite dval_int by exact H. unfold is_ceil; lra.
  - rewrite dval_frac by exact H. apply ceil_frac. apply Z.pow_pos_nonneg; lia.
Qed.

Lemma z_of_fin_frac : forall a n d, (0 < d)%Z -> dval a = IZR n / IZR d -> z_of_fin a = Z.quot n d.
Proof.
  intros a n d D V. assert (D' : IZR d <> 0) by (apply not_0_IZR; lia).
  unfold z_of_fin. destruct (Z.leb_spec 0 (expo a)) as [H|H].
  - rewrite dval_int in V by exact H. assert (n = mant a * 2 ^ expo a * d)%Z as ->.
    { apply eq_IZR. rewrite mult_IZR, V. field. exact D'. }
    rewrite Z.quot_mul by lia. reflexivity.
  - rewrite dval_frac in V by exact H. set (q := (2 ^ (- expo a))%Z) in *.
    assert (Q : (0 < q)%Z) by (apply Z.pow_pos_nonneg; lia). assert (Q' : IZR q <> 0) by (apply not_0_IZR; lia).
    assert (X : (mant a * d = n * q)%Z).
    { apply eq_IZR. rewrite !mult_IZR. apply (f_equal (fun u => u * (IZR q * IZR d))) in V.
      replace (IZR (mant a) / IZR q * (IZR q * IZR d)) with (IZR (mant a) * IZR d) in V by (field; exact Q').
      replace (IZR n / IZR d * (IZR q * IZR d)) with (IZR n * IZR q) in V by (field; exact D'). exact V. }
    rewrite <- (Z.quot_mul_cancel_r (mant a) q d), <- (Z.quot_mul_cancel_r n d q) by lia.
    rewrite X. f_equal. lia.
Qed.

Lemma d_round_sound : forall a, sized 4000 4000 a -> exists z, d_round (Fin a) = Some z /\ is_round (dval a) z.
Proof.
  intros a G. assert (G' := G). destruct G' as [A B]. unfold d_round. eexists; split; [reflexivity|].
  set (y := mkD (mant a) (expo a + 1)).
  rewrite (trunc_id maximum_precision 4000 y) by (try exact A; vm_compute; discriminate).
  set (one := if (0 <=? mant y)%Z then mkD 1 0 else mkD (-1) 0).
  assert (SY : sized 4001 4001 y).
  { split; unfold y; cbn [mant expo]; [|lia]. change 4001%Z with (4000 + 1)%Z. rewrite Z.pow_add_r by lia. lia. }
  assert (SO : sized 4001 4001 one).
  { unfold one. assert (1 < 2 ^ 4001)%Z by (apply Z.pow_gt_1; lia).
    destruct (0 <=? mant y)%Z; split; cbn [mant expo]; lia. }
  pose proof (addx_sized 4001 4001 y one ltac:(lia) ltac:(lia) SY SO) as S.
  rewrite (trunc_id maximum_precision (4001 + 2 * 4001 + 1) (d_addx y one)) by (try apply S; vm_compute; discriminate).
  (* the number is [n/d] *)
  assert (E : exists n d, (0 < d)%Z /\ dval a = IZR n / IZR d /\ (0 <=? mant a)%Z = (0 <=? 2 * n)%Z).
  { destruct (Z.leb_spec 0 (expo a)) as [H|H].
    - exists (mant a * 2 ^ expo a)%Z, 1%Z. split; [lia|]. rewrite dval_int by exact H. split; [field|].
      assert (0 < 2 ^ expo a)%Z by (apply Z.pow_pos_nonneg; lia).
      destruct (Z.leb_spec 0 (mant a)), (Z.leb_spec 0 (2 * (mant a * 2 ^ expo a))); try reflexivity; nia.
    - exists (mant a), (2 ^ (- expo a))%Z. split; [apply Z.pow_pos_nonneg; lia|]. split; [apply dval_frac; exact H|].
      destruct (Z.leb_spec 0 (mant a)), (Z.leb_spec 0 (2 * mant a)); try reflexivity; lia. }
  destruct E as [n [d [D [V SG]]]]. rewrite V.
  rewrite (z_of_fin_frac _ (if (0 <=? 2 * n)%Z then 2 * n + d else 2 * n - d) (2 * d)%Z); [apply round_frac; exact D|lia|].
  assert (D' : IZR d <> 0) by (apply not_0_IZR; lia).
  assert (W : dval (d_addx y one) = 2 * (IZR n / IZR d) + (if (0 <=? 2 * n)%Z then 1 else -1)).
  { rewrite addx_val. f_equal.
    - rewrite <- V. unfold dval, y; cbn [mant expo]. rewrite bpow_plus. change (bpow radix2 1) with 2. ring.
    - unfold one, y; cbn [mant]. rewrite SG. destruct (0 <=? 2 * n)%Z; unfold dval; cbn; ring. }
  replace (dval {| mant := mant (d_addx y one); expo := expo (d_addx y one) - 1 |}) with (dval (d_addx y one) / 2).
  2:{ unfold dval; cbn [mant expo]. replace (expo (d_addx y one) - 1)%Z with (expo (d_addx y one) + -1)%Z by lia. rewrite bpow_plus. change (bpow radix2 (-1)) with (/ 2). field. }
  rewrite W. destruct (0 <=? 2 * n)%Z; rewrite ?plus_IZR, ?minus_IZR, !mult_IZR; field; exact D'.
Qed.

(** ** Powers *)
Lemma d_pow_sound : forall x m, (Z.of_N m <= 16)%Z -> moderate x -> m <> 0%N -> dmean (d_pow x m) = xpow (dmean x) (N.to_nat m).
Proof.
  intros x m M G Z. assert (ME : exists n, N.to_nat m = S n) by (exists (Nat.pred (N.to_nat m)); lia).
  destruct x as [a| | |]; unfold d_pow; cbn [x_pow dmean meaning].
  - unfold dmean; cbn [meaning]. rewrite xpow_some. do 2 f_equal. cbn [f_pow dops d_ops].
    destruct G as [A B]. rewrite (trunc_id maximum_precision 64000).
    + unfold dval; cbn [mant expo]. rewrite <- (N2Nat.id m) at 1 2. rewrite nat_N_Z. rewrite <- pow_IZR, Rpow_mult_distr. f_equal.
      clear ME; induction (N.to_nat m) as [|n IH]; [rewrite Z.mul_0_r; reflexivity|].
      cbn [pow]. rewrite <- IH, <- bpow_plus. f_equal. lia.
    + unfold maximum_precision; lia.
    + unfold maximum_precision; lia.
    + cbn [mant]. rewrite Z.abs_pow. apply Z.lt_le_trans with ((2 ^ 4000) ^ Z.of_N m)%Z.
      * apply Z.pow_lt_mono_l; lia.
      * rewrite <- Z.pow_mul_r by lia. apply Z.pow_le_mono_r; lia.
  - destruct ME as [n ->]. cbn [sgn seqb orb]. symmetry. apply xpow_p.
  - destruct ME as [n E]. cbn [sgn seqb orb]. unfold dmean; cbn [meaning]. rewrite E, xpow_m.
    assert (EV : N.even m = negb (Nat.even n)).
    { rewrite <- (N2Nat.id m), E. destruct (Nat.even n) eqn:En.
      - apply Nat.even_spec in En as [k ->]. cbn [negb]. rewrite <- N.negb_odd, negb_false_iff. apply N.odd_spec. exists (N.of_nat k). lia.
      - rewrite <- Nat.negb_odd, negb_false_iff in En. apply Nat.odd_spec in En as [k ->]. cbn [negb]. apply N.even_spec. exists (N.of_nat (k + 1)). lia. }
    rewrite EV. destruct (Nat.even n); reflexivity.
  - destruct ME as [n ->]. reflexivity.
Qed.
