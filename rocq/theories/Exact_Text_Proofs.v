(** Proofs about decimal numbers, their text, and built-in integers. *)
From Coq Require Import ZArith NArith QArith Qreals Reals List Lia Lra Bool Psatz.
From Coquelicot Require Import Rbar.
From Verif Require Import Exact_Model Exact_Spec Exact_Proofs Exact_Dyadic_Proofs.
Import ListNotations.
Local Open Scope R_scope.

Lemma ten_pos : forall q, (0 < ten_pow q)%Z.
Proof. intro q. apply Z.pow_pos_nonneg; lia. Qed.
Lemma ten_nz : forall q, IZR (ten_pow q) <> 0.
Proof. intro q. apply not_0_IZR. pose proof (ten_pos q). lia. Qed.
Lemma ten_add : forall p q, ten_pow (p + q) = (ten_pow p * ten_pow q)%Z.
Proof. intros. unfold ten_pow. rewrite N2Z.inj_add, Z.pow_add_r by lia. reflexivity. Qed.
Lemma decval_eq : forall d, decval d = IZR (dp d) / IZR (ten_pow (dq d)).
Proof. reflexivity. Qed.

Lemma rem_div : forall a b, (0 < b)%Z -> (z_rem a b = 0)%Z -> (a = b * (a / b))%Z.
Proof.
  intros a b B H. unfold z_rem in H. assert (E : (a = - (- a / b) * b)%Z) by lia.
  rewrite E at 2. rewrite Z.div_mul by lia. lia.
Qed.
Lemma rem_div_conv : forall k b, (0 < b)%Z -> z_rem (k * b) b = 0%Z.
Proof. intros k b B. unfold z_rem. replace (- (k * b))%Z with (- k * b)%Z by lia. rewrite Z.div_mul by lia. lia. Qed.

Lemma canonicalize_val : forall n p q, decval (canonicalize_from n p q) = IZR p / IZR (ten_pow q).
Proof.
  induction n as [|n IH]; intros p q; [reflexivity|]. cbn [canonicalize_from].
  destruct ((0 <? Z.of_N q)%Z && (z_rem p 10 =? 0)%Z) eqn:E; [|reflexivity].
  apply andb_true_iff in E as [A B]. apply Z.ltb_lt in A. apply Z.eqb_eq in B.
  rewrite IH. apply rem_div in B; [|lia]. unfold z_quot.
  replace (ten_pow q) with (ten_pow (N.pred q) * 10)%Z.
  2:{ change 10%Z with (ten_pow 1) at 1. rewrite <- ten_add. f_equal. lia. }
  rewrite B at 2. rewrite !mult_IZR. field. apply ten_nz.
Qed.
Lemma canon_val : forall d, decval (dec_canonicalize d) = decval d.
Proof. intro d. apply canonicalize_val. Qed.

(** Nothing can be removed any more. *)
Lemma canonicalize_min : forall n p q, (N.to_nat q <= n)%nat ->
  (dq (canonicalize_from n p q) = 0%N \/ z_rem (dp (canonicalize_from n p q)) 10 <> 0%Z).
Proof.
  induction n as [|n IH]; intros p q H; [left; cbn; lia|]. cbn [canonicalize_from].
  destruct ((0 <? Z.of_N q)%Z && (z_rem p 10 =? 0)%Z) eqn:E.
  - apply andb_true_iff in E as [A _]. apply Z.ltb_lt in A. apply IH. lia.
  - apply andb_false_iff in E as [E|E]; [left; apply Z.ltb_ge in E; cbn; lia|right; apply Z.eqb_neq in E; exact E].
Qed.

Lemma dec_arith : forall a b,
  decval (dec_add a b) = decval a + decval b /\ decval (dec_sub a b) = decval a - decval b /\
  decval (dec_mul a b) = decval a * decval b /\ decval (dec_neg a) = - decval a /\
  decval (dec_sqr a) = decval a * decval a /\ decval (dec_hlf a) = decval a / 2 /\ decval (dec_abs a) = Rabs (decval a).
Proof.
  intros [p q] [p' q'].
  pose proof (ten_nz q). pose proof (ten_nz q').
  split; [|split; [|split; [|split; [|split; [|split]]]]].
  - unfold dec_add. rewrite canon_val, !decval_eq; cbn [dp dq]. rewrite ten_add, plus_IZR, !mult_IZR. field; auto.
  - unfold dec_sub. rewrite canon_val, !decval_eq; cbn [dp dq]. rewrite ten_add, minus_IZR, !mult_IZR. field; auto.
  - rewrite !decval_eq; cbn [dec_mul dp dq]. rewrite ten_add, !mult_IZR. field; auto.
  - rewrite !decval_eq; cbn [dec_neg dp dq]. rewrite opp_IZR. field; auto.
  - rewrite !decval_eq; cbn [dec_sqr dp dq]. replace (2 * q)%N with (q + q)%N by lia. rewrite ten_add, !mult_IZR. field; auto.
  - unfold dec_hlf; cbn [dp dq]. destruct (Z.eqb_spec (z_rem p 2) 0) as [E|E]; rewrite !decval_eq; cbn [dp dq].
    + apply rem_div in E; [|lia]. unfold z_quot. rewrite E at 2. rewrite mult_IZR. field; auto.
    + rewrite ten_add, !mult_IZR. change (ten_pow 1) with 10%Z. field; auto.
  - rewrite !decval_eq; cbn [dec_abs dp dq]. rewrite abs_IZR. unfold Rdiv. rewrite Rabs_mult. f_equal.
    rewrite Rabs_right; [reflexivity|]. apply Rle_ge, Rlt_le, Rinv_0_lt_compat, IZR_lt, ten_pos.
Qed.

Lemma dec_cmp_sound : forall a b,
  match dec_cmp a b with Lt => decval a < decval b | Eq => decval a = decval b | Gt => decval b < decval a end.
Proof.
  intros [p q] [p' q']. unfold dec_cmp; cbn [dp dq]. rewrite !decval_eq; cbn [dp dq].
  assert (A : 0 < IZR (ten_pow q)) by (apply IZR_lt, ten_pos). assert (B : 0 < IZR (ten_pow q')) by (apply IZR_lt, ten_pos).
  assert (E : IZR p / IZR (ten_pow q) - IZR p' / IZR (ten_pow q') = IZR (p * ten_pow q' - p' * ten_pow q) / (IZR (ten_pow q) * IZR (ten_pow q'))).
  { rewrite minus_IZR, !mult_IZR. field. lra. }
  assert (P : 0 < / (IZR (ten_pow q) * IZR (ten_pow q'))) by (apply Rinv_0_lt_compat; nra).
  unfold Rdiv at 3 in E. set (k := / (IZR (ten_pow q) * IZR (ten_pow q'))) in *.
  destruct (Z.compare_spec (p * ten_pow q') (p' * ten_pow q)) as [C|C|C].
  - rewrite C, Z.sub_diag, Rmult_0_l in E. lra.
  - assert (IZR (p * ten_pow q' - p' * ten_pow q) < 0) by (apply IZR_lt; lia). nra.
  - assert (0 < IZR (p * ten_pow q' - p' * ten_pow q)) by (apply IZR_lt; lia). nra.
Qed.

Lemma dec_div_sound : forall a b, decval b <> 0 ->
  exists z, dec_div a b = Some z /\ rmean z = Some (Finite (decval a / decval b)).
Proof.
  intros [p q] [p' q'] H. unfold dec_div; cbn [dp dq]. rewrite !decval_eq in *; cbn [dp dq] in *.
  assert (P' : (p' <> 0)%Z). { intros ->. apply H. field. apply ten_nz. }
  assert (PR : IZR p' <> 0) by (apply not_0_IZR; exact P').
  pose proof (make_mean p p' P') as M. pose proof (ten_nz q). pose proof (ten_nz q').
  assert (ZM : forall z, rmean (r_of_z z) = Some (Finite (IZR z))).
  { intro z. unfold r_of_z, rmean; cbn [meaning]. do 2 f_equal. unfold Q2R, inject_Z; cbn [Qnum Qden]. field. }
  destruct (Z.ltb_spec 0 (Z.of_N q - Z.of_N q')) as [L|L].
  - set (e := (Z.of_N q - Z.of_N q')%Z) in *. assert (E : (0 < 10 ^ e)%Z) by (apply Z.pow_pos_nonneg; lia).
    destruct (div_sound (r_make p p') (r_of_z (10 ^ e))) as [z [Ez Mz]].
    { rewrite ZM. intro C. injection C as C. apply eq_IZR in C. lia. }
    exists z. split; [exact Ez|]. rewrite Mz, M, ZM. cbn [lift2]. unfold xdiv; cbn [Rbar_inv Rbar_mult'].
    assert (T : ten_pow q = (ten_pow q' * 10 ^ e)%Z).
    { unfold ten_pow. rewrite <- Z.pow_add_r by lia. f_equal. unfold e. lia. }
    rewrite T, mult_IZR. do 2 f_equal. field. repeat split; try exact PR; try apply ten_nz. apply not_0_IZR. lia.
  - eexists. split; [reflexivity|]. rewrite r_mul_sound, M, ZM. cbn [lift2]. unfold xmult; cbn [Rbar_mult'].
    assert (T : ten_pow q' = (ten_pow q * 10 ^ (- (Z.of_N q - Z.of_N q')))%Z).
    { unfold ten_pow. rewrite <- Z.pow_add_r by lia. f_equal. lia. }
    rewrite T, mult_IZR. do 2 f_equal. field. repeat split; try exact PR; try apply ten_nz.
    apply not_0_IZR. assert (0 < 10 ^ (- (Z.of_N q - Z.of_N q')))%Z by (apply Z.pow_pos_nonneg; lia). lia.
Qed.

Lemma r_of_dec_sound : forall d, rmean (r_of_dec d) = Some (Finite (decval d)).
Proof. intro d. apply make_mean. pose proof (ten_pos (dq d)). lia. Qed.

(** The denominator of a dyadic number is a power of two. *)
Lemma q_of_fin_den : forall a, exists k, (0 <= k)%Z /\ Zpos (Qden (q_of_fin a)) = (2 ^ k)%Z.
Proof.
  assert (G : forall d k, (0 <= k)%Z -> (0 < d)%Z -> (d | 2 ^ k)%Z -> exists j, (0 <= j)%Z /\ d = (2 ^ j)%Z).
  { intros d k K D Dv. revert d D Dv. apply (natlike_ind (fun k => forall d, (0 < d)%Z -> (d | 2 ^ k)%Z -> exists j, (0 <= j)%Z /\ d = (2 ^ j)%Z)); [| |exact K].
    - intros d D Dv. apply Z.divide_1_r_nonneg in Dv; [|lia]. exists 0%Z. split; [lia|exact Dv].
    - intros x X IH d D Dv. destruct (Z.Even_or_Odd d) as [[e E]|O].
      + destruct (IH e) as [j [J Ej]]; [lia| |].
        * rewrite E, Z.pow_succ_r in Dv by lia. apply Z.mul_divide_cancel_l in Dv; [exact Dv|lia].
        * exists (Z.succ j). split; [lia|]. rewrite Z.pow_succ_r by lia. lia.
      + apply IH; [exact D|]. rewrite Z.pow_succ_r in Dv by lia. apply Z.gauss with 2%Z; [exact Dv|].
        apply Z.bezout_1_gcd. destruct O as [e E]. exists 1%Z, (- e)%Z. lia. }
  intro a. unfold q_of_fin. destruct (0 <=? expo a)%Z eqn:E.
  - exists 0%Z. split; [lia|]. assert (Qred (inject_Z (mant a * 2 ^ expo a)) = inject_Z (mant a * 2 ^ expo a)) as ->; [|reflexivity].
    unfold Qred, inject_Z. pose proof (Z.ggcd_gcd (mant a * 2 ^ expo a) 1) as A. pose proof (Z.ggcd_correct_divisors (mant a * 2 ^ expo a) 1) as B.
    destruct (Z.ggcd (mant a * 2 ^ expo a) 1) as [g [x y]]. cbn in *. rewrite Z.gcd_1_r in A. subst g. destruct B as [B1 B2].
    rewrite Z.mul_1_l in B1, B2. rewrite <- B2, <- B1. reflexivity.
  - apply Z.leb_gt in E. apply (G _ (- expo a)%Z); [lia|lia|].
    set (D := Z.to_pos (2 ^ (- expo a))).
    assert (HD : Zpos D = (2 ^ (- expo a))%Z) by (apply Z2Pos.id, Z.pow_pos_nonneg; lia).
    rewrite <- HD. unfold Qred. pose proof (Z.ggcd_gcd (mant a) (Zpos D)) as A. pose proof (Z.ggcd_correct_divisors (mant a) (Zpos D)) as B.
    destruct (Z.ggcd (mant a) (Zpos D)) as [g [x y]]. cbn [fst snd Qden] in *. destruct B as [B1 B2].
    assert (0 <= g)%Z by (rewrite A; apply Z.gcd_nonneg). assert (0 < y)%Z by nia.
    rewrite Z2Pos.id by assumption. exists g. exact B2.
Qed.
Lemma dec_of_d_sound : forall a, decval (dec_of_d (Fin a)) = dval a.
Proof.
  intro a. unfold dec_of_d. rewrite canon_val, decval_eq; cbn [dp dq]. rewrite <- q_of_fin_val.
  destruct (q_of_fin_den a) as [k [K E]]. rewrite E, Z.log2_pow2 by exact K.
  unfold Q2R. rewrite E. unfold ten_pow. rewrite Z2N.id by exact K.
  replace (10 ^ k)%Z with (2 ^ k * 5 ^ k)%Z by (rewrite <- Z.pow_mul_l; reflexivity).
  rewrite !mult_IZR. field. split; apply not_0_IZR; apply Z.pow_nonzero; lia.
Qed.

(** ** Text *)

Lemma digits_value_acc : forall l acc, digits_value acc l = (acc * 10 ^ Z.of_nat (length l) + digits_value 0 l)%Z.
Proof.
  induction l as [|d l IH]; intro acc; cbn [digits_value length]; [rewrite Z.pow_0_r; lia|].
  rewrite IH, (IH (10 * 0 + d)%Z). rewrite Nat2Z.inj_succ, Z.pow_succ_r by lia. lia.
Qed.
Lemma digits_value_app : forall l l' acc, digits_value acc (l ++ l') = digits_value (digits_value acc l) l'.
Proof. induction l as [|d l IH]; intros; [reflexivity|]. cbn. apply IH. Qed.

(** The digits of [n]: correct digits, correct value, no leading zeros. *)
Lemma digits_from_spec : forall k n acc, (0 <= n)%Z -> (n < 10 ^ (Z.of_nat k + 1))%Z -> Forall is_digit acc ->
  Forall is_digit (digits_from k n acc) /\ digits_value 0 (digits_from k n acc) = digits_value n acc.
Proof.
  induction k as [|k IH]; intros n acc N B F; cbn [digits_from].
  - change (10 ^ (Z.of_nat 0 + 1))%Z with 10%Z in B. split; [constructor; [unfold is_digit; lia|exact F]|]. cbn [digits_value]. f_equal.
  - destruct (Z.ltb_spec n 10) as [L|L].
    + split; [constructor; [unfold is_digit; lia|exact F]|]. cbn [digits_value]. f_equal.
    + pose proof (Z.mod_pos_bound n 10 ltac:(lia)) as M. pose proof (Z_div_mod_eq_full n 10) as D.
      destruct (IH (n / 10)%Z (n mod 10 :: acc)%Z) as [A C].
      * apply Z.div_pos; lia.
      * replace (Z.of_nat (S k) + 1)%Z with (Z.succ (Z.of_nat k + 1)) in B by lia. rewrite Z.pow_succ_r in B by lia. lia.
      * constructor; [unfold is_digit; lia|exact F].
      * split; [exact A|]. rewrite C. cbn [digits_value]. f_equal. lia.
Qed.
Lemma digits_spec : forall n, (0 <= n)%Z -> Forall is_digit (digits n) /\ digits_value 0 (digits n) = n.
Proof.
  intros n N. destruct (digits_from_spec (Z.to_nat (Z.log2 n)) n [] N) as [A B].
  - rewrite Z2Nat.id by apply Z.log2_nonneg. destruct (Z.eq_dec n 0) as [->|Z]; [cbn; lia|].
    eapply Z.lt_le_trans; [apply Z.log2_spec; lia|]. unfold Z.succ.
    apply Z.pow_le_mono_l. lia.
  - constructor.
  - split; [exact A|exact B].
Qed.
Lemma digits_from_length : forall k n acc, (0 < n)%Z -> (n < 10 ^ (Z.of_nat k + 1))%Z ->
  exists j, length (digits_from k n acc) = (S j + length acc)%nat /\ (10 ^ Z.of_nat j <= n < 10 ^ (Z.of_nat j + 1))%Z.
Proof.
  induction k as [|k IH]; intros n acc N B; cbn [digits_from].
  - exists 0%nat. split; [reflexivity|]. cbn in *. lia.
  - destruct (Z.ltb_spec n 10) as [L|L]; [exists 0%nat; split; [reflexivity|cbn; lia]|].
    pose proof (Z_div_mod_eq_full n 10). pose proof (Z.mod_pos_bound n 10 ltac:(lia)).
    destruct (IH (n / 10)%Z (n mod 10 :: acc)%Z) as [j [A C]].
    + lia.
    + replace (Z.of_nat (S k) + 1)%Z with (Z.succ (Z.of_nat k + 1)) in B by lia. rewrite Z.pow_succ_r in B by lia. lia.
    + exists (S j). split; [cbn in A |- *; lia|]. rewrite Nat2Z.inj_succ. unfold Z.succ.
      rewrite !(Z.pow_add_r 10 _ 1) in * by lia. change (10 ^ 1)%Z with 10%Z in *. lia.
Qed.
Lemma digits_length : forall n, (0 < n)%Z ->
  exists j, length (digits n) = S j /\ (10 ^ Z.of_nat j <= n < 10 ^ (Z.of_nat j + 1))%Z.
Proof.
  intros n N. destruct (digits_from_length (Z.to_nat (Z.log2 n)) n [] N) as [j [A B]].
  - rewrite Z2Nat.id by apply Z.log2_nonneg. eapply Z.lt_le_trans; [apply Z.log2_spec; lia|]. unfold Z.succ.
    apply Z.pow_le_mono_l. lia.
  - exists j. split; [cbn in A; unfold digits; lia|exact B].
Qed.

(** Reading digits before the point. *)
Lemma parse_integer : forall l s p, Forall is_digit l ->
  dec_parse_loop (map Dig l ++ s) p 0 0 false = dec_parse_loop s (digits_value p l) 0 0 false.
Proof.
  induction l as [|d l IH]; intros s p F; [reflexivity|]. inversion F; subst. cbn [map app dec_parse_loop].
  rewrite IH by assumption. cbn [digits_value]. do 2 f_equal. lia.
Qed.
(** Reading digits after the point. *)
Lemma parse_fraction : forall l p q z, Forall is_digit l ->
  exists d, dec_parse_loop (map Dig l) p q z true = Some d /\
    decval d = IZR (p * 10 ^ (Z.of_N z + Z.of_nat (length l)) + digits_value 0 l) /
               IZR (10 ^ (Z.of_N q + Z.of_N z + Z.of_nat (length l))).
Proof.
  induction l as [|d l IH]; intros p q z F.
  - eexists. split; [reflexivity|]. cbn [length digits_value]. rewrite decval_eq; cbn [dp dq]. unfold ten_pow.
    rewrite !Z.add_0_r. rewrite (Z.pow_add_r 10 (Z.of_N q)) by lia. rewrite !mult_IZR. field.
    split; apply not_0_IZR, Z.pow_nonzero; lia.
  - inversion F as [|? ? D F']; subst. cbn [map dec_parse_loop]. destruct (Z.eqb_spec d 0) as [->|N].
    + destruct (IH p q (z + 1)%N F') as [d' [E V]]. exists d'. split; [exact E|]. rewrite V. cbn [digits_value length].
      rewrite N2Z.inj_add, Nat2Z.inj_succ. change (Z.of_N 1) with 1%Z.
      replace (Z.of_N z + 1 + Z.of_nat (length l))%Z with (Z.of_N z + Z.succ (Z.of_nat (length l)))%Z by lia.
      replace (Z.of_N q + (Z.of_N z + 1) + Z.of_nat (length l))%Z with (Z.of_N q + Z.of_N z + Z.succ (Z.of_nat (length l)))%Z by lia.
      reflexivity.
    + destruct (IH (p * ten_pow z * 10 + d)%Z (q + z + 1)%N 0%N F') as [d' [E V]]. exists d'. split; [exact E|]. rewrite V.
      cbn [digits_value length]. rewrite (digits_value_acc l (10 * 0 + d)). rewrite !N2Z.inj_add, Nat2Z.inj_succ. change (Z.of_N 0) with 0%Z. change (Z.of_N 1) with 1%Z.
      f_equal.
      * f_equal. unfold ten_pow. rewrite Z.add_0_l. replace (Z.of_N z + Z.succ (Z.of_nat (length l)))%Z with (Z.of_N z + 1 + Z.of_nat (length l))%Z by lia.
        rewrite !Z.pow_add_r by lia. change (10 ^ 1)%Z with 10%Z. ring.
      * f_equal. f_equal. lia.
Qed.

Lemma pad_zeros_spec : forall n r k, (k <= n)%nat -> (0 < r)%Z -> (r < 10 ^ Z.of_nat k)%Z ->
  exists j, (j <= k)%nat /\ pad_zeros n r (10 ^ Z.of_nat k) = map Dig (repeat 0%Z j) /\
    (10 ^ (Z.of_nat (k - j)) <= 10 * r)%Z /\ (r < 10 ^ Z.of_nat (k - j))%Z.
Proof.
  induction n as [|n IH]; intros r k K R B.
  - assert (k = 0)%nat as -> by lia. cbn in B. lia.
  - cbn [pad_zeros]. destruct (Z.ltb_spec (r * 10) (10 ^ Z.of_nat k)) as [L|L].
    + destruct k as [|k]; [cbn in B; lia|]. rewrite Nat2Z.inj_succ, Z.pow_succ_r in * by lia.
      unfold z_quot. rewrite Z.mul_comm, Z.div_mul by lia.
      destruct (IH r k) as [j [J [E [A C]]]]; [lia|exact R|lia|].
      exists (S j). split; [lia|]. split; [cbn [repeat map]; rewrite E; reflexivity|]. replace (S k - S j)%nat with (k - j)%nat by lia. auto.
    + exists 0%nat. split; [lia|]. split; [reflexivity|]. rewrite Nat.sub_0_r. lia.
Qed.

Lemma pow10_inj : forall a b r, (0 < r)%Z -> (10 ^ Z.of_nat a <= r < 10 ^ (Z.of_nat a + 1))%Z ->
  (10 ^ Z.of_nat b <= 10 * r)%Z -> (r < 10 ^ Z.of_nat b)%Z -> b = S a.
Proof.
  intros a b r R [A B] C D.
  assert (Z.of_nat a < Z.of_nat b)%Z by (apply (Z.pow_lt_mono_r_iff 10); lia).
  assert (Z.of_nat b < Z.of_nat a + 2)%Z.
  { apply (Z.pow_lt_mono_r_iff 10); [lia|lia|]. replace (Z.of_nat a + 2)%Z with (Z.succ (Z.of_nat a + 1)) by lia.
    rewrite Z.pow_succ_r by lia. lia. }
  lia.
Qed.

Lemma digits_nil : forall n, (0 <= n)%Z -> exists d l, digits n = d :: l /\ is_digit d.
Proof.
  intros n N. destruct (digits_spec n N) as [F V].
  destruct (digits n) as [|d l] eqn:E; [|inversion F; eauto].
  exfalso. destruct (Z.eq_dec n 0) as [->|Z]; [discriminate E|].
  destruct (digits_length n) as [j [J _]]; [lia|]. rewrite E in J. discriminate.
Qed.

Lemma digits_value_zeros : forall j acc, (digits_value acc (repeat 0 j) = acc * 10 ^ Z.of_nat j)%Z.
Proof.
  induction j as [|j IH]; intro acc; [cbn; lia|]. cbn [repeat digits_value]. rewrite IH, Nat2Z.inj_succ, Z.pow_succ_r by lia. lia.
Qed.

Lemma print_abs : forall p q, (0 <= p)%Z ->
  exists d, dec_parse_loop (map Dig (digits (z_quot p (ten_pow q))) ++ [Point] ++
     (if (p - z_quot p (ten_pow q) * ten_pow q =? 0)%Z then []
      else pad_zeros (N.to_nat q) (p - z_quot p (ten_pow q) * ten_pow q) (ten_pow q) ++
           map Dig (digits (p - z_quot p (ten_pow q) * ten_pow q)))) 0 0 0 false = Some d /\
    decval d = IZR p / IZR (ten_pow q).
Proof.
  intros p q P. pose proof (ten_pos q) as T. unfold z_quot. set (n := (p / ten_pow q)%Z). set (r := (p - n * ten_pow q)%Z).
  assert (N : (0 <= n)%Z) by (apply Z.div_pos; lia).
  assert (R : (0 <= r < ten_pow q)%Z).
  { pose proof (Z_div_mod_eq_full p (ten_pow q)). pose proof (Z.mod_pos_bound p (ten_pow q) T). unfold r, n. lia. }
  destruct (digits_spec n N) as [Fn Vn]. rewrite parse_integer by exact Fn. rewrite Vn. cbn [app dec_parse_loop].
  destruct (Z.eqb_spec r 0) as [E|E].
  - eexists. split; [reflexivity|]. rewrite decval_eq; cbn [dp dq]. change (ten_pow 0) with 1%Z.
    replace p with (n * ten_pow q)%Z by lia. rewrite mult_IZR. field. apply ten_nz.
  - assert (TQ : ten_pow q = (10 ^ Z.of_nat (N.to_nat q))%Z) by (unfold ten_pow; rewrite N_nat_Z; reflexivity).
    destruct (pad_zeros_spec (N.to_nat q) r (N.to_nat q)) as [j [J [Ep [A B]]]]; [lia|lia|rewrite <- TQ; lia|].
    rewrite <- TQ in Ep. rewrite Ep. rewrite <- map_app.
    destruct (digits_spec r) as [Fr Vr]; [lia|].
    destruct (digits_length r) as [i [I C]]; [lia|].
    assert (L : (N.to_nat q - j)%nat = S i) by (apply (pow10_inj i _ r); lia || exact C || exact A || exact B).
    destruct (parse_fraction (repeat 0%Z j ++ digits r) n 0 0) as [d [Ed Vd]].
    { apply Forall_app. split; [|exact Fr]. apply Forall_forall. intros x X. apply repeat_spec in X. subst x. unfold is_digit; lia. }
    exists d. split; [exact Ed|]. rewrite Vd. rewrite digits_value_app, digits_value_zeros, Z.mul_0_l, Vr.
    rewrite app_length, repeat_length, I. rewrite !Z.add_0_l.
    replace (Z.of_nat (j + S i)) with (Z.of_N q) by lia. fold (ten_pow q). f_equal. f_equal. unfold r. lia.
Qed.

Lemma print_parse : forall d, exists d', dec_parse (dec_print d) = Some d' /\ decval d' = decval d.
Proof.
  intros [p q]. unfold dec_print; cbn [dp dq].
  destruct (print_abs (Z.abs p) q) as [d [E V]]; [lia|].
  assert (N : (0 <= z_quot (Z.abs p) (ten_pow q))%Z) by (apply Z.div_pos; [lia|apply ten_pos]).
  destruct (Z.ltb_spec p 0) as [L|L].
  - assert (X : forall s, dec_parse ([Minus] ++ map Dig (digits (z_quot (Z.abs p) (ten_pow q))) ++ s) =
       option_map (fun d => mkDec (dp d * -1) (dq d)) (dec_parse_loop (map Dig (digits (z_quot (Z.abs p) (ten_pow q))) ++ s) 0 0 0 false)) by reflexivity.
    rewrite X, E. eexists. split; [reflexivity|]. rewrite !decval_eq in *; cbn [dp dq] in *.
    rewrite mult_IZR. replace (IZR (dp d) * -1 / IZR (ten_pow (dq d))) with (- (IZR (dp d) / IZR (ten_pow (dq d)))) by (field; apply ten_nz).
    rewrite V. rewrite Z.abs_neq, opp_IZR by lia. field. apply ten_nz.
  - rewrite app_nil_l. destruct (digits_nil _ N) as [c [l [Ed Dc]]].
    assert (X : forall s, dec_parse (map Dig (digits (z_quot (Z.abs p) (ten_pow q))) ++ s) =
       option_map (fun d => mkDec (dp d * 1) (dq d)) (dec_parse_loop (map Dig (digits (z_quot (Z.abs p) (ten_pow q))) ++ s) 0 0 0 false)).
    { intro s. rewrite Ed. reflexivity. }
    rewrite X, E. eexists. split; [reflexivity|]. rewrite !decval_eq in *; cbn [dp dq] in *. rewrite Z.mul_1_r, V, Z.abs_eq by lia. reflexivity.
Qed.

(** What a string of digits and one point reads as. *)
Lemma parse_value : forall l1 l2, Forall is_digit l1 -> Forall is_digit l2 ->
  exists d, dec_parse_loop (map Dig l1 ++ Point :: map Dig l2) 0 0 0 false = Some d /\
    decval d = IZR (digits_value 0 (l1 ++ l2)) / IZR (10 ^ Z.of_nat (length l2)).
Proof.
  intros l1 l2 F1 F2. rewrite parse_integer by exact F1. cbn [dec_parse_loop].
  destruct (parse_fraction l2 (digits_value 0 l1) 0 0 F2) as [d [E V]]. exists d. split; [exact E|].
  rewrite V, digits_value_app, (digits_value_acc l2 (digits_value 0 l1)). reflexivity.
Qed.
Lemma parse_second_point : forall l1 l2 s p q z, Forall is_digit l1 -> Forall is_digit l2 ->
  dec_parse_loop (map Dig l1 ++ Point :: map Dig l2 ++ Point :: s) p q z false = None.
Proof.
  assert (A : forall l2 s p q z, dec_parse_loop (map Dig l2 ++ Point :: s) p q z true = None).
  { induction l2 as [|d l2 IH]; intros; cbn [map app dec_parse_loop]; [reflexivity|]. destruct (d =? 0)%Z; apply IH. }
  induction l1 as [|d l1 IH]; intros l2 s p q z F1 F2; cbn [map app dec_parse_loop]; [apply A|].
  inversion F1; subst. apply IH; assumption.
Qed.

(** ** Built-in integers *)
Lemma nat64_small : forall k m, (0 <= m < 2 ^ 31 - 1)%Z -> z_of_nat64_from (S k) m = m.
Proof.
  intros k m M. cbn [z_of_nat64_from]. rewrite Z.div_small, Z.mod_small by exact M. reflexivity.
Qed.
Lemma nat64_medium : forall k m, (0 <= m < 2 ^ 32)%Z -> z_of_nat64_from (S (S k)) m = m.
Proof.
  intros k m M. cbn [z_of_nat64_from]. fold (z_of_nat64_from (S k)).
  set (x := (2 ^ 31 - 1)%Z). destruct (Z.eqb_spec (m / x) 0) as [E|E].
  - pose proof (Z_div_mod_eq_full m x). rewrite E in H. lia.
  - assert (B : (0 <= m / x < 2 ^ 31 - 1)%Z).
    { split; [apply Z.div_pos; unfold x; lia|]. apply Z.div_lt_upper_bound; unfold x; lia. }
    rewrite (Z.mod_small (m / x) (2 ^ 32)) by lia.
    change (m mod x + z_of_nat64_from (S k) (m / x) * x = m)%Z. rewrite nat64_small by exact B.
    pose proof (Z_div_mod_eq_full m x). lia.
Qed.
Lemma nat64_partial : forall m, (0 <= m < 2 ^ 32 * (2 ^ 31 - 1))%Z -> z_of_nat64 m = m.
Proof.
  intros m M. unfold z_of_nat64. cbn [z_of_nat64_from]. set (x := (2 ^ 31 - 1)%Z).
  change (2 ^ 32 * (2 ^ 31 - 1))%Z with (2 ^ 32 * x)%Z in M.
  assert (X : x = 2147483647%Z) by reflexivity.
  destruct (Z.eqb_spec (m / x) 0) as [E|E].
  - pose proof (Z_div_mod_eq_full m x). rewrite E in H. lia.
  - assert (B : (0 <= m / x < 2 ^ 32)%Z).
    { split; [apply Z.div_pos; lia|]. apply Z.div_lt_upper_bound; lia. }
    rewrite (Z.mod_small (m / x) (2 ^ 32)) by exact B.
    change (m mod x + z_of_nat64_from 3 (m / x) * x = m)%Z. rewrite nat64_medium by exact B.
    pose proof (Z_div_mod_eq_full m x). lia.
Qed.
Lemma int64_partial : forall n, (Z.abs n < 2 ^ 32 * (2 ^ 31 - 1))%Z -> z_of_int64 n = Some n.
Proof.
  intros n N. unfold z_of_int64. destruct (Z.ltb_spec n 0) as [L|L].
  - destruct (Z.eqb_spec n (- 2 ^ 63)) as [E|E]; [lia|]. rewrite nat64_partial by lia. f_equal. lia.
  - rewrite nat64_partial by lia. reflexivity.
Qed.

Lemma wrap_range : forall w z, (1 <= w)%Z -> (- 2 ^ (w - 1) <= wrap w z < 2 ^ (w - 1))%Z.
Proof.
  intros w z W. unfold wrap. assert (E : (2 ^ w = 2 * 2 ^ (w - 1))%Z).
  { rewrite <- Z.pow_succ_r by lia. f_equal. lia. }
  assert (0 < 2 ^ (w - 1))%Z by (apply Z.pow_pos_nonneg; lia).
  pose proof (Z.mod_pos_bound (z + 2 ^ (w - 1)) (2 ^ w) ltac:(lia)). lia.
Qed.
Lemma wrap_id : forall w z, (1 <= w)%Z -> (- 2 ^ (w - 1) <= z < 2 ^ (w - 1))%Z -> wrap w z = z.
Proof.
  intros w z W H. unfold wrap. assert (E : (2 ^ w = 2 * 2 ^ (w - 1))%Z).
  { rewrite <- Z.pow_succ_r by lia. f_equal. lia. }
  rewrite Z.mod_small by lia. lia.
Qed.
Lemma get_sound : forall w z, (1 <= w <= 62)%Z ->
  ((- 2 ^ (w - 1) <= z < 2 ^ (w - 1))%Z -> z_get w z = Some z) /\
  (~ (- 2 ^ (w - 1) <= z < 2 ^ (w - 1))%Z -> z_get w z = None).
Proof.
  intros w z W. assert (P : (2 ^ (w - 1) <= 2 ^ 61)%Z) by (apply Z.pow_le_mono_r; lia).
  assert (R := wrap_range w (mpz_get_si z) ltac:(lia)).
  assert (I : z_of_int64 (wrap w (mpz_get_si z)) = Some (wrap w (mpz_get_si z))) by (apply int64_partial; lia).
  unfold z_get. rewrite I. split; intro H.
  - assert (G : mpz_get_si z = z). { unfold mpz_get_si. rewrite Z.mod_small by lia. lia. }
    rewrite G, wrap_id by lia. rewrite Z.eqb_refl. reflexivity.
  - destruct (Z.eqb_spec (wrap w (mpz_get_si z)) z) as [E|E]; [|reflexivity]. exfalso. apply H. lia.
Qed.

(** ** Factorials and binomial coefficients *)
Fixpoint pascal (prev : Z) (l : list Z) : list Z :=
  match l with [] => [prev] | x :: l' => (prev + x)%Z :: pascal x l' end.
Fixpoint row (n : nat) : list Z := match n with O => [1%Z] | S k => pascal 0 (row k) end.

Lemma pascal_nth : forall l prev k, nth k (pascal prev l) 0%Z =
  ((if Nat.eqb k 0 then prev else nth (k - 1) l 0) + nth k l 0)%Z.
Proof.
  induction l as [|x l IH]; intros prev k; cbn [pascal].
  - destruct k as [|[|k]]; cbn; lia.
  - destruct k as [|k]; [reflexivity|]. cbn [nth]. rewrite IH. destruct k as [|k]; [reflexivity|].
    cbn [Nat.eqb Nat.sub nth]. rewrite Nat.sub_0_r. reflexivity.
Qed.
Lemma row_binomial : forall n k, nth k (row n) 0%Z = binomial n k.
Proof.
  induction n as [|n IH]; intro k; cbn [row binomial].
  - destruct k as [|[|k]]; reflexivity.
  - rewrite pascal_nth. destruct k as [|k].
    { cbn [Nat.eqb]. rewrite IH. destruct n; reflexivity. }
    cbn [Nat.eqb Nat.sub]. rewrite Nat.sub_0_r, !IH. reflexivity.
Qed.

Definition bin_ok (w bound : Z) (n : nat) : bool :=
  let r := row n in
  forallb (fun k => match bin_w w bound (Z.of_nat n) (Z.of_nat k) with Some z => Z.eqb z (nth k r 0%Z) | None => false end) (seq 0 (n + 2)).
Lemma bin_ok_sound : forall w bound n k, bin_ok w bound n = true -> (k <= n + 1)%nat ->
  bin_w w bound (Z.of_nat n) (Z.of_nat k) = Some (binomial n k).
Proof.
  intros w bound n k H K. unfold bin_ok in H. rewrite forallb_forall in H.
  specialize (H k ltac:(apply in_seq; lia)). destruct (bin_w w bound (Z.of_nat n) (Z.of_nat k)); [|discriminate].
  apply Z.eqb_eq in H. rewrite H, row_binomial. reflexivity.
Qed.
Lemma bin_all : forall w bound N, forallb (bin_ok w bound) (seq 0 N) = true ->
  forall n k, (n < N)%nat -> (k <= n + 1)%nat -> bin_w w bound (Z.of_nat n) (Z.of_nat k) = Some (binomial n k).
Proof.
  intros w bound N H n k L K. rewrite forallb_forall in H. apply bin_ok_sound; [|exact K]. apply H, in_seq. lia.
Qed.
Lemma bin16 : forallb (bin_ok 16 16) (seq 0 16) = true. Proof. vm_compute. reflexivity. Qed.
Lemma bin32 : forallb (bin_ok 32 31) (seq 0 31) = true. Proof. vm_compute. reflexivity. Qed.
Lemma bin64 : forallb (bin_ok 64 63) (seq 0 63) = true. Proof. vm_compute. reflexivity. Qed.
Lemma bin8 : forallb (bin_ok 32 32) (seq 0 31) = true. Proof. vm_compute. reflexivity. Qed.

Definition fac_ok (w bound : Z) (n : nat) : bool :=
  match fac_w w bound (Z.of_nat n) with Some z => Z.eqb z (factorial n) | None => false end.
Lemma fac_all : forall w bound N, forallb (fac_ok w bound) (seq 0 N) = true ->
  forall n, (n < N)%nat -> fac_w w bound (Z.of_nat n) = Some (factorial n).
Proof.
  intros w bound N H n L. rewrite forallb_forall in H. specialize (H n ltac:(apply in_seq; lia)).
  unfold fac_ok in H. destruct (fac_w w bound (Z.of_nat n)); [|discriminate]. apply Z.eqb_eq in H. congruence.
Qed.
Lemma fac16 : forallb (fac_ok 16 9) (seq 0 9) = true. Proof. vm_compute. reflexivity. Qed.
Lemma fac32 : forallb (fac_ok 32 13) (seq 0 13) = true. Proof. vm_compute. reflexivity. Qed.
Lemma fac64 : forallb (fac_ok 64 21) (seq 0 21) = true. Proof. vm_compute. reflexivity. Qed.
