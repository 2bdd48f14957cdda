(** * Basic facts on rounded floating-point operations *)

From Coq Require Import ZArith Reals Bool Lia Lra.
From Flocq Require Import Core IEEE754.BinarySingleNaN.
From Verif Require Import Float_Model Float_Spec.
Local Open Scope R_scope.

Section FP.
Context {prec emax : Z}
        {Hprec : Prec_gt_0 prec} {Hemax : Prec_lt_emax prec emax}.

Notation fl := (binary_float prec emax).
Notation rnd m r := (round radix2 (SpecFloat.fexp prec emax) (round_mode m) r).
Notation big := (bpow radix2 emax).

Instance valid_fexp : Valid_exp (SpecFloat.fexp prec emax) := fexp_correct prec emax Hprec.

(** [f] is the correct rounding of [r] in mode [m], overflow included. *)
Definition rounded (m : mode) (r : R) (f : fl) : Prop :=
  (Rabs (rnd m r) < big /\ is_finite f = true /\ B2R f = rnd m r)
  \/ (big <= Rabs (rnd m r) /\ B2SF f = binary_overflow prec emax m (Rlt_bool r 0)).

Lemma round_sign_pos m r : 0 <= r -> 0 <= rnd m r.
Proof.
  intros H. rewrite <- (round_0 radix2 (SpecFloat.fexp prec emax) (round_mode m)).
  apply round_le; auto with typeclass_instances.
Qed.
Lemma round_sign_neg m r : r <= 0 -> rnd m r <= 0.
Proof.
  intros H. rewrite <- (round_0 radix2 (SpecFloat.fexp prec emax) (round_mode m)).
  apply round_le; auto with typeclass_instances.
Qed.

Lemma big_pos : 0 < big. Proof. apply bpow_gt_0. Qed.

Lemma B2R_sign_neg (x : fl) : Bsign x = true -> B2R x <= 0.
Proof.
  destruct x as [s|s| |s m e H]; cbn; intros; subst; try lra.
  apply F2R_le_0. cbn. lia.
Qed.
Lemma B2R_sign_pos (x : fl) : Bsign x = false -> 0 <= B2R x.
Proof.
  destruct x as [s|s| |s m e H]; cbn; intros; subst; try lra.
  apply F2R_ge_0. cbn. lia.
Qed.

(** The sign computed by an overflowing operation is the sign of the real. *)
Lemma overflow_sign m r s :
  big <= Rabs (rnd m r) -> (s = true -> r <= 0) -> (s = false -> 0 <= r) ->
  s = Rlt_bool r 0.
Proof.
  intros H Hn Hp. destruct s.
  - specialize (Hn eq_refl). symmetry; apply Rlt_bool_true.
    destruct (Req_dec r 0) as [->|]; [|lra].
    rewrite round_0 in H by auto with typeclass_instances. rewrite Rabs_R0 in H.
    pose proof big_pos; lra.
  - specialize (Hp eq_refl). symmetry; apply Rlt_bool_false. lra.
Qed.

Lemma fadd_rounded m (x y : fl) :
  is_finite x = true -> is_finite y = true -> rounded m (B2R x + B2R y) (fadd m x y).
Proof.
  intros Fx Fy. pose proof (Bplus_correct prec emax Hprec Hemax m x y Fx Fy) as H.
  unfold rounded, fadd. destruct (Rlt_bool_spec (Rabs (rnd m (B2R x + B2R y))) big) as [L|L].
  - left. tauto.
  - right. split; auto. destruct H as [H S]. rewrite H. f_equal.
    apply (overflow_sign m); auto; intros E; rewrite E in S.
    + pose proof (B2R_sign_neg _ E). symmetry in S. pose proof (B2R_sign_neg _ S). lra.
    + pose proof (B2R_sign_pos _ E). symmetry in S. pose proof (B2R_sign_pos _ S). lra.
Qed.

Lemma fsub_rounded m (x y : fl) :
  is_finite x = true -> is_finite y = true -> rounded m (B2R x - B2R y) (fsub m x y).
Proof.
  intros Fx Fy. pose proof (Bminus_correct prec emax Hprec Hemax m x y Fx Fy) as H.
  unfold rounded, fsub. destruct (Rlt_bool_spec (Rabs (rnd m (B2R x - B2R y))) big) as [L|L].
  - left. tauto.
  - right. split; auto. destruct H as [H S]. rewrite H. f_equal.
    apply (overflow_sign m); auto; intros E; rewrite E in S.
    + pose proof (B2R_sign_neg _ E).
      assert (Bsign y = false) as S' by (destruct (Bsign y); auto; discriminate).
      pose proof (B2R_sign_pos _ S'). lra.
    + pose proof (B2R_sign_pos _ E).
      assert (Bsign y = true) as S' by (destruct (Bsign y); auto; discriminate).
      pose proof (B2R_sign_neg _ S'). lra.
Qed.

Lemma xorb_sign_mul (x y : fl) :
  (xorb (Bsign x) (Bsign y) = true -> B2R x * B2R y <= 0) /\
  (xorb (Bsign x) (Bsign y) = false -> 0 <= B2R x * B2R y).
Proof.
  pose proof (B2R_sign_neg x). pose proof (B2R_sign_pos x).
  pose proof (B2R_sign_neg y). pose proof (B2R_sign_pos y).
  destruct (Bsign x), (Bsign y); cbn; split; intros E; try discriminate;
    repeat match goal with H : ?a = ?a -> _ |- _ => specialize (H eq_refl) end; nra.
Qed.

Lemma fmul_rounded m (x y : fl) :
  is_finite x = true -> is_finite y = true -> rounded m (B2R x * B2R y) (fmul m x y).
Proof.
  intros Fx Fy. pose proof (Bmult_correct prec emax Hprec Hemax m x y) as H.
  unfold rounded, fmul. destruct (Rlt_bool_spec (Rabs (rnd m (B2R x * B2R y))) big) as [L|L].
  - left. rewrite Fx, Fy in H. tauto.
  - right. split; auto. rewrite H. f_equal.
    apply (overflow_sign m); auto; apply xorb_sign_mul.
Qed.

Lemma fdiv_rounded m (x y : fl) :
  is_finite x = true -> B2R y <> 0 -> rounded m (B2R x / B2R y) (fdiv m x y).
Proof.
  intros Fx Fy. pose proof (Bdiv_correct prec emax Hprec Hemax m x y Fy) as H.
  unfold rounded, fdiv. destruct (Rlt_bool_spec (Rabs (rnd m (B2R x / B2R y))) big) as [L|L].
  - left. rewrite Fx in H. tauto.
  - right. split; auto. rewrite H. f_equal.
    destruct (xorb_sign_mul x y) as [N P].
    assert (B2R x / B2R y = (B2R x * B2R y) * (/ B2R y * / B2R y)) as E by (field; auto).
    assert (0 < / B2R y * / B2R y).
    { assert (/ B2R y <> 0) by (apply Rinv_neq_0_compat; auto). nra. }
    apply (overflow_sign m); auto; intros S; rewrite E.
    + specialize (N S). nra.
    + specialize (P S). nra.
Qed.

Lemma ffma_rounded m (x y z : fl) :
  is_finite x = true -> is_finite y = true -> is_finite z = true ->
  rounded m (B2R x * B2R y + B2R z) (ffma m x y z).
Proof.
  intros Fx Fy Fz. pose proof (Bfma_correct prec emax Hprec Hemax m x y z Fx Fy Fz) as H.
  cbv zeta in H. unfold rounded, ffma.
  destruct (Rlt_bool_spec (Rabs (rnd m (B2R x * B2R y + B2R z))) big) as [L|L].
  - left. tauto.
  - right. split; auto.
Qed.

(** ** Directed rounding *)

Lemma overflow_max (f : fl) s m :
  B2SF f = binary_overflow prec emax m s -> overflow_to_inf m s = false ->
  is_finite f = true /\ Bsign f = s.
Proof.
  unfold binary_overflow. intros H E. rewrite E in H.
  destruct f as [s0|s0| |s0 mm e Hb]; cbn in H; try discriminate. inversion H; subst.
  split; reflexivity.
Qed.

Lemma round_UP_le r : r <= rnd mode_UP r.
Proof. apply round_UP_pt; auto with typeclass_instances. Qed.
Lemma round_DN_ge r : rnd mode_DN r <= r.
Proof. apply round_DN_pt; auto with typeclass_instances. Qed.

Lemma format_bpow_emax : generic_format radix2 (SpecFloat.fexp prec emax) big.
Proof.
  apply generic_format_bpow. unfold SpecFloat.fexp, SpecFloat.emin.
  pose proof Hprec; pose proof Hemax. unfold Prec_gt_0, Prec_lt_emax in *. lia.
Qed.

Lemma rounded_up_above r f : rounded mode_UP r f -> above f r.
Proof.
  intros [[L [F E]]|[L E]].
  - pose proof (round_UP_le r). unfold above. destruct f; try discriminate; cbn [B2R] in *; lra.
  - destruct (Rlt_bool_spec r 0) as [S|S].
    + destruct (overflow_max f true mode_UP E eq_refl) as [F Sf].
      assert (B2R f <= 0) by (apply B2R_sign_neg; auto).
      pose proof (round_sign_neg mode_UP r ltac:(lra)).
      rewrite Rabs_left1 in L by auto.
      assert (r <= - big) as G by (pose proof (round_UP_le r); lra).
      pose proof (abs_B2R_lt_emax prec emax f). rewrite Rabs_left1 in H1 by auto.
      unfold above; destruct f; try discriminate; cbn [B2R] in *; lra.
    + cbn in E. destruct f; try discriminate. cbn in E. inversion E. reflexivity.
Qed.

Lemma rounded_down_below r f : rounded mode_DN r f -> below f r.
Proof.
  intros [[L [F E]]|[L E]].
  - pose proof (round_DN_ge r). unfold below. destruct f; try discriminate; cbn [B2R] in *; lra.
  - destruct (Rlt_bool_spec r 0) as [S|S].
    + cbn in E. destruct f; try discriminate. cbn in E. inversion E. reflexivity.
    + destruct (overflow_max f false mode_DN E eq_refl) as [F Sf].
      assert (0 <= B2R f) by (apply B2R_sign_pos; auto).
      pose proof (round_sign_pos mode_DN r ltac:(lra)).
      rewrite Rabs_pos_eq in L by auto.
      assert (big <= r) as G by (pose proof (round_DN_ge r); lra).
      pose proof (abs_B2R_lt_emax prec emax f). rewrite Rabs_pos_eq in H1 by auto.
      unfold below; destruct f; try discriminate; cbn [B2R] in *; lra.
Qed.

Lemma rounded_not_nan m r f : rounded m r f -> is_nan f = false.
Proof.
  intros [[_ [F _]]|[_ E]].
  - destruct f; auto; discriminate.
  - destruct f; auto. unfold binary_overflow in E. destruct overflow_to_inf in E; discriminate.
Qed.

(** ** below/above *)

Lemma below_cases (f : fl) r : below f r ->
  (is_finite f = true /\ B2R f <= r) \/ f = B754_infinity true.
Proof. destruct f; cbn; intros; subst; auto; try tauto. Qed.
Lemma above_cases (f : fl) r : above f r ->
  (is_finite f = true /\ r <= B2R f) \/ f = B754_infinity false.
Proof. destruct f; cbn; intros; subst; auto; try tauto. Qed.
Lemma below_finite (f : fl) r : is_finite f = true -> (below f r <-> B2R f <= r).
Proof. destruct f; cbn; intros; try discriminate; tauto. Qed.
Lemma above_finite (f : fl) r : is_finite f = true -> (above f r <-> r <= B2R f).
Proof. destruct f; cbn; intros; try discriminate; tauto. Qed.
Lemma below_le (f : fl) r s : below f r -> r <= s -> below f s.
Proof. destruct f; cbn; intros; auto; lra. Qed.
Lemma above_ge (f : fl) r s : above f r -> s <= r -> above f s.
Proof. destruct f; cbn; intros; auto; lra. Qed.
Lemma below_not_nan (f : fl) r : below f r -> is_nan f = false.
Proof. destruct f; cbn; auto; tauto. Qed.
Lemma above_not_nan (f : fl) r : above f r -> is_nan f = false.
Proof. destruct f; cbn; auto; tauto. Qed.
Lemma below_fneg (f : fl) r : below (fneg f) (- r) <-> above f r.
Proof.
  destruct f as [s|s| |s m e H]; cbn -[B2R]; try tauto; try (cbn; lra).
  - destruct s; cbn; split; congruence.
  - change (B754_finite (negb s) m e H) with (Bopp (B754_finite s m e H)).
    rewrite B2R_Bopp. lra.
Qed.
Lemma above_fneg (f : fl) r : above (fneg f) (- r) <-> below f r.
Proof.
  destruct f as [s|s| |s m e H]; cbn -[B2R]; try tauto; try (cbn; lra).
  - destruct s; cbn; split; congruence.
  - change (B754_finite (negb s) m e H) with (Bopp (B754_finite s m e H)).
    rewrite B2R_Bopp. lra.
Qed.

(** ** Comparisons *)

Lemma gt0_finite (x : fl) : is_finite x = true -> (gt0 x = true <-> 0 < B2R x).
Proof.
  intros F. unfold gt0, fzero. rewrite Bltb_correct by auto. cbn [B2R].
  case Rlt_bool_spec; split; intros; auto; try discriminate; lra.
Qed.
Lemma lt0_finite (x : fl) : is_finite x = true -> (lt0 x = true <-> B2R x < 0).
Proof.
  intros F. unfold lt0, fzero. rewrite Bltb_correct by auto. cbn [B2R].
  case Rlt_bool_spec; split; intros; auto; try discriminate; lra.
Qed.
Lemma ge0_finite (x : fl) : is_finite x = true -> (ge0 x = true <-> 0 <= B2R x).
Proof.
  intros F. unfold ge0. rewrite negb_true_iff. pose proof (lt0_finite x F).
  destruct (lt0 x); split; intros; try discriminate; auto.
  - destruct H; specialize (H eq_refl). lra.
  - destruct (Rlt_or_le (B2R x) 0) as [L|L]; auto. apply H in L. discriminate.
Qed.
Lemma le0_finite (x : fl) : is_finite x = true -> (le0 x = true <-> B2R x <= 0).
Proof.
  intros F. unfold le0. rewrite negb_true_iff. pose proof (gt0_finite x F).
  destruct (gt0 x); split; intros; try discriminate; auto.
  - destruct H; specialize (H eq_refl). lra.
  - destruct (Rlt_or_le 0 (B2R x)) as [L|L]; auto. apply H in L. discriminate.
Qed.

Lemma flt_lt_finite (x y : fl) : is_finite x = true -> is_finite y = true ->
  (flt_lt x y = true <-> B2R x < B2R y).
Proof.
  intros Fx Fy. unfold flt_lt. rewrite Bltb_correct by auto.
  case Rlt_bool_spec; split; intros; auto; try discriminate; lra.
Qed.
Lemma flt_le_finite (x y : fl) : is_finite x = true -> is_finite y = true ->
  (flt_le x y = true <-> B2R x <= B2R y).
Proof.
  intros Fx Fy. unfold flt_le. rewrite Bleb_correct by auto.
  case Rle_bool_spec; split; intros; auto; try discriminate; lra.
Qed.

Lemma finite_sign_pos (x : fl) : is_finite x = true -> 0 < B2R x -> Bsign x = false.
Proof. intros F H. destruct (Bsign x) eqn:E; auto. pose proof (B2R_sign_neg x E). lra. Qed.
Lemma finite_sign_neg (x : fl) : is_finite x = true -> B2R x < 0 -> Bsign x = true.
Proof. intros F H. destruct (Bsign x) eqn:E; auto. pose proof (B2R_sign_pos x E). lra. Qed.

(** ** Sums *)

Lemma fadd_down_below (f g : fl) x y : below f x -> below g y -> below (fadd mode_DN f g) (x + y).
Proof.
  intros Hf Hg. destruct (below_cases _ _ Hf) as [[Ff Lf]| ->], (below_cases _ _ Hg) as [[Fg Lg]| ->].
  - apply below_le with (B2R f + B2R g); [|lra].
    apply rounded_down_below, fadd_rounded; auto.
  - destruct f; try discriminate; reflexivity.
  - destruct g; try discriminate; reflexivity.
  - reflexivity.
Qed.
Lemma fadd_up_above (f g : fl) x y : above f x -> above g y -> above (fadd mode_UP f g) (x + y).
Proof.
  intros Hf Hg. destruct (above_cases _ _ Hf) as [[Ff Lf]| ->], (above_cases _ _ Hg) as [[Fg Lg]| ->].
  - apply above_ge with (B2R f + B2R g); [|lra].
    apply rounded_up_above, fadd_rounded; auto.
  - destruct f; try discriminate; reflexivity.
  - destruct g; try discriminate; reflexivity.
  - reflexivity.
Qed.
Lemma fsub_down_below (f g : fl) x y : below f x -> above g y -> below (fsub mode_DN f g) (x - y).
Proof.
  intros Hf Hg. destruct (below_cases _ _ Hf) as [[Ff Lf]| ->], (above_cases _ _ Hg) as [[Fg Lg]| ->].
  - apply below_le with (B2R f - B2R g); [|lra].
    apply rounded_down_below, fsub_rounded; auto.
  - destruct f; try discriminate; reflexivity.
  - destruct g; try discriminate; reflexivity.
  - reflexivity.
Qed.
Lemma fsub_up_above (f g : fl) x y : above f x -> below g y -> above (fsub mode_UP f g) (x - y).
Proof.
  intros Hf Hg. destruct (above_cases _ _ Hf) as [[Ff Lf]| ->], (below_cases _ _ Hg) as [[Fg Lg]| ->].
  - apply above_ge with (B2R f - B2R g); [|lra].
    apply rounded_up_above, fsub_rounded; auto.
  - destruct f; try discriminate; reflexivity.
  - destruct g; try discriminate; reflexivity.
  - reflexivity.
Qed.

(** ** Products *)

(** Sign of a product with an infinite factor: [signed s g] says the factor
    [g] has the sign [s] or is zero. *)
Lemma fmul_inf_l m s (g : fl) : is_nan (fmul m (B754_infinity s) g) = false ->
  fmul m (B754_infinity s) g = B754_infinity (xorb s (Bsign g)).
Proof. destruct g; cbn; intros; auto; discriminate. Qed.
Lemma fmul_inf_r m s (g : fl) : is_nan (fmul m g (B754_infinity s)) = false ->
  fmul m g (B754_infinity s) = B754_infinity (xorb (Bsign g) s).
Proof. destruct g; cbn; intros; auto; discriminate. Qed.

Lemma finite_nonzero (g : fl) : is_finite g = true -> (exists s, g = B754_zero s) \/ B2R g <> 0.
Proof.
  destruct g as [s|s| |s m e H]; cbn; intros; try discriminate; [left; eauto|right].
  intros E. apply (eq_0_F2R radix2) in E. cbn in E. destruct s; discriminate.
Qed.

(** The conditions under which the rounded product bounds [r]. *)
Lemma fmul_up_above (f g : fl) r :
  is_nan (fmul mode_UP f g) = false ->
  (is_finite f = true -> is_finite g = true -> r <= B2R f * B2R g) ->
  (is_finite f = false -> is_finite g = true -> (f = B754_infinity true /\ B2R g <= 0) \/ (f = B754_infinity false /\ 0 <= B2R g)) ->
  (is_finite f = true -> is_finite g = false -> (g = B754_infinity true /\ B2R f <= 0) \/ (g = B754_infinity false /\ 0 <= B2R f)) ->
  (is_finite f = false -> is_finite g = false -> Bsign f = Bsign g) ->
  above (fmul mode_UP f g) r.
Proof.
  intros N HF H1 H2 H3. destruct (is_finite f) eqn:Ff, (is_finite g) eqn:Fg.
  - apply above_ge with (B2R f * B2R g); [|auto]. apply rounded_up_above, fmul_rounded; auto.
  - destruct (H2 eq_refl eq_refl) as [[-> S]|[-> S]]; (destruct (finite_nonzero f Ff) as [[s ->]|Z]; [discriminate|]);
      rewrite fmul_inf_r by auto.
    + rewrite (finite_sign_neg f Ff) by lra. reflexivity.
    + rewrite (finite_sign_pos f Ff) by lra. reflexivity.
  - destruct (H1 eq_refl eq_refl) as [[-> S]|[-> S]]; (destruct (finite_nonzero g Fg) as [[s ->]|Z]; [discriminate|]);
      rewrite fmul_inf_l by auto.
    + rewrite (finite_sign_neg g Fg) by lra. reflexivity.
    + rewrite (finite_sign_pos g Fg) by lra. reflexivity.
  - specialize (H3 eq_refl eq_refl).
    destruct f, g; cbn in *; try discriminate. subst. destruct s0; reflexivity.
Qed.

Lemma fmul_down_below (f g : fl) r :
  is_nan (fmul mode_DN f g) = false ->
  (is_finite f = true -> is_finite g = true -> B2R f * B2R g <= r) ->
  (is_finite f = false -> is_finite g = true -> (f = B754_infinity true /\ 0 <= B2R g) \/ (f = B754_infinity false /\ B2R g <= 0)) ->
  (is_finite f = true -> is_finite g = false -> (g = B754_infinity true /\ 0 <= B2R f) \/ (g = B754_infinity false /\ B2R f <= 0)) ->
  (is_finite f = false -> is_finite g = false -> Bsign f = negb (Bsign g)) ->
  below (fmul mode_DN f g) r.
Proof.
  intros N HF H1 H2 H3. destruct (is_finite f) eqn:Ff, (is_finite g) eqn:Fg.
  - apply below_le with (B2R f * B2R g); [|auto]. apply rounded_down_below, fmul_rounded; auto.
  - destruct (H2 eq_refl eq_refl) as [[-> S]|[-> S]]; (destruct (finite_nonzero f Ff) as [[s ->]|Z]; [discriminate|]);
      rewrite fmul_inf_r by auto.
    + rewrite (finite_sign_pos f Ff) by lra. reflexivity.
    + rewrite (finite_sign_neg f Ff) by lra. reflexivity.
  - destruct (H1 eq_refl eq_refl) as [[-> S]|[-> S]]; (destruct (finite_nonzero g Fg) as [[s ->]|Z]; [discriminate|]);
      rewrite fmul_inf_l by auto.
    + rewrite (finite_sign_pos g Fg) by lra. reflexivity.
    + rewrite (finite_sign_neg g Fg) by lra. reflexivity.
  - specialize (H3 eq_refl eq_refl).
    destruct f, g; cbn in *; try discriminate. subst. destruct s0; reflexivity.
Qed.

(** ** Minimum and maximum *)

Lemma below_fmax (f g : fl) x : below f x -> below g x -> below (fmax f g) x.
Proof. unfold fmax. destruct Bltb; auto. Qed.
Lemma above_fmin (f g : fl) x : above f x -> above g x -> above (fmin f g) x.
Proof. unfold fmin. destruct Bltb; auto. Qed.

Lemma Bltb_inf (s : bool) (g : fl) : is_nan g = false ->
  Bltb g (B754_infinity false) = true \/ g = B754_infinity false.
Proof. destruct g as [s'|[|]| |s' m e H]; cbn; intros; auto; try discriminate. Qed.

(** Two non-NaN floats are totally ordered, and the order agrees with that
    of the bounds they provide. *)
Lemma Bltb_true_above (f g : fl) x : Bltb f g = true -> above f x -> above g x.
Proof.
  intros L H. destruct (above_cases _ _ H) as [[F A]| ->].
  - destruct (is_finite g) eqn:Fg.
    + rewrite Bltb_correct in L by auto. apply above_finite; auto.
      revert L. case Rlt_bool_spec; intros; [lra|discriminate].
    + destruct g as [s|s| |s m e E]; try discriminate.
      * destruct s; [|reflexivity]. destruct f as [?|?| |[|] ? ? ?]; cbn in *; discriminate.
      * destruct f as [?|?| |? ? ? ?]; cbn in *; discriminate.
  - destruct g as [s|[|]| |[|] m e E]; cbn in L; discriminate.
Qed.
Lemma Bltb_true_below (f g : fl) x : Bltb f g = true -> below g x -> below f x.
Proof.
  intros L H. destruct (below_cases _ _ H) as [[F A]| ->].
  - destruct (is_finite f) eqn:Ff.
    + rewrite Bltb_correct in L by auto. apply below_finite; auto.
      revert L. case Rlt_bool_spec; intros; [lra|discriminate].
    + destruct f as [s|s| |s m e E]; try discriminate.
      * destruct s; [reflexivity|]. destruct g as [?|?| |[|] ? ? ?]; cbn in *; discriminate.
  - destruct f as [s|[|]| |[|] m e E]; cbn in L; discriminate.
Qed.
Lemma Bltb_false_above (f g : fl) x : is_nan f = false -> Bltb f g = false -> above g x -> above f x.
Proof.
  intros N L H. destruct (above_cases _ _ H) as [[F A]| ->].
  - destruct (is_finite f) eqn:Ff.
    + rewrite Bltb_correct in L by auto. apply above_finite; auto.
      revert L. case Rlt_bool_spec; intros; [discriminate|lra].
    + destruct f as [s|[|]| |s m e E]; try discriminate; try reflexivity.
      destruct g as [?|?| |[|] ? ? ?]; cbn in *; discriminate.
  - destruct f as [s|[|]| |[|] m e E]; cbn in L; try discriminate. reflexivity.
Qed.
Lemma Bltb_false_below (f g : fl) x : is_nan g = false -> Bltb f g = false -> below f x -> below g x.
Proof.
  intros N L H. destruct (below_cases _ _ H) as [[F A]| ->].
  - destruct (is_finite g) eqn:Fg.
    + rewrite Bltb_correct in L by auto. apply below_finite; auto.
      revert L. case Rlt_bool_spec; intros; [discriminate|lra].
    + destruct g as [s|[|]| |s m e E]; try discriminate; try reflexivity.
      destruct f as [?|?| |[|] ? ? ?]; cbn in *; discriminate.
  - destruct g as [s|[|]| |[|] m e E]; cbn in L; try discriminate. reflexivity.
Qed.

Lemma above_fmax_l (f g : fl) x : above f x -> above (fmax f g) x.
Proof.
  intros H. unfold fmax. destruct (Bltb f g) eqn:L; auto. eapply Bltb_true_above; eauto.
Qed.
Lemma above_fmax_r (f g : fl) x : is_nan f = false -> above g x -> above (fmax f g) x.
Proof.
  intros N H. unfold fmax. destruct (Bltb f g) eqn:L; auto. eapply Bltb_false_above; eauto.
Qed.
Lemma below_fmin_l (f g : fl) x : below f x -> below (fmin f g) x.
Proof.
  intros H. unfold fmin. destruct (Bltb g f) eqn:L; auto. eapply Bltb_true_below; eauto.
Qed.
Lemma below_fmin_r (f g : fl) x : is_nan f = false -> below g x -> below (fmin f g) x.
Proof.
  intros N H. unfold fmin. destruct (Bltb g f) eqn:L; auto. eapply Bltb_false_below; eauto.
Qed.

(** ** Constants *)
Lemma fone_val : B2R (fone : fl) = 1. Proof. apply Bone_correct. Qed.
Lemma fone_finite : is_finite (fone : fl) = true. Proof. apply is_finite_Bone. Qed.

End FP.
