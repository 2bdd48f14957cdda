(** * Proofs about Error, UpperBound and LowerBound *)

From Coq Require Import ZArith NArith Reals List Bool Lia Lra Psatz.
From Flocq Require Import Core IEEE754.BinarySingleNaN.
From Verif Require Import Float_Model Float_Spec Float_Proofs Bounds_Model Bounds_Spec Bounds_Proofs Ball_Model Ball_Proofs LRU_Model
  ErrBound_Model ErrBound_Spec.
Import ListNotations.
Local Open Scope R_scope.

Section EP.
Context {prec emax : Z}
        {Hprec : Prec_gt_0 prec} {Hemax : Prec_lt_emax prec emax}.
Notation fl := (binary_float prec emax).
Notation fexp := (SpecFloat.fexp prec emax).
Notation rnd m r := (round radix2 fexp (round_mode m) r).
Notation big := (bpow radix2 emax).
Existing Instance valid_fexp.

Lemma normalize_rounded m mx ex s : rounded m (F2R (Float radix2 mx ex)) (binary_normalize prec emax Hprec Hemax m mx ex s).
Proof.
  pose proof (binary_normalize_correct prec emax Hprec Hemax m mx ex s) as H. cbv zeta in H.
  unfold rounded. revert H. case Rlt_bool_spec; intros L H; [left|right]; tauto.
Qed.

Lemma fnat_rounded m n : rounded m (IZR (Z.of_N n)) (fnat m n : fl).
Proof.
  replace (IZR (Z.of_N n)) with (F2R (Float radix2 (Z.of_N n) 0)) by (unfold F2R; cbn; ring).
  apply normalize_rounded.
Qed.
Lemma fnat_up_above n : above (fnat up n : fl) (IZR (Z.of_N n)).
Proof. apply rounded_up_above, fnat_rounded. Qed.
Lemma of_N_ge1 n : n <> 0%N -> 1 <= IZR (Z.of_N n).
Proof. intros H. apply IZR_le. lia. Qed.
Lemma fnat_down n : n <> 0%N -> is_finite (fnat down n : fl) = true /\ 0 < B2R (fnat down n : fl) <= IZR (Z.of_N n).
Proof.
  intros H. pose proof (of_N_ge1 n H) as G. pose proof (fnat_rounded down n) as K.
  assert (0 <= IZR (Z.of_N n)) as G0 by lra. destruct (rounded_down_finite_pos _ _ G0 K) as [F P].
  pose proof (rounded_down_below _ _ K) as B. apply (proj1 (below_finite _ _ F)) in B.
  split; auto. split; auto.
  destruct K as [[_ [_ E]]|[L E]].
  - rewrite E. apply Rlt_le_trans with (rnd down 1).
    + assert (rnd down 1 = 1) as ->; [|lra]. apply round_generic; [auto with typeclass_instances|].
      pose proof (generic_format_B2R prec emax (fone : fl)) as G1. rewrite fone_val in G1. exact G1.
    + apply round_le; auto with typeclass_instances.
  - rewrite Rlt_bool_false in E by lra. destruct (finite_nonzero _ F) as [[s E0]|N0].
    + rewrite E0 in E. discriminate.
    + lra.
Qed.

(** ** Single operations *)
Lemma gt0_above (h : fl) r : above h r -> 0 < r -> gt0 h = true.
Proof.
  intros A P. destruct (above_cases _ _ A) as [[F L]| ->]; [|reflexivity]. apply gt0_finite; auto. lra.
Qed.
Lemma er_mul_above (f g : fl) x y : 0 <= x -> 0 <= y -> above f x -> above g y ->
  is_nan (fmul up f g) = false -> above (fmul up f g) (x * y).
Proof.
  intros Hx Hy A B N. apply fmul_up_above; auto.
  - intros F G. apply (proj1 (above_finite _ _ F)) in A. apply (proj1 (above_finite _ _ G)) in B. nra.
  - intros F G. right. apply (proj1 (above_finite _ _ G)) in B.
    destruct (above_cases _ _ A) as [[F' _]| ->]; [congruence|]. split; auto. lra.
  - intros F G. right. apply (proj1 (above_finite _ _ F)) in A.
    destruct (above_cases _ _ B) as [[G' _]| ->]; [congruence|]. split; auto. lra.
  - intros F G. destruct (above_cases _ _ A) as [[F' _]| ->]; [congruence|].
    destruct (above_cases _ _ B) as [[G' _]| ->]; [congruence|]. reflexivity.
Qed.
Lemma fsqr_up_nonneg (f : fl) x : 0 <= x -> above f x -> above (fsqr up f) (x * x).
Proof.
  intros H A. apply er_mul_above; auto. destruct (above_cases _ _ A) as [[F L]| ->]; [|reflexivity].
  exact (rounded_not_nan _ _ _ (fmul_rounded up f f F F)).
Qed.
Lemma sign_nonneg (g : fl) : is_finite g = true -> 0 <= B2R g -> (exists s, g = B754_zero s) \/ Bsign g = false.
Proof.
  intros F P. destruct (finite_nonzero g F) as [H|H]; auto. right. apply finite_sign_pos; auto. lra.
Qed.
Lemma er_fma_above (f g h : fl) x y z : 0 <= x -> 0 <= y -> 0 <= z -> above f x -> above g y -> above h z ->
  is_nan (ffma up f g h) = false -> above (ffma up f g h) (x * y + z).
Proof.
  intros Hx Hy Hz A B C N.
  destruct (above_cases _ _ A) as [[F A']|Ef]; destruct (above_cases _ _ B) as [[G B']|Eg];
  destruct (above_cases _ _ C) as [[H C']|Eh].
  - apply above_ge with (B2R f * B2R g + B2R h); [apply rounded_up_above, ffma_rounded; auto|nra].
  - subst h. destruct f; try discriminate; destruct g; try discriminate; reflexivity.
  - subst g. destruct (sign_nonneg f F ltac:(lra)) as [[s ->]|S].
    + destruct h; discriminate.
    + destruct f; try discriminate; cbn in S; subst; destruct h; try discriminate; reflexivity.
  - subst g h. destruct (sign_nonneg f F ltac:(lra)) as [[s ->]|S]; [discriminate|].
    destruct f; try discriminate; cbn in S; subst; reflexivity.
  - subst f. destruct (sign_nonneg g G ltac:(lra)) as [[s ->]|S].
    + destruct h; discriminate.
    + destruct g; try discriminate; cbn in S; subst; destruct h; try discriminate; reflexivity.
  - subst f h. destruct (sign_nonneg g G ltac:(lra)) as [[s ->]|S]; [discriminate|].
    destruct g; try discriminate; cbn in S; subst; reflexivity.
  - subst. destruct h; try discriminate; reflexivity.
  - subst. reflexivity.
Qed.
Lemma er_div_above (f d : fl) x y : 0 <= x -> above f x -> is_finite d = true -> 0 < B2R d <= y ->
  above (fdiv up f d) (x / y).
Proof.
  intros Hx A F P. destruct (above_cases _ _ A) as [[G L]| ->].
  - apply fdiv_up_above; auto; [lra|]. apply div_le_pos; try lra. nra.
  - rewrite fdiv_inf_by by auto. rewrite finite_sign_pos by (auto; lra). reflexivity.
Qed.
Lemma max_above (f g : fl) x y : above f x -> above g y -> above (fmax f g) (Rmax x y).
Proof.
  intros A B. unfold Rmax. destruct Rle_dec; [apply above_fmax_r; eauto using above_not_nan|apply above_fmax_l; auto].
Qed.
Lemma min_above (f g : fl) x y : above f x -> above g y -> above (fmin f g) (Rmin x y).
Proof.
  intros A B. apply above_fmin; eapply above_ge; eauto; [apply Rmin_l|apply Rmin_r].
Qed.
Lemma max_below (f g : fl) x y : below f x -> below g y -> below (fmax f g) (Rmax x y).
Proof.
  intros A B. apply below_fmax; eapply below_le; eauto; [apply Rmax_l|apply Rmax_r].
Qed.
Lemma min_below (f g : fl) x y : below f x -> below g y -> below (fmin f g) (Rmin x y).
Proof.
  intros A B. unfold Rmin. destruct Rle_dec; [apply below_fmin_l; auto|apply below_fmin_r; eauto using below_not_nan].
Qed.

(** ** Expressions *)
Lemma ee_real_nonneg rho e : (forall i, 0 <= rho i) -> ee_defined e -> 0 <= ee_real rho e.
Proof.
  intros H. induction e; cbn [ee_real ee_defined]; intros D; auto.
  all: try destruct D as [D1 D2].
  - specialize (IHe1 D1); specialize (IHe2 D2); lra.
  - specialize (IHe1 D1); specialize (IHe2 D2); nra.
  - specialize (IHe D); nra.
  - destruct D2. specialize (IHe1 D1); specialize (IHe2 ltac:(auto)); specialize (IHe3 ltac:(auto)); nra.
  - specialize (IHe1 D1); specialize (IHe2 D2). unfold Rmax; destruct Rle_dec; lra.
  - specialize (IHe1 D1); specialize (IHe2 D2). unfold Rmin; destruct Rle_dec; lra.
  - specialize (IHe D). pose proof (IZR_le 0 (Z.of_N n) ltac:(lia)). lra.
  - specialize (IHe D2). pose proof (of_N_ge1 n D1). nra.
  - specialize (IHe D2). pose proof (of_N_ge1 n D1).
    apply Rmult_le_pos; auto. apply Rlt_le, Rinv_0_lt_compat. lra.
Qed.

Lemma in_subs_self e : In e (ee_subs e).
Proof. destruct e; cbn; auto. Qed.

Lemma ee_above (env : nat -> fl) rho e : (forall i, 0 <= rho i /\ above (env i) (rho i)) -> ee_defined e ->
  (forall s, In s (ee_subs e) -> is_nan (ee_eval env s) = false) -> above (ee_eval env e) (ee_real rho e).
Proof.
  intros H. assert (forall i, 0 <= rho i) as H0 by (intros; apply H).
  induction e; cbn [ee_real ee_defined ee_eval]; intros D N; try apply H.
  all: pose proof (N _ (in_subs_self _)) as NN; cbn [ee_eval] in NN.
  all: try destruct D as [D1 D2].
  - apply fadd_up_above; [apply IHe1|apply IHe2]; auto; intros; apply N; cbn; rewrite in_app_iff; auto.
  - apply er_mul_above; auto using ee_real_nonneg; [apply IHe1|apply IHe2]; auto; intros; apply N; cbn; rewrite in_app_iff; auto.
  - apply er_mul_above; auto using ee_real_nonneg; apply IHe; auto; intros; apply N; cbn; auto.
  - destruct D2 as [D2 D3]. apply er_fma_above; auto using ee_real_nonneg; [apply IHe1|apply IHe2|apply IHe3]; auto; intros; apply N; cbn; rewrite !in_app_iff; auto.
  - apply max_above; [apply IHe1|apply IHe2]; auto; intros; apply N; cbn; rewrite in_app_iff; auto.
  - apply min_above; [apply IHe1|apply IHe2]; auto; intros; apply N; cbn; rewrite in_app_iff; auto.
  - apply fadd_up_above; [|apply fnat_up_above]. apply IHe; auto; intros; apply N; cbn; auto.
  - apply er_mul_above; auto using ee_real_nonneg, fnat_up_above.
    + apply IZR_le. lia.
    + apply IHe; auto; intros; apply N; cbn; auto.
  - destruct (fnat_down n D1) as [F P]. apply er_div_above; auto using ee_real_nonneg.
    apply IHe; auto; intros; apply N; cbn; auto.
Qed.

(** With positive leaves nothing becomes a NaN. *)
Lemma gt0_pos (f : fl) : gt0 f = true -> exists r, 0 < r /\ above f r.
Proof.
  intros G. destruct f as [s|[|]| |s m e B] eqn:E; try discriminate.
  - exists 1. split; [lra|reflexivity].
  - exists (B2R f). subst f. split; [apply gt0_finite; auto|]. apply above_finite; auto. lra.
Qed.
Lemma gt0_fmul (f g : fl) : gt0 f = true -> gt0 g = true -> gt0 (fmul up f g) = true.
Proof.
  intros A B. destruct (gt0_pos f A) as (x & Px & Ax), (gt0_pos g B) as (y & Py & Ay).
  apply (fmul_up_pos f g x y); auto; lra.
Qed.
Lemma gt0_not_nan (f : fl) : gt0 f = true -> is_nan f = false.
Proof. destruct f; auto. Qed.
Lemma gt0_fma (f g h : fl) : gt0 f = true -> gt0 g = true -> gt0 h = true -> gt0 (ffma up f g h) = true.
Proof.
  intros A B C. destruct (gt0_pos f A) as (x & Px & Ax), (gt0_pos g B) as (y & Py & Ay), (gt0_pos h C) as (z & Pz & Az).
  apply gt0_above with (x * y + z); [|nra]. apply er_fma_above; auto; try lra.
  destruct (is_finite f) eqn:F; destruct (is_finite g) eqn:G; destruct (is_finite h) eqn:H.
  1: exact (rounded_not_nan _ _ _ (ffma_rounded up f g h F G H)).
  all: destruct f as [|[|]| |[|]]; try discriminate; destruct g as [|[|]| |[|]]; try discriminate;
       destruct h as [|[|]| |[|]]; try discriminate; reflexivity.
Qed.
Lemma ee_pos (env : nat -> fl) e : (forall i, gt0 (env i) = true) -> ee_defined e -> gt0 (ee_eval env e) = true.
Proof.
  intros H. induction e; cbn [ee_defined ee_eval]; intros D; auto.
  all: try destruct D as [D1 D2].
  - destruct (gt0_pos _ (IHe1 D1)) as (x & Px & Ax), (gt0_pos _ (IHe2 D2)) as (y & Py & Ay).
    apply gt0_above with (x + y); [apply fadd_up_above; auto|lra].
  - apply gt0_fmul; auto.
  - apply gt0_fmul; auto.
  - destruct D2. apply gt0_fma; auto.
  - unfold er_max, fmax. destruct Bltb; auto.
  - unfold er_min, fmin. destruct Bltb; auto.
  - destruct (gt0_pos _ (IHe D)) as (x & Px & Ax). pose proof (IZR_le 0 (Z.of_N n) ltac:(lia)).
    apply gt0_above with (x + IZR (Z.of_N n)); [apply fadd_up_above; auto; apply fnat_up_above|lra].
  - apply gt0_fmul; auto. eapply gt0_above; [apply fnat_up_above|]. pose proof (of_N_ge1 n D1). lra.
  - destruct (gt0_pos _ (IHe D2)) as (x & Px & Ax). destruct (fnat_down n D1) as [F P].
    apply gt0_above with (x / IZR (Z.of_N n)); [apply er_div_above; auto; lra|].
    apply Rdiv_lt_0_compat; lra.
Qed.
Lemma ee_defined_subs e s : ee_defined e -> In s (ee_subs e) -> ee_defined s.
Proof.
  revert s. induction e; cbn [ee_defined ee_subs In]; intros s D [<-|I]; auto; try contradiction.
  all: try (cbn [ee_defined]; tauto).
  all: try (apply in_app_iff in I; destruct I as [I|I]).
  all: try (apply in_app_iff in I; destruct I as [I|I]).
  all: try (apply IHe1; tauto). all: try (apply IHe2; tauto). all: try (apply IHe3; tauto). all: apply IHe; tauto.
Qed.
Lemma ee_above_pos (env : nat -> fl) rho e : (forall i, gt0 (env i) = true) -> (forall i, 0 <= rho i /\ above (env i) (rho i)) ->
  ee_defined e -> above (ee_eval env e) (ee_real rho e).
Proof.
  intros P H D. apply ee_above; auto. intros s I. apply gt0_not_nan, ee_pos; auto. eapply ee_defined_subs; eauto.
Qed.

(** ** Upper and lower bounds times positive bounds *)
Lemma ub_mul_pb_above (p : bounds prec emax) (u : fl) x y : contains p x -> 0 <= x -> below (b_l p) x ->
  is_finite (b_l p) = true -> 0 <= B2R (b_l p) -> above u y -> is_nan (ub_mul_pb p u) = false ->
  above (ub_mul_pb p u) (x * y).
Proof.
  intros [Lo Up] Hx _ F P A N. unfold ub_mul_pb in *. apply (proj1 (below_finite _ _ F)) in Lo.
  destruct (ge0 u) eqn:G.
  - apply above_ge with (x * Rmax y 0).
    + destruct (above_cases _ _ A) as [[Fu L]|Eu].
      * apply er_mul_above; auto; [apply Rmax_r|]. apply above_finite; auto.
        apply (ge0_finite _ Fu) in G. unfold Rmax; destruct Rle_dec; auto.
      * apply er_mul_above; auto; [apply Rmax_r|]. subst u. reflexivity.
    + apply Rmult_le_compat_l; auto. apply Rmax_l.
  - assert (lt0 u = true) as S by (unfold ge0 in G; destruct (lt0 u); auto).
    destruct (above_cases _ _ A) as [[Fu L]|Eu]; [|subst u; discriminate].
    apply (lt0_finite _ Fu) in S.
    apply above_ge with (B2R (b_l p) * B2R u); [apply rounded_up_above, fmul_rounded; auto|]. nra.
Qed.
Lemma lb_mul_pb_below (p : bounds prec emax) (l : fl) x y : contains p x -> 0 <= x ->
  is_finite (b_l p) = true -> 0 <= B2R (b_l p) -> below l y -> is_nan (lb_mul_pb p l) = false ->
  below (lb_mul_pb p l) (x * y).
Proof.
  intros [Lo Up] Hx F P A N. unfold lb_mul_pb in *. apply (proj1 (below_finite _ _ F)) in Lo.
  destruct (ge0 l) eqn:G.
  - destruct (below_cases _ _ A) as [[Fl L]|El]; [|subst l; discriminate].
    apply (ge0_finite _ Fl) in G.
    apply below_le with (B2R (b_l p) * B2R l); [apply rounded_down_below, fmul_rounded; auto|]. nra.
  - assert (lt0 l = true) as S by (unfold ge0 in G; destruct (lt0 l); auto).
    apply fmul_down_below; auto.
    + intros Fu Fl. apply (lt0_finite _ Fl) in S. apply (proj1 (below_finite _ _ Fl)) in A.
      apply (proj1 (above_finite _ _ Fu)) in Up. nra.
    + intros Fu Fl. right. apply (lt0_finite _ Fl) in S.
      destruct (above_cases _ _ Up) as [[Fu' _]| ->]; [congruence|]. split; auto. lra.
    + intros Fu Fl. left. apply (proj1 (above_finite _ _ Fu)) in Up.
      destruct (below_cases _ _ A) as [[Fl' _]| ->]; [congruence|]. split; auto. lra.
    + intros Fu Fl. destruct (below_cases _ _ A) as [[Fl' _]| ->]; [congruence|].
      destruct (above_cases _ _ Up) as [[Fu' _]| ->]; [congruence|]. reflexivity.
Qed.
Lemma ub_div_pb_above (p : bounds prec emax) (u : fl) x y : contains p x ->
  is_finite (b_l p) = true -> 0 < B2R (b_l p) -> above u y ->
  above (ub_div_pb u p) (y / x).
Proof.
  intros [Lo Up] F P A. unfold ub_div_pb in *. apply (proj1 (below_finite _ _ F)) in Lo.
  destruct (ge0 u) eqn:G.
  - apply above_ge with (Rmax y 0 / x).
    + apply er_div_above; auto; [apply Rmax_r|].
      destruct (above_cases _ _ A) as [[Fu L]|Eu]; [|subst u; reflexivity].
      apply above_finite; auto. apply (ge0_finite _ Fu) in G. unfold Rmax; destruct Rle_dec; auto.
    + unfold Rdiv. apply Rmult_le_compat_r; [apply Rlt_le, Rinv_0_lt_compat; lra|apply Rmax_l].
  - assert (lt0 u = true) as S by (unfold ge0 in G; destruct (lt0 u); auto).
    destruct (above_cases _ _ A) as [[Fu L]|Eu]; [|subst u; discriminate].
    apply (lt0_finite _ Fu) in S.
    destruct (above_cases _ _ Up) as [[Fp Lp]|Ep].
    + apply fdiv_up_above; auto; [lra|]. apply div_le_pos; try lra. nra.
    + rewrite Ep. destruct (fdiv_by_inf up u false Fu) as [s' ->]. cbn.
      replace 0 with (0 / x) by (field; lra). apply div_le_pos; try lra. nra.
Qed.
Lemma lb_div_pb_below (p : bounds prec emax) (l : fl) x y : contains p x ->
  is_finite (b_l p) = true -> 0 < B2R (b_l p) -> below l y ->
  below (lb_div_pb l p) (y / x).
Proof.
  intros [Lo Up] F P A. unfold lb_div_pb in *. apply (proj1 (below_finite _ _ F)) in Lo.
  destruct (ge0 l) eqn:G.
  - destruct (below_cases _ _ A) as [[Fl L]|El]; [|subst l; discriminate].
    apply (ge0_finite _ Fl) in G.
    destruct (above_cases _ _ Up) as [[Fp Lp]|Ep].
    + apply fdiv_down_below; auto; [lra|]. apply div_le_pos; try lra. nra.
    + rewrite Ep. destruct (fdiv_by_inf down l false Fl) as [s' ->]. cbn.
      replace 0 with (0 / x) by (field; lra). apply div_le_pos; try lra. nra.
  - assert (lt0 l = true) as S by (unfold ge0 in G; destruct (lt0 l); auto).
    destruct (below_cases _ _ A) as [[Fl L]|El].
    + apply (lt0_finite _ Fl) in S. apply fdiv_down_below; auto; [lra|]. apply div_le_pos; try lra. nra.
    + subst l. rewrite fdiv_inf_by by auto. rewrite finite_sign_pos by (auto; lra). reflexivity.
Qed.

(** Positive upper / lower bounds. *)
Lemma pu_rec_above (l : fl) x : is_finite l = true -> 0 < B2R l <= x -> above (frec up l) (/ x).
Proof.
  intros F P. replace (/ x) with (1 / x) by (field; lra). apply er_div_above; auto; [lra|].
  apply above_finite; [apply fone_finite|rewrite fone_val; lra].
Qed.
Lemma pl_div_below (f d : fl) x y : is_finite f = true -> 0 <= B2R f <= x -> above d y -> 0 < y ->
  below (fdiv down f d) (x / y).
Proof.
  intros F Hx A P. destruct (above_cases _ _ A) as [[G L]| ->].
  - apply fdiv_down_below; auto; [lra|]. apply div_le_pos; try lra. nra.
  - destruct (fdiv_by_inf down f false F) as [s' ->]. cbn.
    replace 0 with (0 / y) by (field; lra). apply div_le_pos; try lra. nra.
Qed.

(** Powers. *)
Lemma to_int_small n : (n < 2 ^ 31)%N -> to_int n = Z.of_N n.
Proof.
  intros H. unfold to_int. cbv zeta. rewrite Z.mod_small by lia. destruct (Z.ltb_spec (Z.of_N n) (2 ^ 31)); auto. lia.
Qed.
Lemma er_pow_above (u : fl) x n : (n < 2 ^ 31)%N -> 0 <= x -> above u x ->
  exists r, er_pow u n = Ret r /\ above r (x ^ N.to_nat n).
Proof.
  intros H Hx A. unfold er_pow. rewrite to_int_small by auto. unfold fpowi.
  rewrite (proj2 (Z.leb_le 0 (Z.of_N n))) by lia. rewrite N2Z.id. eexists. split; [reflexivity|].
  apply fpow_up_nonneg; auto.
Qed.
End EP.

(** ** Conversions *)
Section CP.
Context {p1 e1 p2 e2 : Z} {Hp : Prec_gt_0 p2} {He : Prec_lt_emax p2 e2}.
Lemma fconv_rounded m (x : binary_float p1 e1) : is_finite x = true ->
  rounded m (B2R x) (fconv (p2:=p2) (e2:=e2) m x).
Proof.
  destruct x as [s|s| |s mx ex B]; intros F; try discriminate.
  - left. cbn [B2R fconv]. rewrite round_0 by (destruct m; auto with typeclass_instances).
    rewrite Rabs_R0. split; [apply bpow_gt_0|]. split; reflexivity.
  - cbn [B2R fconv]. apply normalize_rounded.
Qed.
Lemma fconv_up_above (x : binary_float p1 e1) r : above x r -> above (fconv (p2:=p2) (e2:=e2) up x) r.
Proof.
  intros A. destruct (above_cases _ _ A) as [[F L]| ->]; [|reflexivity].
  eapply above_ge; [|exact L]. apply rounded_up_above, fconv_rounded; auto.
Qed.
Lemma fconv_down_below (x : binary_float p1 e1) r : below x r -> below (fconv (p2:=p2) (e2:=e2) down x) r.
Proof.
  intros A. destruct (below_cases _ _ A) as [[F L]| ->]; [|reflexivity].
  eapply below_le; [|exact L]. apply rounded_down_below, fconv_rounded; auto.
Qed.
End CP.
