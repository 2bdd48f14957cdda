(** Proofs about bounds and balls over exact numbers. *)
From Coq Require Import ZArith NArith QArith Qreals Reals List Lia Lra Bool Psatz.
From Flocq Require Import Core.
From Coquelicot Require Import Rbar.
From Verif Require Import Exact_Model Exact_Spec Exact_Proofs Exact_Dyadic_Proofs.
Import ListNotations.
Local Open Scope R_scope.

(** ** Rational bounds *)

Lemma in_fin : forall l u r, in_rbounds (mkRB (Fin l) (Fin u)) r <-> Q2R l <= r <= Q2R u.
Proof. intros. reflexivity. Qed.

(** A rational whose value is [r]. *)
Lemma mean_fin : forall x r, rmean x = Some (Finite r) -> exists q, x = Fin q /\ Q2R q = r.
Proof. intros [q| | |] r H; try discriminate. injection H as H. eauto. Qed.

Lemma rmul_fin : forall a b, rmean (r_mul (Fin a) (Fin b)) = Some (Finite (Q2R a * Q2R b)).
Proof. intros. rewrite r_mul_sound. reflexivity. Qed.
Lemma radd_fin : forall a b, rmean (r_add (Fin a) (Fin b)) = Some (Finite (Q2R a + Q2R b)).
Proof. intros. apply (add_sound _ _ _ q_exact); exact I. Qed.
Lemma rsub_fin : forall a b, rmean (r_sub (Fin a) (Fin b)) = Some (Finite (Q2R a - Q2R b)).
Proof. intros. apply (sub_sound _ _ _ q_exact (Fin a) (Fin b)); exact I. Qed.
Lemma rneg_fin : forall a, rmean (r_neg (Fin a)) = Some (Finite (- Q2R a)).
Proof. intros. apply (neg_sound _ _ _ q_exact (Fin a)); exact I. Qed.
Lemma rhlf_fin : forall a, rmean (r_hlf (Fin a)) = Some (Finite (Q2R a / 2)).
Proof. intros. apply (hlf_sound _ _ _ q_exact (Fin a)); exact I. Qed.
Lemma rsqr_fin : forall a, rmean (r_sqr (Fin a)) = Some (Finite (Q2R a * Q2R a)).
Proof. intros. apply (sqr_sound _ _ _ q_exact (Fin a)); exact I. Qed.
Lemma rmax_fin : forall x y a b, rmean x = Some (Finite a) -> rmean y = Some (Finite b) -> rmean (r_max x y) = Some (Finite (Rmax a b)).
Proof.
  intros x y a b Hx Hy. destruct (max_sound _ _ _ q_exact x y _ _ Hx Hy) as [c [E [[->| ->] [A B]]]]; cbn in A, B;
  unfold r_max; unfold rmean; rewrite E; do 2 f_equal; [rewrite Rmax_left|rewrite Rmax_right]; lra.
Qed.
Lemma rmin_fin : forall x y a b, rmean x = Some (Finite a) -> rmean y = Some (Finite b) -> rmean (r_min x y) = Some (Finite (Rmin a b)).
Proof.
  intros x y a b Hx Hy. destruct (min_sound _ _ _ q_exact x y _ _ Hx Hy) as [c [E [[->| ->] [A B]]]]; cbn in A, B;
  unfold r_min; unfold rmean; rewrite E; do 2 f_equal; [rewrite Rmin_left|rewrite Rmin_right]; lra.
Qed.
Lemma rdiv_fin : forall a b, Q2R b <> 0 -> exists z, r_div (Fin a) (Fin b) = Some z /\ rmean z = Some (Finite (Q2R a / Q2R b)).
Proof.
  intros a b H. destruct (div_sound (Fin a) (Fin b)) as [z [E M]]; [cbn; congruence|]. exists z. split; [exact E|]. exact M.
Qed.
Lemma rrec_fin : forall b, Q2R b <> 0 -> exists z, r_rec (Fin b) = Some z /\ rmean z = Some (Finite (/ Q2R b)).
Proof.
  intros b H. destruct (rec_sound (Fin b)) as [z [E M]]; [cbn; congruence|]. exists z. split; [exact E|]. exact M.
Qed.

Lemma in_mean : forall x y a b r, rmean x = Some (Finite a) -> rmean y = Some (Finite b) ->
  a <= r <= b -> in_rbounds (mkRB x y) r.
Proof. intros x y a b r Hx Hy H. unfold in_rbounds; cbn [r_l r_u]. rewrite Hx, Hy. exact H. Qed.

Lemma zero_mean : rmean (r_of_z 0) = Some (Finite 0).
Proof. cbn. unfold Q2R; cbn. do 2 f_equal. field. Qed.

Lemma ge0 : forall q, r_ge (Fin q) (r_of_z 0) = true <-> 0 <= Q2R q.
Proof. intro q. rewrite (ge_sound (Fin q) (r_of_z 0) _ _ eq_refl zero_mean). reflexivity. Qed.
Lemma le0 : forall q, r_le (Fin q) (r_of_z 0) = true <-> Q2R q <= 0.
Proof. intro q. rewrite (le_sound (Fin q) (r_of_z 0) _ _ eq_refl zero_mean). reflexivity. Qed.
Lemma gt0 : forall q, r_gt (Fin q) (r_of_z 0) = true <-> 0 < Q2R q.
Proof. intro q. rewrite (gt_sound (Fin q) (r_of_z 0) _ _ eq_refl zero_mean). reflexivity. Qed.
Lemma lt0 : forall q, r_lt (Fin q) (r_of_z 0) = true <-> Q2R q < 0.
Proof. intro q. rewrite (lt_sound (Fin q) (r_of_z 0) _ _ eq_refl zero_mean). reflexivity. Qed.
Lemma ge0f : forall q, r_ge (Fin q) (r_of_z 0) = false <-> Q2R q < 0.
Proof. intro q. rewrite <- not_true_iff_false, ge0. split; intro; lra. Qed.
Lemma le0f : forall q, r_le (Fin q) (r_of_z 0) = false <-> 0 < Q2R q.
Proof. intro q. rewrite <- not_true_iff_false, le0. split; intro; lra. Qed.
Lemma gt0f : forall q, r_gt (Fin q) (r_of_z 0) = false <-> Q2R q <= 0.
Proof. intro q. rewrite <- not_true_iff_false, gt0. split; intro; lra. Qed.
Lemma lt0f : forall q, r_lt (Fin q) (r_of_z 0) = false <-> 0 <= Q2R q.
Proof. intro q. rewrite <- not_true_iff_false, lt0. split; intro; lra. Qed.

Ltac tests := repeat match goal with
  | H : r_ge (Fin _) (r_of_z 0) = true |- _ => apply ge0 in H
  | H : r_ge (Fin _) (r_of_z 0) = false |- _ => apply ge0f in H
  | H : r_le (Fin _) (r_of_z 0) = true |- _ => apply le0 in H
  | H : r_le (Fin _) (r_of_z 0) = false |- _ => apply le0f in H
  | H : r_gt (Fin _) (r_of_z 0) = true |- _ => apply gt0 in H
  | H : r_gt (Fin _) (r_of_z 0) = false |- _ => apply gt0f in H
  | H : r_lt (Fin _) (r_of_z 0) = true |- _ => apply lt0 in H
  | H : r_lt (Fin _) (r_of_z 0) = false |- _ => apply lt0f in H
  end.

(** Monotonicity of products, in the forms used below. *)
Lemma mul_mono : forall a b x, a <= b -> 0 <= x -> a * x <= b * x.
Proof. intros. nra. Qed.
Lemma mul_anti : forall a b x, a <= b -> x <= 0 -> b * x <= a * x.
Proof. intros. nra. Qed.
(** The product [x*y] lies between values of the four corner products. *)
Lemma mul_between : forall al au bl bu x y, al <= x <= au -> bl <= y <= bu ->
  (x * bl <= x * y <= x * bu \/ x * bu <= x * y <= x * bl) /\
  (al * bl <= x * bl <= au * bl \/ au * bl <= x * bl <= al * bl) /\
  (al * bu <= x * bu <= au * bu \/ au * bu <= x * bu <= al * bu).
Proof.
  intros al au bl bu x y [A B] [C D]. split; [|split].
  - destruct (Rle_dec 0 x); [left|right]; split; nra.
  - destruct (Rle_dec 0 bl); [left|right]; split; nra.
  - destruct (Rle_dec 0 bu); [left|right]; split; nra.
Qed.

Lemma rb_mul_in : forall a b x y, finite_rb a -> finite_rb b -> in_rbounds a x -> in_rbounds b y ->
  in_rbounds (rb_mul a b) (x * y).
Proof.
  intros a b x y [al [au ->]] [bl [bu ->]] Hx Hy. apply (proj1 (in_fin _ _ _)) in Hx. apply (proj1 (in_fin _ _ _)) in Hy.
  unfold rb_mul; cbn [r_l r_u].
  destruct (r_ge (Fin al) (r_of_z 0)) eqn:T1; [|destruct (r_le (Fin au) (r_of_z 0)) eqn:T2];
    (destruct (r_ge (Fin bl) (r_of_z 0)) eqn:T3; [|destruct (r_le (Fin bu) (r_of_z 0)) eqn:T4]); tests;
    try (eapply in_mean; [apply rmul_fin|apply rmul_fin|]; split; nra).
  eapply in_mean; [apply rmin_fin; apply rmul_fin|apply rmax_fin; apply rmul_fin|].
  destruct (Rle_dec 0 x); destruct (Rle_dec 0 y);
    pose proof (Rmin_l (Q2R au * Q2R bl) (Q2R al * Q2R bu)); pose proof (Rmin_r (Q2R au * Q2R bl) (Q2R al * Q2R bu));
    pose proof (Rmax_l (Q2R al * Q2R bl) (Q2R au * Q2R bu)); pose proof (Rmax_r (Q2R al * Q2R bl) (Q2R au * Q2R bu)); split; nra.
Qed.

Lemma ob2_mean : forall l u z w a b, l = Some z -> u = Some w -> rmean z = Some (Finite a) -> rmean w = Some (Finite b) ->
  exists c, ob2 l u = Some c /\ forall r, a <= r <= b -> in_rbounds c r.
Proof.
  intros l u z w a b -> -> Hz Hw. exists (mkRB z w). split; [reflexivity|]. intros r H. exact (in_mean z w a b r Hz Hw H).
Qed.

Lemma div_mono : forall a b d, a <= b -> 0 < d -> a / d <= b / d.
Proof. intros. unfold Rdiv. apply Rmult_le_compat_r; [|assumption]. apply Rlt_le, Rinv_0_lt_compat; assumption. Qed.

Lemma whole_line : forall r, in_rbounds (mkRB NInf PInf) r.
Proof. intro r. split; exact I. Qed.

Lemma div_ineq : forall x y a d, y <> 0 -> d <> 0 ->
  (0 < y * d -> (x / y <= a / d <-> x * d <= a * y)) /\ (y * d < 0 -> (x / y <= a / d <-> a * y <= x * d)).
Proof.
  intros x y a d Y D. assert (E : (a / d - x / y) * (y * d) = a * y - x * d) by (field; auto).
  split; intro P; split; intro H; nra.
Qed.

Lemma rb_div_in : forall a b x y, finite_rb a -> finite_rb b -> in_rbounds a x -> in_rbounds b y -> y <> 0 ->
  exists c, rb_div a b = Some c /\ in_rbounds c (x / y).
Proof.
  intros a b x y [al [au ->]] [bl [bu ->]] Hx Hy Y. apply (proj1 (in_fin _ _ _)) in Hx. apply (proj1 (in_fin _ _ _)) in Hy.
  unfold rb_div; cbn [r_l r_u].
  assert (G : forall n1 d1 n2 d2, Q2R d1 <> 0 -> Q2R d2 <> 0 ->
     Q2R n1 / Q2R d1 <= x / y <= Q2R n2 / Q2R d2 ->
     exists c, ob2 (r_div (Fin n1) (Fin d1)) (r_div (Fin n2) (Fin d2)) = Some c /\ in_rbounds c (x / y)).
  { intros n1 d1 n2 d2 D1 D2 H. destruct (rdiv_fin n1 d1 D1) as [z [Ez Mz]]. destruct (rdiv_fin n2 d2 D2) as [w [Ew Mw]].
    destruct (ob2_mean _ _ z w _ _ Ez Ew Mz Mw) as [c [Ec Hc]]. exists c. split; [exact Ec|]. apply Hc, H. }
  assert (LE : forall n d, Q2R d <> 0 -> (0 < y * Q2R d -> x * Q2R d <= Q2R n * y) -> (y * Q2R d < 0 -> Q2R n * y <= x * Q2R d) ->
     x / y <= Q2R n / Q2R d).
  { intros n d D P N. destruct (div_ineq x y (Q2R n) (Q2R d) Y D) as [A B].
    destruct (Rtotal_order (y * Q2R d) 0) as [S|[S|S]]; [apply B; auto| |apply A; auto].
    apply Rmult_integral in S as [S|S]; contradiction. }
  assert (GE : forall n d, Q2R d <> 0 -> (0 < y * Q2R d -> Q2R n * y <= x * Q2R d) -> (y * Q2R d < 0 -> x * Q2R d <= Q2R n * y) ->
     Q2R n / Q2R d <= x / y).
  { intros n d D P N. destruct (div_ineq (Q2R n) (Q2R d) x y D Y) as [A B].
    destruct (Rtotal_order (y * Q2R d) 0) as [S|[S|S]]; [apply B; [lra|auto]| |apply A; [lra|auto]].
    apply Rmult_integral in S as [S|S]; contradiction. }
  destruct (r_gt (Fin bl) (r_of_z 0)) eqn:T1; [|destruct (r_lt (Fin bu) (r_of_z 0)) eqn:T2].
  - destruct (r_ge (Fin al) (r_of_z 0)) eqn:T3; [|destruct (r_le (Fin au) (r_of_z 0)) eqn:T4]; tests;
      (apply G; [lra|lra|split; [apply GE|apply LE]; try lra; intros; nra]).
  - destruct (r_ge (Fin al) (r_of_z 0)) eqn:T3; [|destruct (r_le (Fin au) (r_of_z 0)) eqn:T4]; tests;
      (apply G; [lra|lra|split; [apply GE|apply LE]; try lra; intros; nra]).
  - exists (mkRB NInf PInf). split; [reflexivity|apply whole_line].
Qed.

Lemma rb_rec_in : forall a x, finite_rb a -> in_rbounds a x -> x <> 0 ->
  exists c, rb_rec a = Some c /\ in_rbounds c (/ x).
Proof.
  intros a x [al [au ->]] Hx X. apply (proj1 (in_fin _ _ _)) in Hx. unfold rb_rec; cbn [r_l r_u].
  destruct (r_gt (Fin al) (r_of_z 0) || r_lt (Fin au) (r_of_z 0)) eqn:T.
  - apply orb_true_iff in T.
    assert (NZ : Q2R al <> 0 /\ Q2R au <> 0) by (destruct T as [T|T]; tests; lra). destruct NZ as [NA NB].
    destruct (rrec_fin al NA) as [z [Ez Mz]]. destruct (rrec_fin au NB) as [w [Ew Mw]].
    destruct (ob2_mean _ _ w z _ _ Ew Ez Mw Mz) as [c [Ec Hc]]. exists c. split; [exact Ec|]. apply Hc.
    destruct T as [T|T]; tests.
    + split; apply Rinv_le_contravar; lra.
    + split; apply Ropp_le_cancel; rewrite <- !Rinv_opp; apply Rinv_le_contravar; lra.
  - exists (mkRB NInf PInf). split; [reflexivity|apply whole_line].
Qed.

Lemma rb_sqr_in : forall a x, finite_rb a -> in_rbounds a x -> in_rbounds (rb_sqr a) (x * x).
Proof.
  intros a x [al [au ->]] Hx. apply (proj1 (in_fin _ _ _)) in Hx. unfold rb_sqr; cbn [r_l r_u].
  destruct (r_gt (Fin al) (r_of_z 0)) eqn:T1; [|destruct (r_lt (Fin au) (r_of_z 0)) eqn:T2]; tests.
  - eapply in_mean; [apply rsqr_fin|apply rsqr_fin|]. split; nra.
  - eapply in_mean; [apply rsqr_fin|apply rsqr_fin|]. split; nra.
  - eapply in_mean; [apply zero_mean|apply rmax_fin; apply rsqr_fin|].
    pose proof (Rmax_l (Q2R al * Q2R al) (Q2R au * Q2R au)). pose proof (Rmax_r (Q2R al * Q2R al) (Q2R au * Q2R au)).
    destruct (Rle_dec 0 x); split; nra.
Qed.

Lemma rb_linear_in : forall a b x y, finite_rb a -> finite_rb b -> in_rbounds a x -> in_rbounds b y ->
  in_rbounds (rb_add a b) (x + y) /\ in_rbounds (rb_sub a b) (x - y) /\ in_rbounds (rb_neg a) (- x).
Proof.
  intros a b x y [al [au ->]] [bl [bu ->]] Hx Hy. apply (proj1 (in_fin _ _ _)) in Hx. apply (proj1 (in_fin _ _ _)) in Hy. split; [|split].
  - eapply in_mean; [apply radd_fin|apply radd_fin|lra].
  - eapply in_mean; [apply rsub_fin|apply rsub_fin|lra].
  - eapply in_mean; [apply rneg_fin|apply rneg_fin|lra].
Qed.

Lemma rb_abs_in : forall a x, finite_rb a -> in_rbounds a x -> in_rbounds (rb_abs a) (Rabs x).
Proof.
  intros a x [al [au ->]] Hx. apply (proj1 (in_fin _ _ _)) in Hx.
  eapply in_mean; [apply rmax_fin; [apply rmin_fin; [reflexivity|apply rneg_fin]|apply zero_mean]
                  |apply rmax_fin; [apply rneg_fin|reflexivity]|].
  pose proof (Rmin_l (Q2R al) (- Q2R au)). pose proof (Rmin_r (Q2R al) (- Q2R au)).
  pose proof (Rmax_l (- Q2R al) (Q2R au)). pose proof (Rmax_r (- Q2R al) (Q2R au)). pose proof (Rabs_pos x).
  split.
  - apply Rmax_lub; [|lra]. unfold Rabs; destruct (Rcase_abs x); lra.
  - unfold Rabs; destruct (Rcase_abs x); lra.
Qed.

Lemma rb_lattice_in : forall a b x y, finite_rb a -> finite_rb b -> in_rbounds a x -> in_rbounds b y ->
  in_rbounds (rb_max a b) (Rmax x y) /\ in_rbounds (rb_min a b) (Rmin x y).
Proof.
  intros a b x y [al [au ->]] [bl [bu ->]] Hx Hy. apply (proj1 (in_fin _ _ _)) in Hx. apply (proj1 (in_fin _ _ _)) in Hy. split.
  - eapply in_mean; [apply rmax_fin; reflexivity|apply rmax_fin; reflexivity|].
    pose proof (Rmax_l x y); pose proof (Rmax_r x y).
    pose proof (Rmax_l (Q2R au) (Q2R bu)); pose proof (Rmax_r (Q2R au) (Q2R bu)).
    split; apply Rmax_lub; lra.
  - eapply in_mean; [apply rmin_fin; reflexivity|apply rmin_fin; reflexivity|].
    pose proof (Rmin_l x y); pose proof (Rmin_r x y).
    pose proof (Rmin_l (Q2R al) (Q2R bl)); pose proof (Rmin_r (Q2R al) (Q2R bl)).
    split; apply Rmin_glb; lra.
Qed.

(** Odd powers are monotone. *)
Lemma odd_pow_mono : forall n x y, Nat.odd n = true -> x <= y -> x ^ n <= y ^ n.
Proof.
  assert (S : forall k x y, x <= y -> x ^ (2 * k + 1) <= y ^ (2 * k + 1)).
  { intros k x y H. assert (E : forall z, z ^ (2 * k + 1) = z * (z ^ k * z ^ k)).
    { intro z. rewrite pow_add, pow_mult. cbn [pow]. rewrite Rpow_mult_distr, Rpow_mult_distr, pow1. ring. }
    destruct (Rle_dec 0 x) as [P|P].
    - apply pow_incr. lra.
    - destruct (Rle_dec 0 y) as [Q|Q].
      + rewrite !E. assert (0 <= x ^ k * x ^ k) by nra. assert (0 <= y ^ k * y ^ k) by nra. nra.
      + assert (M : (- y) ^ (2 * k + 1) <= (- x) ^ (2 * k + 1)) by (apply pow_incr; lra).
        rewrite !E in *. assert (D : forall z, (- z) ^ k * (- z) ^ k = z ^ k * z ^ k).
        { intro z. rewrite <- !Rpow_mult_distr. f_equal. ring. }
        rewrite !D in M. nra. }
  intros n x y O H. apply Nat.odd_spec in O as [k ->]. apply S, H.
Qed.
Lemma rb_pow_odd_in : forall a x m, N.odd m = true -> finite_rb a -> in_rbounds a x ->
  in_rbounds (rb_pow a m) (x ^ N.to_nat m).
Proof.
  intros a x m O [al [au ->]] Hx. apply (proj1 (in_fin _ _ _)) in Hx. unfold rb_pow; cbn [r_l r_u].
  assert (ON : Nat.odd (N.to_nat m) = true).
  { apply N.odd_spec in O as [k ->]. apply Nat.odd_spec. exists (N.to_nat k). lia. }
  eapply in_mean; [rewrite pow_sound; apply xpow_some|rewrite pow_sound; apply xpow_some|].
  split; apply odd_pow_mono; assumption || lra.
Qed.

(** Comparisons and refinement. *)
Lemma fin_mean : forall q, rmean (Fin q) = Some (Finite (Q2R q)). Proof. reflexivity. Qed.
Lemma lt_fin : forall p q, r_lt (Fin p) (Fin q) = true <-> Q2R p < Q2R q.
Proof. intros. rewrite (lt_sound _ _ _ _ (fin_mean p) (fin_mean q)). reflexivity. Qed.
Lemma le_fin : forall p q, r_le (Fin p) (Fin q) = true <-> Q2R p <= Q2R q.
Proof. intros. rewrite (le_sound _ _ _ _ (fin_mean p) (fin_mean q)). reflexivity. Qed.
Lemma ge_fin : forall p q, r_ge (Fin p) (Fin q) = true <-> Q2R q <= Q2R p.
Proof. intros. rewrite (ge_sound _ _ _ _ (fin_mean p) (fin_mean q)). reflexivity. Qed.
Lemma gt_fin : forall p q, r_gt (Fin p) (Fin q) = true <-> Q2R q < Q2R p.
Proof. intros. rewrite (gt_sound _ _ _ _ (fin_mean p) (fin_mean q)). reflexivity. Qed.

Lemma rb_compare_sound : forall a b x y, finite_rb a -> finite_rb b -> in_rbounds a x -> in_rbounds b y ->
  (forall t, rb_eqs a b = Some t -> (t = true <-> x = y)) /\
  (forall t, rb_les a b = Some t -> (t = true <-> x <= y)) /\
  (forall t, rb_lts a b = Some t -> (t = true <-> x < y)).
Proof.
  intros a b x y [al [au ->]] [bl [bu ->]] Hx Hy. apply (proj1 (in_fin _ _ _)) in Hx. apply (proj1 (in_fin _ _ _)) in Hy.
  unfold rb_eqs, rb_les, rb_lts; cbn [r_l r_u]. split; [|split]; intros t H.
  - destruct (_ && _) eqn:A.
    + apply andb_true_iff in A as [A B]. apply ge_fin in A. apply le_fin in B. injection H as <-. split; [intro; lra|reflexivity].
    + destruct (_ || _) eqn:B; [|discriminate]. injection H as <-. apply orb_true_iff in B as [B|B];
        [apply gt_fin in B|apply lt_fin in B]; split; intro; try discriminate; lra.
  - destruct (r_le _ _) eqn:A; [apply le_fin in A; injection H as <-; split; [intro; lra|reflexivity]|].
    destruct (r_gt _ _) eqn:B; [|discriminate]. apply gt_fin in B. injection H as <-. split; intro; try discriminate; lra.
  - destruct (r_lt _ _) eqn:A; [apply lt_fin in A; injection H as <-; split; [intro; lra|reflexivity]|].
    destruct (r_ge _ _) eqn:B; [|discriminate]. apply ge_fin in B. injection H as <-. split; intro; try discriminate; lra.
Qed.

Lemma rb_sets_sound : forall a b, finite_rb a -> finite_rb b ->
  (forall x, in_rbounds (rb_refinement a b) x <-> in_rbounds a x /\ in_rbounds b x) /\
  (forall x, in_rbounds a x \/ in_rbounds b x -> in_rbounds (rb_coarsening a b) x) /\
  (rb_refines a b = true -> forall x, in_rbounds a x -> in_rbounds b x) /\
  (rb_inconsistent a b = true -> forall x, ~ (in_rbounds a x /\ in_rbounds b x)).
Proof.
  intros a b [al [au ->]] [bl [bu ->]].
  assert (MX : forall p q, rmean (r_max (Fin p) (Fin q)) = Some (Finite (Rmax (Q2R p) (Q2R q)))) by (intros; apply rmax_fin; reflexivity).
  assert (MN : forall p q, rmean (r_min (Fin p) (Fin q)) = Some (Finite (Rmin (Q2R p) (Q2R q)))) by (intros; apply rmin_fin; reflexivity).
  split; [|split; [|split]].
  - intro x. unfold rb_refinement; cbn [r_l r_u]. unfold in_rbounds at 1; cbn [r_l r_u]. rewrite MX, MN. rewrite !in_fin. cbn [Rbar_le].
    split.
    + intros [A B]. pose proof (Rmax_l (Q2R al) (Q2R bl)); pose proof (Rmax_r (Q2R al) (Q2R bl)).
      pose proof (Rmin_l (Q2R au) (Q2R bu)); pose proof (Rmin_r (Q2R au) (Q2R bu)). lra.
    + intros [A B]. split; [apply Rmax_lub|apply Rmin_glb]; lra.
  - intros x H. unfold rb_coarsening; cbn [r_l r_u]. unfold in_rbounds; cbn [r_l r_u]. rewrite MX, MN. rewrite !in_fin in H. cbn [Rbar_le].
    pose proof (Rmax_l (Q2R au) (Q2R bu)); pose proof (Rmax_r (Q2R au) (Q2R bu)).
    pose proof (Rmin_l (Q2R al) (Q2R bl)); pose proof (Rmin_r (Q2R al) (Q2R bl)). lra.
  - unfold rb_refines; cbn [r_l r_u]. intros H x. apply andb_true_iff in H as [A B]. apply ge_fin in A. apply le_fin in B.
    rewrite !in_fin. lra.
  - unfold rb_inconsistent; cbn [r_l r_u]. intros H x. rewrite !in_fin.
    apply orb_true_iff in H as [H|H]; [apply gt_fin in H|apply lt_fin in H]; lra.
Qed.

(** ** Dyadic bounds and balls *)

Lemma in_dfin : forall l u r, in_dbounds (mkDB (Fin l) (Fin u)) r <-> dval l <= r <= dval u.
Proof. intros. reflexivity. Qed.
Lemma in_dmean : forall x y a b r, dmean x = Some (Finite a) -> dmean y = Some (Finite b) ->
  a <= r <= b -> in_dbounds (mkDB x y) r.
Proof. intros x y a b r Hx Hy H. unfold in_dbounds; cbn [d_l d_u]. rewrite Hx, Hy. exact H. Qed.

(** Operations on finite numbers of bounded size, with the size of the result. *)
Definition dfin (s t : Z) (x : dyadic) (r : R) : Prop := exists a, x = Fin a /\ sized s t a /\ dval a = r.

Lemma dfin_mean : forall s t x r, dfin s t x r -> dmean x = Some (Finite r).
Proof. intros s t x r [a [-> [_ <-]]]. reflexivity. Qed.
Lemma dfin_weak : forall s t s' t' x r, (0 <= s <= s')%Z -> (t <= t')%Z -> dfin s t x r -> dfin s' t' x r.
Proof.
  intros s t s' t' x r S T [a [-> [[A B] <-]]]. exists a. split; [reflexivity|]. split; [|reflexivity]. split; [|lia].
  eapply Z.lt_le_trans; [exact A|]. apply Z.pow_le_mono_r; lia.
Qed.

Lemma dfin_add : forall s t x y a b, (0 <= s)%Z -> (0 <= t)%Z -> (s + 2 * t + 1 <= maximum_precision)%Z ->
  dfin s t x a -> dfin s t y b -> dfin (s + 2 * t + 1) t (d_add x y) (a + b).
Proof.
  intros s t x y a b S T C [f [-> [Sf <-]]] [g [-> [Sg <-]]]. unfold d_add; cbn [x_add dops d_ops f_add].
  rewrite (trunc_id maximum_precision (s + 2 * t + 1)); [|unfold maximum_precision in *; lia|exact C|apply addx_sized; assumption].
  eexists; split; [reflexivity|]. split; [apply addx_sized; assumption|apply addx_val].
Qed.
Lemma dfin_sub : forall s t x y a b, (0 <= s)%Z -> (0 <= t)%Z -> (s + 2 * t + 1 <= maximum_precision)%Z ->
  dfin s t x a -> dfin s t y b -> dfin (s + 2 * t + 1) t (d_sub x y) (a - b).
Proof.
  intros s t x y a b S T C [f [-> [Sf <-]]] [g [-> [Sg <-]]]. unfold d_sub; cbn [x_sub dops d_ops f_sub].
  assert (Sn := sized_neg _ _ _ Sg).
  rewrite (trunc_id maximum_precision (s + 2 * t + 1)); [|unfold maximum_precision in *; lia|exact C|apply addx_sized; assumption].
  eexists; split; [reflexivity|]. split; [apply addx_sized; assumption|]. rewrite addx_val, negx_val. ring.
Qed.
Lemma dfin_mul : forall s t s' t' x y a b, (0 <= s)%Z -> (0 <= s')%Z -> (s + s' <= maximum_precision)%Z ->
  dfin s t x a -> dfin s' t' y b -> dfin (s + s') (t + t') (d_mul x y) (a * b).
Proof.
  intros s t s' t' x y a b S S' C [f [-> [Sf <-]]] [g [-> [Sg <-]]]. unfold d_mul; cbn [x_mul dops d_ops f_mul].
  rewrite (trunc_id maximum_precision (s + s')); [|unfold maximum_precision in *; lia|exact C|apply (mulx_sized s t s' t'); assumption].
  eexists; split; [reflexivity|]. split; [apply mulx_sized; assumption|apply mulx_val].
Qed.
Lemma dfin_neg : forall s t x a, (0 <= s <= maximum_precision)%Z -> dfin s t x a -> dfin s t (d_neg x) (- a).
Proof.
  intros s t x a S [f [-> [Sf <-]]]. unfold d_neg; cbn [x_neg dops d_ops f_neg]. assert (Sn := sized_neg _ _ _ Sf).
  rewrite (trunc_id maximum_precision s); [|unfold maximum_precision in *; lia|lia|apply Sn].
  eexists; split; [reflexivity|]. split; [exact Sn|apply negx_val].
Qed.
Lemma dfin_abs : forall s t x a, (0 <= s <= maximum_precision)%Z -> dfin s t x a -> dfin s t (d_abs x) (Rabs a).
Proof.
  intros s t x a S [f [-> [[A B] <-]]]. unfold d_abs; cbn [x_abs dops d_ops f_abs].
  rewrite (trunc_id maximum_precision s); [|unfold maximum_precision in *; lia|lia|cbn [mant]; lia].
  eexists; split; [reflexivity|]. split; [split; cbn [mant expo]; lia|]. unfold dval; cbn [mant expo].
  rewrite abs_IZR, Rabs_mult, (Rabs_right (bpow _ _)); [reflexivity|]. apply Rle_ge, bpow_ge_0.
Qed.
Lemma dfin_hlf : forall s t x a, (0 <= s <= maximum_precision)%Z -> dfin s t x a -> dfin s (t + 1) (d_hlf x) (a / 2).
Proof.
  intros s t x a S [f [-> [[A B] <-]]]. unfold d_hlf; cbn [x_hlf dops d_ops f_hlf].
  rewrite (trunc_id maximum_precision s); [|unfold maximum_precision in *; lia|lia|exact A].
  eexists; split; [reflexivity|]. split; [split; cbn [mant expo]; [exact A|lia]|]. unfold dval; cbn [mant expo].
  replace (expo f - 1)%Z with (expo f + -1)%Z by lia. rewrite bpow_plus. change (bpow radix2 (-1)) with (/ 2). field.
Qed.
Lemma dfin_max : forall s t x y a b, dfin s t x a -> dfin s t y b -> dfin s t (d_max x y) (Rmax a b).
Proof.
  intros s t x y a b [f [-> [Sf <-]]] [g [-> [Sg <-]]]. unfold d_max; cbn [x_max dops d_ops f_cmp].
  pose proof (cmpx_val f g) as C. destruct (d_cmpx f g);
    [exists f; rewrite Rmax_left by lra|exists g; rewrite Rmax_right by lra|exists f; rewrite Rmax_left by lra]; auto.
Qed.
Lemma dfin_min : forall s t x y a b, dfin s t x a -> dfin s t y b -> dfin s t (d_min x y) (Rmin a b).
Proof.
  intros s t x y a b [f [-> [Sf <-]]] [g [-> [Sg <-]]]. unfold d_min; cbn [x_min dops d_ops f_cmp].
  pose proof (cmpx_val f g) as C. destruct (d_cmpx f g);
    [exists f; rewrite Rmin_left by lra|exists f; rewrite Rmin_left by lra|exists g; rewrite Rmin_right by lra]; auto.
Qed.
Lemma dfin_base : forall a, sized 4000 4000 a -> dfin 4000 4000 (Fin a) (dval a).
Proof. intros a H. exists a. auto. Qed.
Lemma dfin_zero : dfin 4000 4000 (Fin (mkD 0 0)) 0.
Proof. exists (mkD 0 0). split; [reflexivity|]. split; [split; cbn [mant expo]; lia|]. unfold dval; cbn [mant expo]. ring. Qed.

Ltac mp := unfold maximum_precision in *; lia.
Tactic Notation "fresh1" constr(L) constr(X) ident(H) := pose proof (fun p => L _ _ _ _ p X) as H; specialize (H ltac:(mp)).
Tactic Notation "fresh2" constr(L) constr(X) constr(Y) ident(H) := pose proof (fun p q r => L _ _ _ _ _ _ p q r X Y) as H; specialize (H ltac:(mp) ltac:(mp) ltac:(mp)).
Tactic Notation "fresh_mul" constr(X) constr(Y) ident(H) := pose proof (fun p q r => dfin_mul _ _ _ _ _ _ _ _ p q r X Y) as H; specialize (H ltac:(mp) ltac:(mp) ltac:(mp)).

Lemma db_linear_in : forall a b x y, finite_db a -> finite_db b -> in_dbounds a x -> in_dbounds b y ->
  in_dbounds (db_add a b) (x + y) /\ in_dbounds (db_sub a b) (x - y) /\ in_dbounds (db_minus a) (- x) /\
  in_dbounds (db_hlf a) (x / 2) /\ in_dbounds (db_abs a) (Rabs x).
Proof.
  intros a b x y [al [au [-> [Al Au]]]] [bl [bu [-> [Bl Bu]]]] Hx Hy. apply (proj1 (in_dfin _ _ _)) in Hx. apply (proj1 (in_dfin _ _ _)) in Hy.
  apply dfin_base in Al. apply dfin_base in Au. apply dfin_base in Bl. apply dfin_base in Bu.
  split; [|split; [|split; [|split]]].
  - eapply in_dmean; [eapply dfin_mean, (dfin_add 4000 4000); eauto; mp|eapply dfin_mean, (dfin_add 4000 4000); eauto; mp|lra].
  - eapply in_dmean; [eapply dfin_mean, (dfin_sub 4000 4000); eauto; mp|eapply dfin_mean, (dfin_sub 4000 4000); eauto; mp|lra].
  - eapply in_dmean; [eapply dfin_mean, (dfin_neg 4000 4000); eauto; mp|eapply dfin_mean, (dfin_neg 4000 4000); eauto; mp|lra].
  - eapply in_dmean; [eapply dfin_mean, (dfin_hlf 4000 4000); eauto; mp|eapply dfin_mean, (dfin_hlf 4000 4000); eauto; mp|lra].
  - eapply in_dmean; [eapply dfin_mean, dfin_max; [eapply dfin_min; [exact Al|apply (dfin_neg 4000 4000); [mp|exact Au]]|exact dfin_zero]
                     |eapply dfin_mean, dfin_max; [apply (dfin_neg 4000 4000); [mp|exact Al]|exact Au]|].
    pose proof (Rmin_l (dval al) (- dval au)). pose proof (Rmin_r (dval al) (- dval au)).
    pose proof (Rmax_l (- dval al) (dval au)). pose proof (Rmax_r (- dval al) (dval au)). pose proof (Rabs_pos x).
    split.
    + apply Rmax_lub; [|lra]. unfold Rabs; destruct (Rcase_abs x); lra.
    + unfold Rabs; destruct (Rcase_abs x); lra.
Qed.

Lemma in_ball_mean : forall s t s' t' v e a b r, dfin s t v a -> dfin s' t' e b -> Rabs (r - a) <= b -> in_dball (mkDBall v e) r.
Proof. intros s t s' t' v e a b r [f [-> [_ <-]]] [g [-> [_ <-]]] H. exact H. Qed.

Lemma ball_mul_bound : forall v1 e1 v2 e2 x y, Rabs (x - v1) <= e1 -> Rabs (y - v2) <= e2 ->
  Rabs (x * y - v1 * v2) <= Rabs v1 * e2 + e1 * Rabs v2 + e1 * e2.
Proof.
  intros v1 e1 v2 e2 x y H K.
  replace (x * y - v1 * v2) with (v1 * (y - v2) + (x - v1) * v2 + (x - v1) * (y - v2)) by ring.
  pose proof (Rabs_pos v1). pose proof (Rabs_pos v2). pose proof (Rabs_pos (x - v1)). pose proof (Rabs_pos (y - v2)).
  eapply Rle_trans; [apply Rabs_triang|]. apply Rplus_le_compat; [eapply Rle_trans; [apply Rabs_triang|]; apply Rplus_le_compat|];
    rewrite Rabs_mult; apply Rmult_le_compat; lra.
Qed.

Lemma dl_ops_in : forall a b x y, finite_dball a -> finite_dball b -> in_dball a x -> in_dball b y ->
  in_dball (dl_add a b) (x + y) /\ in_dball (dl_sub a b) (x - y) /\ in_dball (dl_mul a b) (x * y) /\ in_dball (dl_abs a) (Rabs x).
Proof.
  intros a b x y [v1 [e1 [-> [V1 E1]]]] [v2 [e2 [-> [V2 E2]]]] Hx Hy. cbn in Hx, Hy.
  apply dfin_base in V1. apply dfin_base in E1. apply dfin_base in V2. apply dfin_base in E2.
  split; [|split; [|split]].
  - eapply in_ball_mean; [apply (dfin_add 4000 4000); eauto; mp|apply (dfin_add 4000 4000); eauto; mp|].
    replace (x + y - (dval v1 + dval v2)) with ((x - dval v1) + (y - dval v2)) by ring.
    eapply Rle_trans; [apply Rabs_triang|]. lra.
  - eapply in_ball_mean; [apply (dfin_sub 4000 4000); eauto; mp|apply (dfin_add 4000 4000); eauto; mp|].
    replace (x - y - (dval v1 - dval v2)) with ((x - dval v1) + - (y - dval v2)) by ring.
    eapply Rle_trans; [apply Rabs_triang|]. rewrite Rabs_Ropp. lra.
  - fresh1 dfin_abs V1 A1. fresh1 dfin_abs V2 A2.
    fresh_mul A1 E2 M1.
    fresh_mul E1 A2 M2.
    fresh_mul E1 E2 M3.
    fresh2 dfin_add M1 M2 S1.
    apply (dfin_weak _ _ (4000 + 4000 + 2 * (4000 + 4000) + 1) (4000 + 4000)) in M3; [|lia|lia].
    fresh2 dfin_add S1 M3 S2.
    eapply in_ball_mean; [apply (dfin_mul 4000 4000 4000 4000); [mp|mp|mp|exact V1|exact V2]|exact S2|].
    apply ball_mul_bound; assumption.
  - unfold dl_abs; cbn [dv de]. fresh1 dfin_abs V1 A1.
    destruct (d_ge (d_abs (Fin v1)) (Fin e1)) eqn:T.
    + eapply in_ball_mean; [exact A1|exact E1|]. eapply Rle_trans; [apply Rabs_triang_inv2|exact Hx].
    + assert (L : Rabs (dval v1) < dval e1).
      { unfold d_ge in T. rewrite negb_false_iff in T. rewrite (d_lt_sound _ _ _ _ (dfin_mean _ _ _ _ A1) (dfin_mean _ _ _ _ E1)) in T. exact T. }
      fresh2 dfin_add V1 E1 P.
      fresh2 dfin_sub E1 V1 M.
      assert (X := dfin_max _ _ _ _ _ _ M P).
      fresh1 dfin_hlf X H.
      eapply in_ball_mean; [exact H|exact H|].
      pose proof (Rmax_l (dval e1 - dval v1) (dval v1 + dval e1)). pose proof (Rmax_r (dval e1 - dval v1) (dval v1 + dval e1)).
      revert Hx L. unfold Rabs; repeat destruct (Rcase_abs _); intros; lra.
Qed.

Lemma dl_compare_sound : forall a b x y t, finite_dball a -> finite_dball b -> in_dball a x -> in_dball b y ->
  dl_lt a b = Some t -> (t = true <-> x < y).
Proof.
  intros a b x y t [v1 [e1 [-> [V1 E1]]]] [v2 [e2 [-> [V2 E2]]]] Hx Hy H. cbn in Hx, Hy.
  apply dfin_base in V1. apply dfin_base in E1. apply dfin_base in V2. apply dfin_base in E2.
  apply Rabs_le_inv in Hx. apply Rabs_le_inv in Hy.
  fresh2 dfin_add V1 E1 P1.
  fresh2 dfin_sub V1 E1 M1.
  fresh2 dfin_add V2 E2 P2.
  fresh2 dfin_sub V2 E2 M2.
  unfold dl_lt in H; cbn [dv de] in H.
  destruct (d_lt _ _) eqn:A.
  - rewrite (d_lt_sound _ _ _ _ (dfin_mean _ _ _ _ P1) (dfin_mean _ _ _ _ M2)) in A. cbn in A. injection H as <-. split; [intro; lra|reflexivity].
  - destruct (d_ge _ _) eqn:B; [|discriminate]. injection H as <-.
    change (d_le (d_add (Fin v2) (Fin e2)) (d_sub (Fin v1) (Fin e1)) = true) in B.
    rewrite (d_le_sound _ _ _ _ (dfin_mean _ _ _ _ P2) (dfin_mean _ _ _ _ M1)) in B. cbn in B. split; [discriminate|intro; lra].
Qed.

Lemma dl_sets_sound : forall a b, finite_dball a -> finite_dball b ->
  (dl_inconsistent a b = true -> forall x, ~ (in_dball a x /\ in_dball b x)) /\
  (dl_refines a b = true -> forall x, in_dball a x -> in_dball b x).
Proof.
  intros a b [v1 [e1 [-> [V1 E1]]]] [v2 [e2 [-> [V2 E2]]]].
  apply dfin_base in V1. apply dfin_base in E1. apply dfin_base in V2. apply dfin_base in E2.
  fresh2 dfin_sub V1 V2 D.
  fresh1 dfin_abs D A.
  fresh2 dfin_add E1 E2 S.
  split.
  - unfold dl_inconsistent; cbn [dv de]. intros H x [Hx Hy]. cbn in Hx, Hy.
    change (d_lt (d_add (Fin e1) (Fin e2)) (d_abs (d_sub (Fin v1) (Fin v2))) = true) in H.
    rewrite (d_lt_sound _ _ _ _ (dfin_mean _ _ _ _ S) (dfin_mean _ _ _ _ A)) in H. cbn in H.
    replace (dval v1 - dval v2) with ((x - dval v2) + - (x - dval v1)) in H by ring.
    pose proof (Rabs_triang (x - dval v2) (- (x - dval v1))) as T. rewrite Rabs_Ropp in T. lra.
  - unfold dl_refines; cbn [dv de]. intros H x Hx. cbn in Hx |- *.
    apply (dfin_weak _ _ (4000 + 2 * 4000 + 1) 4000) in E1; [|lia|lia].
    fresh2 dfin_add A E1 A2.
    rewrite (d_le_sound _ _ _ _ (dfin_mean _ _ _ _ A2) (dfin_mean _ _ _ _ E2)) in H. cbn in H.
    replace (x - dval v2) with ((x - dval v1) + (dval v1 - dval v2)) by ring.
    eapply Rle_trans; [apply Rabs_triang|]. lra.
Qed.

Lemma dl_bounds_sound : forall a b, finite_dball a -> finite_db b ->
  (forall x, in_dball a x <-> in_dbounds (dl_bounds a) x) /\ (forall x, in_dbounds b x <-> in_dball (dl_of_bounds b) x).
Proof.
  intros a b [v1 [e1 [-> [V1 E1]]]] [bl [bu [-> [Bl Bu]]]].
  apply dfin_base in V1. apply dfin_base in E1. apply dfin_base in Bl. apply dfin_base in Bu.
  split; intro x.
  - fresh2 dfin_add V1 E1 P1.
    fresh2 dfin_sub V1 E1 M1.
    unfold dl_bounds; cbn [dv de]. unfold in_dbounds; cbn [d_l d_u]. rewrite (dfin_mean _ _ _ _ P1), (dfin_mean _ _ _ _ M1).
    cbn [Rbar_le in_dball dv de]. split.
    + intro H. apply Rabs_le_inv in H. lra.
    + intros [H K]. apply Rabs_le. lra.
  - fresh2 dfin_add Bl Bu P1.
    fresh2 dfin_sub Bu Bl M1.
    apply dfin_hlf in P1; [|mp]. apply dfin_hlf in M1; [|mp].
    unfold dl_of_bounds; cbn [d_l d_u]. destruct P1 as [f [-> [_ F]]]. destruct M1 as [g [-> [_ G]]].
    cbn [in_dball dv de]. rewrite F, G, in_dfin. split.
    + intros H. apply Rabs_le. lra.
    + intro H. apply Rabs_le_inv in H. lra.
Qed.

(** Powers of dyadic bounds. *)
Lemma d_pow_fin : forall a m, (Z.of_N m <= 16)%Z -> sized 4000 4000 a -> dmean (d_pow (Fin a) m) = Some (Finite (dval a ^ N.to_nat m)).
Proof.
  intros a m M S. destruct (N.eq_dec m 0) as [->|Z].
  - assert (E : d_pow (Fin a) 0 = Fin (mkD 1 0)).
    { unfold d_pow, x_pow, dops, d_ops; cbn [f_pow]. change (Z.of_N 0) with 0%Z. rewrite Z.mul_0_r. reflexivity. }
    rewrite E. unfold dmean; cbn [meaning]. do 2 f_equal.
    unfold dval; cbn [mant expo]. change (bpow radix2 0) with 1. change (N.to_nat 0) with 0%nat. cbn [pow]. ring.
  - rewrite d_pow_sound by assumption. apply xpow_some.
Qed.
Lemma db_pow_in : forall a x m, (Z.of_N m <= 16)%Z -> finite_db a -> in_dbounds a x -> in_dbounds (db_pow a m) (x ^ N.to_nat m).
Proof.
  intros a x m M F Hx. unfold db_pow. destruct (N.even m) eqn:E.
  - assert (A : in_dbounds (db_abs a) (Rabs x)) by (apply (db_linear_in a a x x F F Hx Hx)).
    destruct F as [al [au [-> [Al Au]]]]. apply dfin_base in Al. apply dfin_base in Au.
    assert (L : dfin 4000 4000 (d_l (db_abs (mkDB (Fin al) (Fin au)))) (Rmax (Rmin (dval al) (- dval au)) 0)).
    { apply dfin_max; [apply dfin_min; [exact Al|apply (dfin_neg 4000 4000); [mp|exact Au]]|exact dfin_zero]. }
    assert (U : dfin 4000 4000 (d_u (db_abs (mkDB (Fin al) (Fin au)))) (Rmax (- dval al) (dval au))).
    { apply dfin_max; [apply (dfin_neg 4000 4000); [mp|exact Al]|exact Au]. }
    unfold in_dbounds in A. rewrite (dfin_mean _ _ _ _ L), (dfin_mean _ _ _ _ U) in A. destruct A as [A B]. cbn in A, B.
    destruct L as [l [El [Sl Vl]]]. destruct U as [u [Eu [Su Vu]]]. rewrite El, Eu.
    eapply in_dmean; [apply d_pow_fin; assumption|apply d_pow_fin; assumption|]. rewrite Vl, Vu.
    assert (P : x ^ N.to_nat m = Rabs x ^ N.to_nat m).
    { apply N.even_spec in E as [k ->]. rewrite N2Nat.inj_mul. change (N.to_nat 2) with 2%nat. rewrite !pow_mult, pow2_abs. reflexivity. }
    rewrite P. pose proof (Rmax_r (Rmin (dval al) (- dval au)) 0). pose proof (Rabs_pos x). split; apply pow_incr; split; lra.
  - destruct F as [al [au [-> [Al Au]]]]. apply (proj1 (in_dfin _ _ _)) in Hx. cbn [d_l d_u].
    eapply in_dmean; [apply d_pow_fin; assumption|apply d_pow_fin; assumption|].
    rewrite <- N.negb_odd, negb_false_iff in E. apply N.odd_spec in E as [k ->].
    split; apply odd_pow_mono; try lra; apply Nat.odd_spec; exists (N.to_nat k); lia.
Qed.
