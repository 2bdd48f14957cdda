(** Expansions are unique, and what the derivative stands for. *)
From Coq Require Import NArith ZArith List Bool Reals Lra Lia.
From Verif Require Import LRU_Model Poly_Model Poly_Spec Poly_Proofs Diff_Model Diff_Spec Diff_O_Proofs Diff_Ring_Proofs Diff_Series_Proofs Diff_Inst Diff_Elem_Proofs Diff_Comp_Proofs Diff_Vec_Proofs Diff_Int_Proofs Diff_Flow_Proofs.
Import ListNotations.
Local Open Scope R_scope.

Lemma small_zero x C d : 0 < d -> (forall t, 0 < t <= d -> Rabs x <= C * t) -> x = 0.
Proof.
  intros D H. destruct (Req_dec x 0) as [Q|Q]; [exact Q|exfalso]. assert (P : 0 < Rabs x) by now apply Rabs_pos_lt.
  assert (C0 : 0 < C). { specialize (H d ltac:(lra)). apply (Rmult_lt_reg_r d); lra. }
  pose (t := Rmin d (Rabs x / (2 * C))). assert (T : 0 < t) by (apply Rmin_glb_lt; [exact D | apply Rdiv_lt_0_compat; lra]).
  specialize (H t (conj T (Rmin_l _ _))). assert (C * t <= Rabs x / 2); [|lra].
  replace (Rabs x / 2) with (C * (Rabs x / (2 * C))) by (field; lra). apply Rmult_le_compat_l; [lra | apply Rmin_r].
Qed.
Lemma psum_unique n : forall a, (exists K d, 0 < d /\ forall t, 0 < t <= d -> Rabs (psum a n t) <= K * t ^ n) -> forall i, (i < n)%nat -> a i = 0.
Proof.
  induction n as [|n IH]; intros a (K & d & D & H) i I; [lia|].
  destruct (psum_bounded (fun j => a (S j)) n) as (M & e & E0 & B).
  assert (A0 : a 0%nat = 0).
  { apply (small_zero _ (Rabs K + M) (Rmin 1 (Rmin d e))); [repeat apply Rmin_glb_lt; lra|]. intros t [T0 T1].
    assert (t <= 1) by (eapply Rle_trans; [exact T1 | apply Rmin_l]). assert (t <= d) by (eapply Rle_trans; [exact T1 | eapply Rle_trans; [apply Rmin_r | apply Rmin_l]]). assert (t <= e) by (eapply Rle_trans; [exact T1 | eapply Rle_trans; [apply Rmin_r | apply Rmin_r]]).
    specialize (H t ltac:(lra)). specialize (B t ltac:(rewrite Rabs_right; lra)). rewrite psum_head in H. simpl in B. rewrite Rmult_1_r in B.
    assert (P1 : t ^ S n <= t). { simpl. assert (t ^ n <= 1); [|nra]. replace 1 with (1 ^ n) by apply pow1. apply pow_incr. lra. }
    assert (P2 : K * t ^ S n <= Rabs K * t). { apply Rle_trans with (Rabs K * t ^ S n); [apply Rmult_le_compat_r; [apply pow_le; lra | apply Rle_abs]|]. apply Rmult_le_compat_l; [apply Rabs_pos | exact P1]. }
    replace (a 0%nat) with ((a 0%nat + t * psum (fun i0 => a (S i0)) n t) - t * psum (fun i0 => a (S i0)) n t) by ring.
    eapply Rle_trans; [apply Rabs_triang|]. rewrite Rabs_Ropp, Rabs_mult, (Rabs_right t) by lra.
    assert (t * Rabs (psum (fun i0 => a (S i0)) n t) <= M * t); [|lra]. rewrite (Rmult_comm M). apply Rmult_le_compat_l; lra. }
  destruct i as [|i]; [exact A0|]. apply (IH (fun j => a (S j))); [|lia]. exists K, d. split; [exact D|]. intros t T. specialize (H t T). rewrite psum_head, A0, Rplus_0_l, Rabs_mult, (Rabs_right t) in H by lra.
  apply (Rmult_le_reg_l t); [lra|]. simpl in H. lra.
Qed.
Lemma monom_ray a t : forall v, length a = length v -> rmonom a (map (Rmult t) v) = t ^ N.to_nat (total a) * rmonom a v.
Proof.
  induction a as [|x a IH]; intros [|y v] L; cbn [length] in *; try lia; [simpl; ring|]. cbn [map monom]. rewrite IH by lia. rewrite total_cons, N2Nat.inj_add, pow_add.
  change (power 1 Rmult (t * y) (N.to_nat x)) with ((t * y) ^ N.to_nat x). change (power 1 Rmult y (N.to_nat x)) with (y ^ N.to_nat x). rewrite Rpow_mult_distr. ring.
Qed.
Lemma psum_null a n t : (forall i, (i < n)%nat -> a i = 0) -> psum a n t = 0.
Proof. induction n as [|n IH]; intros H; [reflexivity|]. cbn [psum]. rewrite IH, H by (intros; try apply H; lia). ring. Qed.
Definition ray (p : list (mi * R)) (v : list R) (m : nat) : R := rpoly (filter (fun q => (N.to_nat (total (fst q)) =? m)%nat) p) v.
Lemma psum_ind x j n t : psum (fun m => if (j =? m)%nat then x else 0) n t = if (j <? n)%nat then x * t ^ j else 0.
Proof.
  induction n as [|n IH]; [reflexivity|]. cbn [psum]. rewrite IH. destruct (Nat.ltb_spec j n), (Nat.ltb_spec j (S n)), (Nat.eqb_spec j n); try lia; subst; ring.
Qed.
Lemma poly_ray n k p v t : List.Forall (fun m => length (fst m) = n) p -> List.Forall (fun m => (total (fst m) <= k)%N) p -> length v = n ->
  rpoly p (map (Rmult t) v) = psum (ray p v) (S (N.to_nat k)) t.
Proof.
  intros Z U L. induction p as [|[a c] p IH].
  - symmetry. rewrite rpoly_nil. apply psum_null. reflexivity.
  - apply Forall_cons_iff in Z as [La Z]. apply Forall_cons_iff in U as [Ua U]. cbn [fst] in La, Ua. rewrite rpoly_cons, (IH Z U), monom_ray by congruence.
    transitivity (psum (fun m => (if (N.to_nat (total a) =? m)%nat then c * rmonom a v else 0) + ray p v m) (S (N.to_nat k)) t).
    + rewrite psum_add, psum_ind. replace (N.to_nat (total a) <? S (N.to_nat k))%nat with true by (symmetry; apply Nat.ltb_lt; lia). ring.
    + apply psum_ext. intros m _. unfold ray. cbn [filter fst]. destruct (N.to_nat (total a) =? m)%nat; [rewrite rpoly_cons; reflexivity | ring].
Qed.
(** A polynomial of degree at most k which is O(|h|^(k+1)) is zero. *)
Lemma poly_unique n k p : List.Forall (fun m => length (fst m) = n) p -> List.Forall (fun m => (total (fst m) <= k)%N) p ->
  big_O n (S (N.to_nat k)) (rpoly p) -> forall h, length h = n -> rpoly p h = 0.
Proof.
  intros Z U (K & d & D & B) h L. pose proof (norm_nonneg h) as Np.
  assert (A : forall i, (i < S (N.to_nat k))%nat -> ray p h i = 0).
  { apply psum_unique. exists (Rabs K * norm h ^ S (N.to_nat k)), (d / (norm h + 1)). split; [apply Rdiv_lt_0_compat; lra|]. intros t [T0 T1].
    rewrite <- (poly_ray n k p h t Z U L).
    assert (N1 : norm (map (Rmult t) h) <= t * norm h).
    { apply norm_le; [nra|]. intros x I. apply in_map_iff in I as (y & <- & Iy). rewrite Rabs_mult, (Rabs_right t) by lra. apply Rmult_le_compat_l; [lra | now apply norm_in]. }
    assert (N2 : t * norm h <= d). { apply Rle_trans with (d / (norm h + 1) * norm h); [apply Rmult_le_compat_r; lra|]. apply (Rmult_le_reg_r (norm h + 1)); [lra|]. field_simplify; [|lra]. nra. }
    eapply Rle_trans; [apply B; [rewrite map_length; exact L | lra]|].
    apply Rle_trans with (Rabs K * norm (map (Rmult t) h) ^ S (N.to_nat k)); [apply Rmult_le_compat_r; [apply pow_le, norm_nonneg | apply Rle_abs]|].
    rewrite Rmult_assoc. apply Rmult_le_compat_l; [apply Rabs_pos|]. rewrite <- Rpow_mult_distr. apply pow_incr. split; [apply norm_nonneg | lra]. }
  assert (Q : map (Rmult 1) h = h) by (rewrite <- (map_id h) at 2; apply map_ext; intros; ring).
  rewrite <- Q. rewrite (poly_ray n k p h 1 Z U L). apply psum_null. exact A.
Qed.

Definition pneg (p : list (mi * R)) : list (mi * R) := map (fun m => (fst m, - snd m)) p.
Lemma rpoly_pneg p h : rpoly (pneg p) h = - rpoly p h.
Proof. induction p as [|[a c] p IH]; [rewrite !rpoly_nil; ring|]. unfold pneg. cbn [map fst snd]. rewrite !rpoly_cons. fold (pneg p). rewrite IH. ring. Qed.
Lemma der_in i p b d : In (b, d) (der_terms i p) -> exists a c, In (a, c) p /\ nth i a 0%N <> 0%N /\ b = mi_upd a i (nth i a 0 - 1)%N.
Proof.
  unfold der_terms. intros I. apply in_concat in I as (l & Il & I). apply in_map_iff in Il as ([a c] & <- & Ia). cbn [fst snd] in I.
  destruct (N.eqb_spec (nth i a 0%N) 0) as [Q|Q]; [destruct I|]. destruct I as [I|[]]. injection I as <- <-. now exists a, c.
Qed.
Lemma int_der i p h : List.Forall (fun m => length (fst m) = length h) p -> (i < length h)%nat ->
  rpoly (map (int_term i) (der_terms i p)) h = rpoly p h - rpoly p (lupd h i 0).
Proof.
  intros Z I. induction p as [|[a c] p IH]; [cbn [der_terms map concat]; rewrite !rpoly_nil; ring|]. apply Forall_cons_iff in Z as [La Z]. cbn [fst] in La.
  unfold der_terms. cbn [map concat fst snd]. rewrite map_app, rpoly_app. fold (der_terms i p). rewrite (IH Z), !rpoly_cons.
  rewrite (monom_at a i h 0 La ltac:(lia)). set (n := nth i a 0%N) in *. destruct (N.eqb_spec n 0) as [Q|Q].
  - cbn [map]. rewrite rpoly_nil. pose proof (monom_at a i h (nth i h 0) La ltac:(lia)) as M. rewrite lupd_same in M. fold n in M. rewrite M, Q. simpl. ring.
  - cbn [map]. unfold int_term. cbn [fst snd]. rewrite mi_upd_nth by lia. rewrite mi_upd_upd. replace (n - 1 + 1)%N with n by lia. rewrite rpoly_cons, rpoly_nil.
    assert (Ma : mi_upd a i n = a) by apply mi_upd_same. rewrite Ma. rewrite (pow_i (N.to_nat n)) by lia. field. apply not_0_INR. lia.
Qed.

(** The derivative of the expansion is the expansion of the derivative. *)
Lemma der_expansion n k i f g d p q : (1 <= k)%N -> (i < n)%nat -> 0 < d ->
  List.Forall (fun m => length (fst m) = n) p -> List.Forall (fun m => (total (fst m) <= k)%N) p -> big_O n (S (N.to_nat k)) (fun h => f h - rpoly p h) ->
  (forall h, length h = n -> norm h <= d -> derivable_pt_lim (fun t => f (lupd h i t)) (nth i h 0) (g h)) ->
  List.Forall (fun m => length (fst m) = n /\ (total (fst m) <= k - 1)%N) q -> big_O n (N.to_nat k) (fun h => g h - rpoly q h) ->
  big_O n (N.to_nat k) (fun h => g h - rpoly (der_terms i p) h).
Proof.
  intros K I D0 Zp Up (K1 & e1 & E1 & B1) HF Hq (K2 & e2 & E2 & B2).
  assert (Zq : List.Forall (fun m => length (fst m) = n) q) by (revert Hq; apply List.Forall_impl; tauto).
  pose (R0 := der_terms i p ++ pneg q).
  assert (ZR : List.Forall (fun m => length (fst m) = n /\ (total (fst m) <= k - 1)%N) R0).
  { unfold R0. apply List.Forall_app. split.
    - rewrite List.Forall_forall in *. intros [b c] Ib. apply der_in in Ib as (a & c' & Ia & Na & ->). cbn [fst]. rewrite mi_upd_length. pose proof (Zp _ Ia) as La. pose proof (Up _ Ia) as Ua. cbn [fst] in La, Ua.
      split; [exact La|]. pose proof (mi_upd_total a i (nth i a 0 - 1)%N ltac:(lia)). unfold mi in *. lia.
    - unfold pneg. rewrite List.Forall_forall in *. intros m Im. apply in_map_iff in Im as (m' & <- & Im). cbn [fst]. exact (Hq _ Im). }
  assert (ZR1 : List.Forall (fun m => length (fst m) = n) R0) by (revert ZR; apply List.Forall_impl; tauto).
  assert (PR : forall h, length h = n -> rpoly (map (int_term i) R0) h = rpoly p h - rpoly p (lupd h i 0) - rpoly (map (int_term i) q) h).
  { intros h L. unfold R0. rewrite map_app, rpoly_app, int_der by (rewrite L; assumption). 
    replace (map (int_term i) (pneg q)) with (pneg (map (int_term i) q)) by (unfold pneg; rewrite !map_map; apply map_ext; intros [a c]; unfold int_term; cbn [fst snd]; f_equal; unfold Rdiv; ring).
    rewrite rpoly_pneg. ring. }
  assert (Z0 : forall h, length h = n -> rpoly (map (int_term i) R0) h = 0).
  { apply (poly_unique n k).
    - rewrite List.Forall_forall in *. intros m Im. apply in_map_iff in Im as ([a c] & <- & Im). cbn [int_term fst]. rewrite mi_upd_length. exact (ZR1 _ Im).
    - rewrite List.Forall_forall in *. intros m Im. apply in_map_iff in Im as ([a c] & <- & Im). cbn [int_term fst]. destruct (ZR _ Im) as [La Ua]. cbn [fst] in La, Ua. pose proof (mi_upd_total a i (nth i a 0 + 1)%N ltac:(lia)). unfold mi in *. lia.
    - exists (Rabs K1 + Rabs K1 + Rabs K2), (Rmin d (Rmin e1 e2)). split; [repeat apply Rmin_glb_lt; assumption|]. intros h L Nh.
      assert (N1 : norm h <= d) by (eapply Rle_trans; [exact Nh | apply Rmin_l]). assert (N2 : norm h <= e1) by (eapply Rle_trans; [exact Nh | eapply Rle_trans; [apply Rmin_r | apply Rmin_l]]).
      assert (N3 : norm h <= e2) by (eapply Rle_trans; [exact Nh | eapply Rle_trans; [apply Rmin_r | apply Rmin_r]]). pose proof (norm_nonneg h) as Np.
      assert (BC : forall c, Rmin 0 (nth i h 0) <= c <= Rmax 0 (nth i h 0) -> Rabs c <= norm h).
      { intros c [C1 C2]. eapply Rle_trans; [|apply (norm_nth h i)]. unfold Rmin, Rmax in *. destruct (Rle_dec 0 (nth i h 0)); unfold Rabs; repeat destruct Rcase_abs; lra. }
      assert (Zc : norm (lupd h i 0) <= norm h) by (apply lupd_norm; rewrite Rabs_R0; exact Np).
      pose proof (B1 h L N2) as H1. pose proof (B1 (lupd h i 0) ltac:(now rewrite lupd_length) ltac:(lra)) as H2.
      assert (T1 : forall m h', norm h' <= norm h -> 0 <= norm h' -> K1 * norm h' ^ m <= Rabs K1 * norm h ^ m).
      { intros m h' U0 U1. apply Rle_trans with (Rabs K1 * norm h' ^ m); [apply Rmult_le_compat_r; [now apply pow_le | apply Rle_abs]|]. apply Rmult_le_compat_l; [apply Rabs_pos|]. now apply pow_incr. }
      assert (H3 : Rabs (f h - f (lupd h i 0) - rpoly (map (int_term i) q) h) <= Rabs K2 * norm h ^ S (N.to_nat k)).
      { destruct (MVT_abs (fun t => f (lupd h i t) - rpoly (map (int_term i) q) (lupd h i t)) (fun t => g (lupd h i t) - rpoly q (lupd h i t)) 0 (nth i h 0)) as (c & M & C).
        - intros c C. specialize (BC c C). apply derivable_pt_lim_minus.
          + pose proof (HF (lupd h i c) ltac:(now rewrite lupd_length) ltac:(eapply Rle_trans; [apply lupd_norm, BC | exact N1])) as G.
            rewrite lupd_nth in G by lia. intros eps He. destruct (G eps He) as [dl H]. exists dl. intros u U0 U1. specialize (H u U0 U1). rewrite !lupd_lupd in H. exact H.
          + apply int_derive; [rewrite L; exact Zq | lia].
        - cbv beta in M. rewrite (int_zero i q h), lupd_same, !Rminus_0_r in M by (rewrite ?L; assumption || lia).
          replace (f h - f (lupd h i 0) - rpoly (map (int_term i) q) h) with (f h - rpoly (map (int_term i) q) h - f (lupd h i 0)) by ring. rewrite M.
          specialize (BC c C). pose proof (lupd_norm i c h BC) as Nc. pose proof (B2 (lupd h i c) ltac:(now rewrite lupd_length) ltac:(lra)) as OB.
          replace (Rabs K2 * norm h ^ S (N.to_nat k)) with (Rabs K2 * norm h ^ N.to_nat k * norm h) by (simpl; ring).
          apply Rmult_le_compat; [apply Rabs_pos | apply Rabs_pos | | apply norm_nth]. eapply Rle_trans; [exact OB|].
          apply Rle_trans with (Rabs K2 * norm (lupd h i c) ^ N.to_nat k); [apply Rmult_le_compat_r; [apply pow_le, norm_nonneg | apply Rle_abs]|].
          apply Rmult_le_compat_l; [apply Rabs_pos|]. apply pow_incr. split; [apply norm_nonneg | exact Nc]. }
      rewrite PR by exact L.
      replace (rpoly p h - rpoly p (lupd h i 0) - rpoly (map (int_term i) q) h) with (- (f h - rpoly p h) + (f (lupd h i 0) - rpoly p (lupd h i 0)) + (f h - f (lupd h i 0) - rpoly (map (int_term i) q) h)) by ring.
      eapply Rle_trans; [apply Rabs_triang|]. rewrite Rmult_plus_distr_r. apply Rplus_le_compat; [|exact H3]. eapply Rle_trans; [apply Rabs_triang|]. rewrite Rabs_Ropp, Rmult_plus_distr_r.
      apply Rplus_le_compat; [eapply Rle_trans; [exact H1 | apply T1; lra] | eapply Rle_trans; [exact H2 | apply T1; [exact Zc | apply norm_nonneg]]]. }
  assert (Q0 : forall h, length h = n -> rpoly (der_terms i p) h = rpoly q h).
  { intros h L. pose proof (int_derive i R0 h (nth i h 0) ltac:(rewrite L; exact ZR1) ltac:(lia)) as DR. rewrite lupd_same in DR.
    assert (DZ : derivable_pt_lim (fun t => rpoly (map (int_term i) R0) (lupd h i t)) (nth i h 0) 0).
    { intros eps He. exists (mkposreal 1 Rlt_0_1). intros t T0 _. rewrite !Z0 by (rewrite lupd_length; exact L). replace ((0 - 0) / t - 0) with 0 by (field; exact T0). rewrite Rabs_R0. exact He. }
    pose proof (uniqueness_limite _ _ _ _ DR DZ) as U. unfold R0 in U. rewrite rpoly_app, rpoly_pneg in U. lra. }
  exists K2, e2. split; [exact E2|]. intros h L Nh. rewrite Q0 by exact L. exact (B2 h L Nh).
Qed.

Section Unique.
Context (X : scalar) (holds : X -> R -> Prop) (E : encloses X holds).
Notation good := (good X holds).

(** The expansion of a function is determined by the function. *)
Lemma good_unique n k d f p : good n k d f -> shadow holds (d_exp X d) p -> (forall c r r', holds c r -> holds c r' -> r = r') -> big_O n (S (N.to_nat k)) (fun h => f h - rpoly p h).
Proof.
  intros (W & A & D & q & Sq & O) Sp H. rewrite A, D in O. replace p with q; [exact O|]. clear - Sq Sp H. revert p Sp. induction Sq as [|[a c] [a' r] e q [F1 F2] Sq IH]; intros p Sp; inversion Sp as [|? [a2 r2] ? ? [G1 G2] Sp']; subst; [reflexivity|].
  cbn [fst snd] in *. subst a' a2. rewrite (H _ _ _ F2 G2). f_equal. now apply IH.
Qed.
Lemma derivative_good n k x i f g d q : good n k x f -> (1 <= k)%N -> (i < n)%nat -> 0 < d ->
  (forall h, length h = n -> norm h <= d -> derivable_pt_lim (fun t => f (lupd h i t)) (nth i h 0) (g h)) ->
  List.Forall (fun m => length (fst m) = n /\ (total (fst m) <= k - 1)%N) q -> big_O n (N.to_nat k) (fun h => g h - rpoly q h) ->
  good n (k - 1) (d_derivative X x i) g.
Proof.
  intros (W & A & D & p & Sp & O) K I D0 HF Hq B2. destruct (derivative_real X holds E n k x i p W A D K I Sp) as (W' & A' & D' & q' & Sq' & V).
  split; [exact W'|]. split; [exact A'|]. split; [exact D'|]. exists q'. split; [exact Sq'|]. rewrite A', D'.
  replace (S (N.to_nat (k - 1))) with (N.to_nat k) by lia. destruct W as (KK & Zx & _ & Ux). rewrite A, D in *.
  assert (Zp : List.Forall (fun m => length (fst m) = n) p) by (eapply shadow_sized; [exact Sp | exact Zx]).
  assert (Up : List.Forall (fun m => (total (fst m) <= k)%N) p) by exact (shadow_forall X holds (fun a => (total a <= k)%N) _ _ Sp Ux).
  eapply O_ext; [|exact (der_expansion n k i f g d p q K I D0 Zp Up O HF Hq B2)]. intros h _. cbv beta. now rewrite V.
Qed.
End Unique.
