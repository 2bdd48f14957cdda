(** Differentials in one variable. *)
From Coq Require Import NArith ZArith List Bool Reals Lra Lia.
From Verif Require Import LRU_Model Poly_Model Poly_Spec Diff_Model Diff_Spec Diff_O_Proofs Diff_Series_Proofs Diff_Inst Diff_Elem_Proofs Diff_Comp_Proofs.
Import ListNotations.
Local Open Scope R_scope.

Lemma psum_sum a k t : psum a (S k) t = sum_f_R0 (fun i => a i * t ^ i) k.
Proof. induction k as [|k IH]; [simpl; ring|]. change (psum a (S (S k)) t) with (psum a (S k) t + a (S k) * t ^ S k). now rewrite IH. Qed.

Section Uni.
Context (X : scalar) (holds : X -> R -> Prop) (E : encloses X holds).
Notation ustands := (ustands X holds).

Lemma ustands_T k x f : ustands k x f <-> length x = S k /\ exists a, (forall i, (i <= k)%nat -> holds (u_get X x i) (a i)) /\ Tn (S k) f a.
Proof.
  split; intros (L & a & H & K & d & D & B); (split; [exact L|]); exists a; (split; [exact H|]); exists K, d; (split; [exact D|]); intros t T; specialize (B t T); cbv beta in *.
  - now rewrite psum_sum.
  - now rewrite psum_sum in B.
Qed.
Lemma u_ext k x f g : (forall t, f t = g t) -> ustands k x f -> ustands k x g.
Proof. intros Q (L & a & H & K & d & D & B). split; [exact L|]. exists a. split; [exact H|]. exists K, d. split; [exact D|]. intros t T. rewrite <- Q. auto. Qed.
Lemma u_get_map_seq (F : nat -> X) m i : (i < m)%nat -> u_get X (map F (seq 0 m)) i = F i.
Proof. intros I. unfold u_get. rewrite (nth_indep _ _ (F 0%nat)) by (now rewrite map_length, seq_length). now rewrite map_nth, seq_nth. Qed.
Lemma u_deg_len k x f : ustands k x f -> u_deg X x = k.
Proof. intros (L & _). unfold u_deg. rewrite L. lia. Qed.

Lemma u_add_good k l x y f g : ustands k x f -> ustands l y g -> ustands (Nat.min k l) (u_add X x y) (fun t => f t + g t).
Proof.
  intros Gx Gy. unfold u_add. rewrite (u_deg_len _ _ _ Gx), (u_deg_len _ _ _ Gy). rewrite ustands_T in *. destruct Gx as (Lx & a & Ha & Ta), Gy as (Ly & b & Hb & Tb).
  split; [now rewrite map_length, seq_length|]. exists (fun i => a i + b i). split.
  - intros i I. rewrite u_get_map_seq by lia. apply (h_add _ _ E); [apply Ha | apply Hb]; lia.
  - apply Tn_add; eapply Tn_weaken; [|exact Ta| |exact Tb]; lia.
Qed.
Lemma u_sub_good k l x y f g : ustands k x f -> ustands l y g -> ustands (Nat.min k l) (u_sub X x y) (fun t => f t - g t).
Proof.
  intros Gx Gy. unfold u_sub. rewrite (u_deg_len _ _ _ Gx), (u_deg_len _ _ _ Gy). rewrite ustands_T in *. destruct Gx as (Lx & a & Ha & Ta), Gy as (Ly & b & Hb & Tb).
  split; [now rewrite map_length, seq_length|]. exists (fun i => a i - b i). split.
  - intros i I. rewrite u_get_map_seq by lia. apply (h_sub _ _ E); [apply Ha | apply Hb]; lia.
  - apply (Tn_near _ (fun t => f t + (-1) * g t) _ _ 1); [lra | intros; ring|]. apply (Tn_coef _ _ (fun i => a i + (-1) * b i)); [intros; ring|].
    apply Tn_add; [eapply Tn_weaken; [|exact Ta]; lia|]. apply Tn_scale. eapply Tn_weaken; [|exact Tb]; lia.
Qed.
Lemma u_neg_good k x f : ustands k x f -> ustands k (u_neg X x) (fun t => - f t).
Proof.
  rewrite !ustands_T. intros (L & a & H & T). split; [unfold u_neg; now rewrite map_length|]. exists (fun i => - a i). split.
  - intros i I. unfold u_neg, u_get in *. rewrite (nth_indep _ _ (x_neg X (x_nul X))) by (rewrite map_length; lia). rewrite map_nth. apply (h_neg _ _ E), H, I.
  - apply (Tn_near _ (fun t => (-1) * f t) _ _ 1); [lra | intros; ring|]. apply (Tn_coef _ _ (fun i => (-1) * a i)); [intros; ring|]. now apply Tn_scale.
Qed.
Lemma u_mulc_good k x f c r : holds c r -> ustands k x f -> ustands k (u_mulc X x c) (fun t => f t * r).
Proof.
  rewrite !ustands_T. intros C (L & a & H & T). split; [unfold u_mulc; now rewrite map_length|]. exists (fun i => a i * r). split.
  - intros i I. unfold u_mulc, u_get in *. rewrite (nth_indep _ _ (x_mul X (x_nul X) c)) by (rewrite map_length; lia). rewrite (map_nth (fun a => x_mul X a c)). apply (h_mul _ _ E); [apply H, I | exact C].
  - apply (Tn_near _ (fun t => r * f t) _ _ 1); [lra | intros; ring|]. apply (Tn_coef _ _ (fun i => r * a i)); [intros; ring|]. now apply Tn_scale.
Qed.
Lemma u_constant_good k c r : holds c r -> ustands k (u_constant X k c) (fun _ => r).
Proof.
  intros C. rewrite ustands_T. split; [simpl; now rewrite repeat_length|]. exists (delta r). split; [|apply Tn_const].
  intros [|i] I; [exact C|]. unfold u_get, u_constant. cbn [nth delta]. rewrite nth_repeat. apply (h_nul _ _ E).
Qed.
Lemma u_variable_good k c r : holds c r -> ustands k (u_variable X k c) (fun t => r + t).
Proof.
  intros C. rewrite ustands_T. split; [destruct k; simpl; [reflexivity | now rewrite repeat_length]|].
  eexists. split; [|apply Tn_id]. intros [|[|i]] I; unfold u_get, u_variable; (destruct k as [|k]; [try lia | idtac]); cbn [nth]; try exact C.
  - replace 1 with (INR (N.to_nat 1)) by (simpl; ring). apply (h_nat _ _ E).
  - rewrite nth_repeat. apply (h_nul _ _ E).
Qed.
Lemma conv_holds x y a b n : forall i, (i <= S n)%nat -> (forall j, (j <= n)%nat -> holds (u_get X x j) (a j)) -> (forall j, (j <= n)%nat -> holds (u_get X y j) (b j)) ->
  holds (fold_left (fun r i => x_add X r (x_mul X (u_get X x i) (u_get X y (n - i)))) (seq 0 i) (x_nul X)) (conv a b n i).
Proof.
  intros i. induction i as [|i IH]; intros I Ha Hb; [apply (h_nul _ _ E)|]. rewrite seq_S, fold_left_app. cbn [fold_left conv]. simpl (0 + i)%nat.
  apply (h_add _ _ E); [apply IH; [lia | exact Ha | exact Hb]|]. apply (h_mul _ _ E); [apply Ha | apply Hb]; lia.
Qed.
Lemma u_mul_good k l x y f g : ustands k x f -> ustands l y g -> ustands (Nat.min k l) (u_mul X x y) (fun t => f t * g t).
Proof.
  intros Gx Gy. unfold u_mul. rewrite (u_deg_len _ _ _ Gx), (u_deg_len _ _ _ Gy). rewrite ustands_T in *. destruct Gx as (Lx & a & Ha & Ta), Gy as (Ly & b & Hb & Tb).
  split; [now rewrite map_length, seq_length|]. exists (cauchy a b). split.
  - intros i I. rewrite u_get_map_seq by lia. apply conv_holds; [lia | |]; intros j J; [apply Ha | apply Hb]; lia.
  - apply Tn_mul; eapply Tn_weaken; [|exact Ta| |exact Tb]; lia.
Qed.
Lemma u_at0 k x f : ustands k x f -> holds (u_get X x 0) (f 0).
Proof.
  rewrite ustands_T. intros (L & a & H & T). destruct T as (K & d & D & B). specialize (B 0 ltac:(rewrite Rabs_R0; lra)). rewrite psum_zero, Rabs_R0, pow_i, Rmult_0_r in B by lia.
  replace (f 0) with (a 0%nat); [apply H; lia|]. pose proof (Rabs_pos (f 0 - a 0%nat)). assert (Q : Rabs (f 0 - a 0%nat) = 0) by lra. unfold Rabs in Q. destruct Rcase_abs; lra.
Qed.
Lemma u_set0_good k x f c r : holds c r -> ustands k x f -> ustands k (u_set0 X x c) (fun t => f t - f 0 + r).
Proof.
  intros C G. rewrite ustands_T in *. destruct G as (L & a & H & T). destruct x as [|x0 x]; [discriminate L|]. split; [exact L|].
  assert (A0 : f 0 = a 0%nat).
  { destruct T as (K & d & D & B). specialize (B 0 ltac:(rewrite Rabs_R0; lra)). rewrite psum_zero, Rabs_R0, pow_i, Rmult_0_r in B by lia.
    pose proof (Rabs_pos (f 0 - a 0%nat)). assert (Q : Rabs (f 0 - a 0%nat) = 0) by lra. unfold Rabs in Q. destruct Rcase_abs; lra. }
  exists (fun i => a i + delta (r - f 0) i). split.
  - intros [|i] I; [cbn; replace (a 0%nat + (r - f 0)) with r by lra; exact C|]. cbn [delta]. rewrite Rplus_0_r. exact (H (S i) I).
  - apply (Tn_near _ (fun t => f t + (r - f 0)) _ _ 1); [lra | intros; ring|]. apply Tn_add; [exact T | apply Tn_const].
Qed.
Lemma u_addc_good k x f c r : holds c r -> ustands k x f -> ustands k (u_addc X x c) (fun t => f t + r).
Proof.
  intros C G. pose proof (h_add _ _ E _ _ _ _ (u_at0 _ _ _ G) C) as H. eapply u_ext; [|exact (u_set0_good k x f _ _ H G)]. intros t. cbv beta. ring.
Qed.
(** Composition. *)
Lemma u_horner_good d ky y w x a : ustands ky y w -> (d <= ky)%nat -> (forall i, (i <= d)%nat -> holds (u_get X x i) (a i)) ->
  forall n r f, (n <= d)%nat -> ustands d r f -> ustands d (u_horner X y x n r) (fun t => f t * w t ^ n + psum a n (w t)).
Proof.
  intros Gy D Ha n. induction n as [|n IH]; intros r f N G; cbn [u_horner]; [eapply u_ext; [|exact G]; intros t; simpl; ring|].
  pose proof (u_mul_good _ _ _ _ _ _ G Gy) as M. rewrite Nat.min_l in M by exact D.
  pose proof (u_set0_good _ _ _ _ _ (h_add _ _ E _ _ _ _ (u_at0 _ _ _ M) (Ha n ltac:(lia))) M) as S0.
  eapply u_ext; [|exact (IH _ _ ltac:(lia) S0)]. intros t. cbv beta. simpl. ring.
Qed.
Lemma O1_comp k g e : O1 1 g -> O1 k e -> O1 k (fun t => e (g t)).
Proof. intros G H. rewrite O1_big in G |- *. exact (big_compose 1 k (fun h => g (nth 0 h 0)) e G H). Qed.
Lemma u_compose_good kx ky x y F g : ustands kx x F -> ustands ky y g -> ustands (Nat.min kx ky) (u_compose X x y) (fun t => F (g t - g 0)).
Proof.
  intros Gx Gy. unfold u_compose. rewrite (u_deg_len _ _ _ Gx), (u_deg_len _ _ _ Gy). set (d := Nat.min kx ky).
  pose proof (u_set0_good _ _ _ _ _ (h_nul _ _ E) Gy) as Gw. pose proof Gx as Gx'. rewrite ustands_T in Gx'. destruct Gx' as (Lx & a & Ha & Ta).
  pose proof (u_constant_good d _ _ (Ha d ltac:(lia))) as Gc.
  pose proof (u_horner_good d ky _ _ x a Gw ltac:(lia) (fun i I => Ha i ltac:(lia)) d _ _ ltac:(lia) Gc) as H.
  rewrite ustands_T in H |- *. destruct H as (L & b & Hb & Tb). split; [exact L|]. exists b. split; [exact Hb|].
  assert (Wo : O1 1 (fun t => g t - g 0)).
  { rewrite ustands_T in Gw. destruct Gw as (_ & c & Hc & Tc). apply (Tn_weaken _ 1) in Tc; [|lia]. unfold Tn in Tc.
    assert (C0 : c 0%nat = 0). { destruct Tc as (K & e & E0 & B). specialize (B 0 ltac:(rewrite Rabs_R0; lra)). simpl in B. rewrite Rabs_R0, Rmult_0_l, Rmult_0_r in B.
      unfold Rabs in B. destruct Rcase_abs; lra. }
    eapply O1_ext; [|exact Tc]. intros t. simpl. rewrite C0. ring. }
  pose proof (O1_comp (S d) _ _ Wo (Tn_weaken (S kx) (S d) _ _ ltac:(lia) Ta)) as Oc.
  unfold Tn in *. eapply O1_ext; [|exact (O1_add _ _ _ Oc Tb)]. intros t. cbv beta. cbn [psum]. replace (g t - g 0 + 0) with (g t - g 0) by ring. ring.
Qed.
Lemma u_unary_good k op x f : has_series op = true -> udom op (f 0) -> ustands k x f -> exists r, u_unary X op x = Ret r /\ ustands k r (fun t => usem op (f t)).
Proof.
  intros H D G. unfold u_unary. rewrite (u_deg_len _ _ _ G). destruct (series_holds X holds E op _ _ (S k) H D (u_at0 _ _ _ G)) as (s & -> & Ls & Hs).
  exists (u_compose X s x). split; [reflexivity|].
  assert (Gs : ustands k s (fun t => usem op (f 0 + t))).
  { rewrite ustands_T. split; [exact Ls|]. exists (tc op (f 0)). split; [intros i I; apply Hs; lia | now apply series_correct]. }
  pose proof (u_compose_good k k s x _ _ Gs G) as C. rewrite Nat.min_id in C. eapply u_ext; [|exact C]. intros t. cbv beta. f_equal. ring.
Qed.
Lemma u_antiderivative_good k x f F c d : 0 < d -> (forall t, Rabs t <= d -> derivable_pt_lim F t (f t)) -> holds c (F 0) -> ustands k x f -> ustands (S k) (u_antiderivative X x c) F.
Proof.
  intros D HF C G. unfold u_antiderivative. rewrite (u_deg_len _ _ _ G). rewrite ustands_T in *. destruct G as (L & a & H & T). split; [simpl; now rewrite map_length, seq_length|].
  exists (fun i => match i with O => F 0 | S i => a i / INR (S i) end). split.
  - intros [|i] I; [exact C|]. change (holds (u_get X (map (fun i0 => x_div X (u_get X x i0) (x_nat X (N.of_nat (i0 + 1)))) (seq 0 (S k))) i) (a i / INR (S i))).
    rewrite u_get_map_seq by lia. apply (h_div _ _ E); [apply H; lia | | apply not_0_INR; lia]. replace (INR (S i)) with (INR (N.to_nat (N.of_nat (i + 1)))) by (f_equal; lia). apply (h_nat _ _ E).
  - apply (Tn_integral (S k) F f _ a d D HF); [reflexivity | exact T|]. intros i I. unfold deriv. field. apply not_0_INR. lia.
Qed.
End Uni.
