(** Power series of the elementary functions. *)
From Coq Require Import NArith List Bool Reals Lra Lia.
From Verif Require Import LRU_Model Poly_Model Poly_Spec Diff_Model Diff_Spec Diff_O_Proofs.
Import ListNotations.
Local Open Scope R_scope.

(** f(t) = O(t^k). *)
Definition O1 (k : nat) (f : R -> R) : Prop := exists K d, 0 < d /\ forall t, Rabs t <= d -> Rabs (f t) <= K * Rabs t ^ k.
Lemma O1_big k f : O1 k f <-> big_O 1 k (fun h => f (nth 0 h 0)).
Proof.
  split; intros (K & d & D & H); exists K, d; (split; [exact D|]).
  - intros [|t [|? ?]] L N; try discriminate L. unfold norm in *. cbn [fold_right nth] in *. rewrite Rmax_left in * by apply Rabs_pos. auto.
  - intros t T. specialize (H [t] eq_refl). unfold norm in *. cbn [fold_right nth] in *. rewrite Rmax_left in * by apply Rabs_pos. auto.
Qed.
Lemma O1_near k f g d : 0 < d -> (forall t, Rabs t <= d -> f t = g t) -> O1 k f -> O1 k g.
Proof.
  intros D Q (K & e & E & H). exists K, (Rmin d e). split; [now apply Rmin_glb_lt|]. intros t T.
  rewrite <- Q by (eapply Rle_trans; [exact T | apply Rmin_l]). apply H. eapply Rle_trans; [exact T | apply Rmin_r].
Qed.
Lemma O1_ext k f g : (forall t, f t = g t) -> O1 k f -> O1 k g.
Proof. intros Q. apply (O1_near k f g 1); [lra | auto]. Qed.
Lemma O1_add k f g : O1 k f -> O1 k g -> O1 k (fun t => f t + g t).
Proof. rewrite !O1_big. apply (O_add 1 k (fun h => f (nth 0 h 0)) (fun h => g (nth 0 h 0))). Qed.
Lemma O1_mul k l f g : O1 k f -> O1 l g -> O1 (k + l) (fun t => f t * g t).
Proof. rewrite !O1_big. apply (O_mul 1 k l (fun h => f (nth 0 h 0)) (fun h => g (nth 0 h 0))). Qed.
Lemma O1_scale k c f : O1 k f -> O1 k (fun t => c * f t).
Proof. rewrite !O1_big. apply (O_scale 1 k c (fun h => f (nth 0 h 0))). Qed.
Lemma O1_weaken k l f : (l <= k)%nat -> O1 k f -> O1 l f.
Proof. rewrite !O1_big. apply O_weaken. Qed.
Lemma O1_zero k : O1 k (fun _ => 0).
Proof. rewrite O1_big. apply O_zero. Qed.
Lemma O1_const c : O1 0 (fun _ => c).
Proof. rewrite O1_big. apply O_const. Qed.
Lemma O1_pow k : O1 k (fun t => t ^ k).
Proof. exists 1, 1. split; [lra|]. intros t _. rewrite <- RPow_abs. lra. Qed.

(** ** Sums of powers *)
Fixpoint psum (a : nat -> R) (n : nat) (t : R) : R := match n with O => 0 | S n => psum a n t + a n * t ^ n end.
Definition shift (a : nat -> R) (n : nat) : R := match n with O => 0 | S n => a n end.
Definition deriv (a : nat -> R) (n : nat) : R := INR (S n) * a (S n).
Fixpoint conv (a b : nat -> R) (n i : nat) : R := match i with O => 0 | S i => conv a b n i + a i * b (n - i)%nat end.
Definition cauchy (a b : nat -> R) (n : nat) : R := conv a b n (S n).

Lemma psum_ext a b n t : (forall i, (i < n)%nat -> a i = b i) -> psum a n t = psum b n t.
Proof. induction n as [|n IH]; intros H; [reflexivity|]. simpl. rewrite IH by (intros; apply H; lia). rewrite H by lia. reflexivity. Qed.
Lemma psum_add a b n t : psum (fun i => a i + b i) n t = psum a n t + psum b n t.
Proof. induction n as [|n IH]; simpl; [ring|]. rewrite IH. ring. Qed.
Lemma psum_scale c a n t : psum (fun i => c * a i) n t = c * psum a n t.
Proof. induction n as [|n IH]; simpl; [ring|]. rewrite IH. ring. Qed.
Lemma psum_shift a n t : psum (shift a) (S n) t = t * psum a n t.
Proof.
  induction n as [|n IH]; [simpl; ring|]. change (psum (shift a) (S (S n)) t) with (psum (shift a) (S n) t + a n * t ^ S n).
  rewrite IH. simpl. ring.
Qed.
Lemma psum_head a n t : psum a (S n) t = a O + t * psum (fun i => a (S i)) n t.
Proof.
  induction n as [|n IH]; [simpl; ring|]. change (psum a (S (S n)) t) with (psum a (S n) t + a (S n) * t ^ S n). rewrite IH. simpl. ring.
Qed.
Lemma psum_zero a n : psum a (S n) 0 = a O.
Proof. rewrite psum_head. ring. Qed.
Lemma psum_bounded a n : O1 0 (psum a n).
Proof.
  induction n as [|n IH]; [apply O1_zero|]. apply (O1_add 0 (psum a n) (fun t => a n * t ^ n)); [exact IH|].
  apply O1_scale. apply (O1_weaken n); [lia | apply O1_pow].
Qed.
(** The terms from degree n to m. *)
Lemma psum_diff a n m : (n <= m)%nat -> O1 n (fun t => psum a m t - psum a n t).
Proof.
  induction 1 as [|m L IH]; [eapply O1_ext; [|apply (O1_zero n)]; intros t; simpl; ring|].
  eapply O1_ext; [|apply (O1_add n _ (fun t => a m * t ^ m) IH)]; [intros t; simpl; ring|]. apply O1_scale, (O1_weaken m); [lia | apply O1_pow].
Qed.

(** ** Expansions to order n *)
Definition Tn (n : nat) (f : R -> R) (a : nat -> R) : Prop := O1 n (fun t => f t - psum a n t).
Lemma Tn_near n f g a d : 0 < d -> (forall t, Rabs t <= d -> f t = g t) -> Tn n f a -> Tn n g a.
Proof. intros D Q. apply O1_near with (d := d); [exact D|]. intros t T. now rewrite Q. Qed.
Lemma Tn_coef n f a b : (forall i, (i < n)%nat -> a i = b i) -> Tn n f a -> Tn n f b.
Proof. intros Q. apply O1_ext. intros t. now rewrite (psum_ext a b n t Q). Qed.
Lemma Tn_weaken n m f a : (m <= n)%nat -> Tn n f a -> Tn m f a.
Proof.
  intros L H. eapply O1_ext; [|apply O1_add; [exact (O1_weaken n m _ L H) | exact (psum_diff a m n L)]]. intros t; simpl; ring.
Qed.
Lemma Tn_bounded n f a : Tn n f a -> O1 0 f.
Proof. intros H. eapply O1_ext; [|apply O1_add; [exact (O1_weaken n 0 _ (Nat.le_0_l n) H) | exact (psum_bounded a n)]]. intros t; simpl; ring. Qed.
Lemma Tn_add n f g a b : Tn n f a -> Tn n g b -> Tn n (fun t => f t + g t) (fun i => a i + b i).
Proof. intros F G. eapply O1_ext; [|exact (O1_add _ _ _ F G)]. intros t. cbv beta. rewrite psum_add. ring. Qed.
Lemma Tn_scale n c f a : Tn n f a -> Tn n (fun t => c * f t) (fun i => c * a i).
Proof. intros F. eapply O1_ext; [|exact (O1_scale _ c _ F)]. intros t. cbv beta. rewrite psum_scale. ring. Qed.
Definition delta (c : R) (i : nat) : R := match i with O => c | _ => 0 end.
Lemma psum_delta c n t : psum (delta c) (S n) t = c.
Proof. induction n as [|n IH]; [simpl; ring|]. change (psum (delta c) (S n) t + 0 * t ^ S n = c). rewrite IH. ring. Qed.
Lemma Tn_const n c : Tn n (fun _ => c) (delta c).
Proof.
  apply (Tn_weaken (S n)); [lia|]. eapply O1_ext; [|apply O1_zero]. intros t. cbv beta. rewrite psum_delta. ring.
Qed.
Lemma Tn_shift n f a : Tn n f a -> Tn (S n) (fun t => t * f t) (shift a).
Proof.
  intros H. pose proof (O1_mul 1 n (fun t => t) _ ltac:(apply (O1_ext 1 (fun t => t ^ 1)); [intros; ring | apply O1_pow]) H) as M.
  eapply O1_ext; [|exact M]. intros t. cbv beta. rewrite psum_shift. ring.
Qed.
(** Products. *)
Lemma conv_ext a b a' b' n i : (forall j, (j < i)%nat -> a j = a' j) -> (forall j, (j <= n)%nat -> b j = b' j) -> conv a b n i = conv a' b' n i.
Proof. intros A B. induction i as [|i IH]; [reflexivity|]. simpl. rewrite IH by (intros; apply A; lia). rewrite A, B by lia. reflexivity. Qed.
Lemma conv_head a b n i : conv a b (S n) (S i) = a O * b (S n) + conv (fun j => a (S j)) b n i.
Proof.
  induction i as [|i IH]; [simpl; ring|]. change (conv a b (S n) (S (S i))) with (conv a b (S n) (S i) + a (S i) * b (S n - S i)%nat).
  rewrite IH. change (S n - S i)%nat with (n - i)%nat. simpl. ring.
Qed.
Lemma cauchy_head a b n : cauchy a b (S n) = a O * b (S n) + cauchy (fun j => a (S j)) b n.
Proof. apply conv_head. Qed.
Lemma psum_cauchy_head a b n t : psum (cauchy a b) (S n) t = a O * psum b (S n) t + t * psum (cauchy (fun j => a (S j)) b) n t.
Proof.
  induction n as [|n IH]; [unfold cauchy; simpl; ring|].
  change (psum (cauchy a b) (S (S n)) t) with (psum (cauchy a b) (S n) t + cauchy a b (S n) * t ^ S n). rewrite IH, cauchy_head. simpl. ring.
Qed.
Lemma psum_mul b n : forall a, O1 n (fun t => psum a n t * psum b n t - psum (cauchy a b) n t).
Proof.
  induction n as [|n IH]; intros a; [eapply O1_ext; [|apply O1_zero]; intros t; simpl; ring|].
  assert (I : O1 1 (fun t => t)) by (apply (O1_ext 1 (fun t => t ^ 1)); [intros; ring | apply O1_pow]).
  pose proof (O1_mul 0 n _ _ (psum_bounded (fun j => a (S j)) n) (psum_diff b n (S n) ltac:(lia))) as A.
  pose proof (O1_mul 1 n _ _ I (O1_add _ _ _ (IH (fun j => a (S j))) A)) as B.
  eapply O1_ext; [|exact B]. intros t. cbv beta. rewrite psum_cauchy_head, (psum_head a). ring.
Qed.
Lemma Tn_mul n f g a b : Tn n f a -> Tn n g b -> Tn n (fun t => f t * g t) (cauchy a b).
Proof.
  intros F G. pose proof (O1_mul n 0 _ _ F (Tn_bounded _ _ _ G)) as A. rewrite Nat.add_0_r in A.
  pose proof (O1_mul 0 n _ _ (psum_bounded a n) G) as B.
  eapply O1_ext; [|exact (O1_add _ _ _ (O1_add _ _ _ A B) (psum_mul b n a))]. intros t. cbv beta. ring.
Qed.
(** Integration. *)
Lemma psum_derive a n t : derivable_pt_lim (psum a (S n)) t (psum (deriv a) n t).
Proof.
  induction n as [|n IH].
  - replace (psum (deriv a) 0 t) with (0 + a O * 0) by (simpl; ring).
    apply (derivable_pt_lim_plus (fun _ => 0) (fun t => a O * t ^ 0)); [apply derivable_pt_lim_const|].
    apply (derivable_pt_lim_scal (fun t => t ^ 0)). apply derivable_pt_lim_const.
  - change (psum (deriv a) (S n) t) with (psum (deriv a) n t + INR (S n) * a (S n) * t ^ n).
    apply (derivable_pt_lim_plus (psum a (S n)) (fun t => a (S n) * t ^ S n)); [exact IH|].
    replace (INR (S n) * a (S n) * t ^ n) with (a (S n) * (INR (S n) * t ^ n)) by ring.
    apply (derivable_pt_lim_scal (fun t => t ^ S n)). apply (derivable_pt_lim_pow t (S n)).
Qed.
Lemma Tn_integral n f g a b d : 0 < d -> (forall t, Rabs t <= d -> derivable_pt_lim f t (g t)) -> f 0 = a O ->
  Tn n g b -> (forall i, (i < n)%nat -> deriv a i = b i) -> Tn (S n) f a.
Proof.
  intros D F F0 (K & e & E & H) Q. exists K, (Rmin d e). split; [now apply Rmin_glb_lt|]. intros t T.
  assert (T1 : Rabs t <= d) by (eapply Rle_trans; [exact T | apply Rmin_l]).
  assert (T2 : Rabs t <= e) by (eapply Rle_trans; [exact T | apply Rmin_r]).
  assert (B : forall c, Rmin 0 t <= c <= Rmax 0 t -> Rabs c <= Rabs t).
  { intros c [C1 C2]. unfold Rmin, Rmax in *. destruct (Rle_dec 0 t); unfold Rabs; repeat destruct Rcase_abs; lra. }
  destruct (MVT_abs (fun t => f t - psum a (S n) t) (fun t => g t - psum b n t) 0 t) as (c & M & C).
  - intros c C. apply derivable_pt_lim_minus; [apply F; eapply Rle_trans; [apply B, C | exact T1]|].
    rewrite <- (psum_ext (deriv a) b n c Q). apply psum_derive.
  - cbv beta in M. rewrite F0, psum_zero, !Rminus_eq_0, !Rminus_0_r in M. rewrite M.
    assert (K0 : 0 <= K * Rabs t ^ n) by (eapply Rle_trans; [apply Rabs_pos | apply (H t T2)]).
    specialize (H c ltac:(eapply Rle_trans; [apply B, C | exact T2])).
    destruct (Req_dec t 0) as [->|N0].
    + rewrite Rabs_R0, Rmult_0_r. simpl. rewrite Rmult_0_l, Rmult_0_r. lra.
    + assert (P : 0 < Rabs t ^ n) by (apply pow_lt, Rabs_pos_lt, N0). assert (KP : 0 <= K) by (apply (Rmult_le_reg_r (Rabs t ^ n)); lra).
      replace (K * Rabs t ^ S n) with (K * Rabs t ^ n * Rabs t) by (simpl; ring).
      apply Rmult_le_compat_r; [apply Rabs_pos|]. eapply Rle_trans; [exact H|]. apply Rmult_le_compat_l; [exact KP|].
      apply pow_incr. split; [apply Rabs_pos | apply B, C].
Qed.
Lemma derivable_bounded f l : derivable_pt_lim f 0 l -> O1 0 f.
Proof.
  intros D. destruct (D 1 ltac:(lra)) as [e H]. exists (Rabs (f 0) + (Rabs l + 1) * (e / 2)), (e / 2). pose proof (cond_pos e) as E.
  split; [lra|]. intros t T. rewrite pow_O, Rmult_1_r. destruct (Req_dec t 0) as [->|N0].
  - pose proof (Rabs_pos l). pose proof (Rmult_le_pos (Rabs l + 1) (e / 2)). lra.
  - specialize (H t N0 ltac:(lra)). rewrite Rplus_0_l in H.
    replace (f t) with (f 0 + (((f t - f 0) / t - l) + l) * t) by (field; exact N0).
    eapply Rle_trans; [apply Rabs_triang|]. apply Rplus_le_compat_l. rewrite Rabs_mult.
    apply Rmult_le_compat; try apply Rabs_pos; [|lra]. eapply Rle_trans; [apply Rabs_triang|]. lra.
Qed.
Lemma Tn_0 f a l : derivable_pt_lim f 0 l -> Tn 0 f a.
Proof. intros D. eapply O1_ext; [|exact (derivable_bounded f l D)]. intros t; simpl; ring. Qed.

(** ** The elementary functions *)
Lemma Tn_id n r : Tn n (fun t => r + t) (fun i => match i with O => r | S O => 1 | _ => 0 end).
Proof.
  apply (Tn_weaken (S (S n))); [lia|]. eapply O1_ext; [|apply O1_zero]. intros t. cbv beta.
  induction n as [|n IH]; [simpl; ring|].
  match goal with |- _ = _ - psum ?a (S (S (S n))) t => change (psum a (S (S (S n))) t) with (psum a (S (S n)) t + 0 * t ^ (S (S n))) end.
  rewrite Rmult_0_l, Rplus_0_r. exact IH.
Qed.
(** f' = f. *)
Lemma exp_series r a : a O = exp r -> (forall d, INR (S d) * a (S d) = a d) -> forall n, Tn n (fun t => exp (r + t)) a.
Proof.
  intros A0 A n.
  assert (D : forall t, derivable_pt_lim (fun t => exp (r + t)) t (exp (r + t))).
  { intros t. replace (exp (r + t)) with (exp (r + t) * (0 + 1)) by ring. apply (derivable_pt_lim_comp (fun t => r + t) exp); [|apply derivable_pt_lim_exp].
    apply (derivable_pt_lim_plus (fun _ => r) (fun t => t)); [apply derivable_pt_lim_const | apply derivable_pt_lim_id]. }
  induction n as [|n IH]; [exact (Tn_0 _ _ _ (D 0))|].
  apply (Tn_integral n _ (fun t => exp (r + t)) a a 1); [lra | intros; apply D | now rewrite Rplus_0_r | exact IH | intros i _; apply A].
Qed.
(** f' = g, g' = -f. *)
Lemma circular_series f g a : (forall t, derivable_pt_lim f t (g t)) -> (forall t, derivable_pt_lim g t (- f t)) ->
  f 0 = a 0%nat -> g 0 = a 1%nat -> (forall d, INR (S d) * (INR (S (S d)) * a (S (S d))) = - a d) -> forall n, Tn n f a /\ Tn n g (deriv a).
Proof.
  intros F G F0 G0 A n. induction n as [|n [IF IG]]; [split; [exact (Tn_0 _ _ _ (F 0)) | exact (Tn_0 _ _ _ (G 0))]|]. split.
  - apply (Tn_integral n f g a (deriv a) 1); auto; lra.
  - apply (Tn_integral n g (fun t => (-1) * f t) (deriv a) (fun i => (-1) * a i) 1); [lra | | unfold deriv; simpl; lra | now apply Tn_scale |].
    + intros t _. replace (-1 * f t) with (- f t) by ring. apply G.
    + intros i _. unfold deriv. rewrite A. ring.
Qed.
Lemma derive_sub (f : R -> R) l r t : derivable_pt_lim f (r + t) l -> derivable_pt_lim (fun t => f (r + t)) t l.
Proof.
  intros D. replace l with (l * (0 + 1)) by ring. apply (derivable_pt_lim_comp (fun t => r + t) f); [|exact D].
  apply (derivable_pt_lim_plus (fun _ => r) (fun t => t)); [apply derivable_pt_lim_const | apply derivable_pt_lim_id].
Qed.
Lemma sin_series r a : a 0%nat = sin r -> a 1%nat = cos r -> (forall d, INR (S d) * (INR (S (S d)) * a (S (S d))) = - a d) -> forall n, Tn n (fun t => sin (r + t)) a.
Proof.
  intros A0 A1 A n. apply (circular_series (fun t => sin (r + t)) (fun t => cos (r + t)) a).
  - intros t. apply derive_sub, derivable_pt_lim_sin. - intros t. apply (derive_sub cos), derivable_pt_lim_cos.
  - now rewrite Rplus_0_r. - now rewrite Rplus_0_r. - exact A.
Qed.
Lemma cos_series r a : a 0%nat = cos r -> a 1%nat = - sin r -> (forall d, INR (S d) * (INR (S (S d)) * a (S (S d))) = - a d) -> forall n, Tn n (fun t => cos (r + t)) a.
Proof.
  intros A0 A1 A n. apply (circular_series (fun t => cos (r + t)) (fun t => - sin (r + t)) a).
  - intros t. apply derive_sub, derivable_pt_lim_cos.
  - intros t. apply (derive_sub (fun u => - sin u)). apply (derivable_pt_lim_opp sin), derivable_pt_lim_sin.
  - now rewrite Rplus_0_r. - now rewrite Rplus_0_r. - exact A.
Qed.
Lemma away r t : r <> 0 -> Rabs t <= Rabs r / 2 -> r + t <> 0.
Proof. intros N T Q. assert (t = - r) by lra. subst t. rewrite Rabs_Ropp in T. pose proof (Rabs_pos_lt r N). lra. Qed.
Lemma rec_derive x : x <> 0 -> derivable_pt_lim Rinv x (- / (x * x)).
Proof.
  intros N. replace (- / (x * x)) with ((0 * x - 1 * 1) / Rsqr x) by (unfold Rsqr; field; exact N).
  assert (D : derivable_pt_lim (fun y => 1 / y) x ((0 * x - 1 * 1) / Rsqr x)).
  { apply (derivable_pt_lim_div (fun _ => 1) (fun y => y)); [apply derivable_pt_lim_const | apply derivable_pt_lim_id | exact N]. }
  intros e E. destruct (D e E) as [dl H]. exists dl. intros h H0 H1. specialize (H h H0 H1). unfold Rdiv in *. rewrite !Rmult_1_l in *. exact H.
Qed.
Lemma rec_series r a : r <> 0 -> a 0%nat = / r -> (forall d, a (S d) = a d * - a 0%nat) -> forall n, Tn n (fun t => / (r + t)) a.
Proof.
  intros R0 A0 A n. pose proof (Rabs_pos_lt r R0) as P. induction n as [|n IH].
  - eapply Tn_0, derive_sub, rec_derive. now rewrite Rplus_0_r.
  - apply (Tn_near (S n) (fun t => / r + (- / r) * (t * / (r + t))) _ _ (Rabs r / 2)); [lra | |].
    + intros t T. field. split; [now apply away | exact R0].
    + apply (Tn_coef (S n) _ (fun i => delta (/ r) i + (- / r) * shift a i)).
      * intros [|i] _; simpl; [rewrite A0; ring | rewrite A, A0; ring].
      * apply Tn_add; [apply Tn_const | apply Tn_scale, Tn_shift, IH].
Qed.
Lemma log_series r a : 0 < r -> a 0%nat = ln r -> a 1%nat = / r -> (forall d, INR (S (S d)) * a (S (S d)) = - a (S d) * a 1%nat * INR (S d)) ->
  forall n, Tn n (fun t => ln (r + t)) a.
Proof.
  intros R0 A0 A1 A n. apply (Tn_weaken (S n)); [lia|].
  assert (D : forall t, Rabs t <= r / 2 -> derivable_pt_lim (fun t => ln (r + t)) t (/ (r + t))).
  { intros t T. apply derive_sub, derivable_pt_lim_ln. unfold Rabs in T; destruct Rcase_abs in T; lra. }
  apply (Tn_integral n _ (fun t => / (r + t)) a (deriv a) (r / 2)); [lra | exact D | now rewrite Rplus_0_r | | reflexivity].
  apply rec_series; [lra | unfold deriv; simpl; rewrite A1; ring |].
  intros d. unfold deriv. rewrite A. simpl (INR 1). ring.
Qed.
Lemma sqrt_series r a : 0 < r -> a 0%nat = sqrt r -> (forall d, r * (INR (S d) * a (S d)) = (/ 2 - INR d) * a d) ->
  forall n, Tn n (fun t => sqrt (r + t)) a.
Proof.
  intros R0 A0 A n. apply (Tn_weaken (S n)); [lia|]. set (g := fun t => / (2 * sqrt (r + t))).
  assert (Pos : forall t, Rabs t <= r / 2 -> 0 < r + t) by (intros t T; unfold Rabs in T; destruct Rcase_abs in T; lra).
  assert (D : forall t, Rabs t <= r / 2 -> derivable_pt_lim (fun t => sqrt (r + t)) t (g t)).
  { intros t T. apply derive_sub, derivable_pt_lim_sqrt, Pos, T. }
  assert (SI : forall k, Tn k g (deriv a) -> Tn (S k) (fun t => sqrt (r + t)) a).
  { intros k. intros G. apply (Tn_integral k _ g a (deriv a) (r / 2)); [lra | exact D | now rewrite Rplus_0_r | exact G | reflexivity]. }
  apply SI. induction n as [|n IH].
  - eapply O1_ext; [intros t; symmetry; apply Rminus_0_r|]. exists (/ (2 * sqrt (r / 2))), (r / 2). split; [lra|]. intros t T.
    unfold g. rewrite pow_O, Rmult_1_r. assert (Q : 0 < sqrt (r / 2)) by (apply sqrt_lt_R0; lra).
    assert (L : sqrt (r / 2) <= sqrt (r + t)) by (apply sqrt_le_1_alt; unfold Rabs in T; destruct Rcase_abs in T; lra).
    rewrite Rabs_pos_eq by (apply Rlt_le, Rinv_0_lt_compat; lra). apply Rinv_le_contravar; lra.
  - apply (Tn_near (S n) (fun t => / r * (/ 2 * sqrt (r + t) + (-1) * (t * g t))) _ _ (r / 2)); [lra | |].
    + intros t T. specialize (Pos t T). unfold g. pose proof (sqrt_lt_R0 _ Pos). rewrite <- (sqrt_sqrt (r + t)) at 1 by lra.
      assert (Q : t = sqrt (r + t) * sqrt (r + t) - r) by (rewrite sqrt_sqrt; lra). set (s := sqrt (r + t)) in *. rewrite Q at 1. rewrite sqrt_square by lra. field. lra.
    + apply (Tn_coef (S n) _ (fun i => / r * (/ 2 * a i + (-1) * shift (deriv a) i))).
      * intros i _. unfold deriv at 2. apply (Rmult_eq_reg_l r); [|lra]. rewrite <- Rmult_assoc, Rinv_r, Rmult_1_l, A by lra. destruct i as [|i]; simpl shift; [simpl; ring|].
        unfold deriv. ring.
      * apply Tn_scale, Tn_add; [apply Tn_scale, SI, IH | apply Tn_scale, Tn_shift, IH].
Qed.
Lemma atan_series r a : a 0%nat = atan r -> a 1%nat = / (1 + r * r) -> INR 2 * a 2%nat = - a 1%nat * (2 * r * a 1%nat) ->
  (forall d, INR (S (S (S d))) * a (S (S (S d))) = - a 1%nat * (INR (S d) * a (S d) + 2 * INR (S (S d)) * r * a (S (S d)))) ->
  forall n, Tn n (fun t => atan (r + t)) a.
Proof.
  intros A0 A1 A2 A n. apply (Tn_weaken (S n)); [lia|]. set (g := fun t => / (1 + (r + t) * (r + t))).
  assert (P : forall x, 0 < 1 + x * x) by (intros x; pose proof (Rle_0_sqr x); unfold Rsqr in *; lra).
  assert (D : forall t, derivable_pt_lim (fun t => atan (r + t)) t (g t)).
  { intros t. apply derive_sub. unfold g. replace (/ (1 + (r + t) * (r + t))) with (/ (1 + (r + t) ^ 2)) by (f_equal; ring). apply derivable_pt_lim_atan. }
  apply (Tn_integral n _ g a (deriv a) 1); [lra | intros; apply D | now rewrite Rplus_0_r | | reflexivity].
  induction n as [|n IH].
  - eapply O1_ext; [intros t; symmetry; apply Rminus_0_r|]. exists 1, 1. split; [lra|]. intros t T. rewrite pow_O, Rmult_1_r. unfold g.
    pose proof (P (r + t)). rewrite Rabs_pos_eq by (apply Rlt_le, Rinv_0_lt_compat; lra). rewrite <- Rinv_1. apply Rinv_le_contravar; [lra|].
    pose proof (Rle_0_sqr (r + t)). unfold Rsqr in *. lra.
  - set (k := / (1 + r * r)) in *. apply (Tn_near (S n) (fun t => k + (- k) * (2 * r * (t * g t) + t * (t * g t))) _ _ 1); [lra | |].
    + intros t _. unfold g, k. pose proof (P r). pose proof (P (r + t)). field. lra.
    + apply (Tn_coef (S n) _ (fun i => delta k i + (- k) * (2 * r * shift (deriv a) i + shift (shift (deriv a)) i))).
      * intros [|[|i]] _; unfold deriv; cbn [delta shift].
        -- rewrite A1. simpl INR. ring.
        -- rewrite A2, A1. simpl INR. ring.
        -- rewrite A, A1. unfold deriv. ring.
      * apply Tn_add; [apply Tn_const|]. apply Tn_scale, Tn_add; [apply Tn_scale, Tn_shift, IH|].
        apply (Tn_weaken (S (S n))); [lia|]. apply Tn_shift, Tn_shift, IH.
Qed.
