(** Estimates near zero. *)
From Coq Require Import NArith List Bool Reals Lra Lia Permutation.
From Verif Require Import Poly_Model Poly_Spec Poly_Proofs Diff_Model Diff_Spec.
Import ListNotations.
Local Open Scope R_scope.

Lemma norm_nonneg h : 0 <= norm h.
Proof. destruct h; simpl; [lra|]. eapply Rle_trans; [apply Rabs_pos | apply Rmax_l]. Qed.
Lemma norm_in h x : In x h -> Rabs x <= norm h.
Proof.
  induction h as [|y h IH]; simpl; [tauto|]. intros [->|I]; [apply Rmax_l|].
  eapply Rle_trans; [apply IH, I | apply Rmax_r].
Qed.
Lemma norm_nth h i : Rabs (nth i h 0) <= norm h.
Proof.
  destruct (Nat.lt_ge_cases i (length h)) as [L|L].
  - apply norm_in, nth_In, L.
  - rewrite nth_overflow, Rabs_R0 by exact L. apply norm_nonneg.
Qed.
Lemma norm_le h m : 0 <= m -> (forall x, In x h -> Rabs x <= m) -> norm h <= m.
Proof.
  intros M; induction h as [|y h IH]; simpl; intros H; [exact M|].
  apply Rmax_lub; [apply H; now left | apply IH; intros x I; apply H; now right].
Qed.
Lemma norm_app a b : norm (a ++ b) = Rmax (norm a) (norm b).
Proof.
  induction a as [|x a IH]; simpl; [|now rewrite IH, Rmax_assoc].
  symmetry; apply Rmax_right, norm_nonneg.
Qed.
Lemma norm_zeros n : norm (repeat 0 n) = 0.
Proof.
  apply Rle_antisym; [|apply norm_nonneg].
  apply norm_le; [lra|]. intros x I; apply repeat_spec in I as ->; rewrite Rabs_R0; lra.
Qed.

Lemma rpoly_cons a c p h : rpoly ((a, c) :: p) h = c * monom 1 Rmult a h + rpoly p h.
Proof. reflexivity. Qed.
Lemma rpoly_nil h : rpoly [] h = 0.
Proof. reflexivity. Qed.
Lemma rpoly_app p q h : rpoly (p ++ q) h = rpoly p h + rpoly q h.
Proof. unfold rpoly. apply (poly_app RTheory). Qed.
Lemma rpoly_perm p q h : Permutation p q -> rpoly p h = rpoly q h.
Proof. apply (poly_perm RTheory). Qed.
Lemma power_pow x n : power 1 Rmult x n = x ^ n.
Proof. induction n as [|n IH]; simpl; [reflexivity | now rewrite IH]. Qed.

Lemma monom_bound a : forall h m, length a = length h -> norm h <= m -> Rabs (monom 1 Rmult a h) <= m ^ N.to_nat (total a).
Proof.
  induction a as [|x a IH]; intros [|y h] m L H; simpl in *; try discriminate L.
  - rewrite Rabs_R1; lra.
  - rewrite power_pow, Rabs_mult. rewrite N2Nat.inj_add, pow_add.
    pose proof (Rle_trans _ _ _ (Rmax_l _ _) H) as Hy. pose proof (Rle_trans _ _ _ (Rmax_r _ _) H) as Hh.
    apply Rmult_le_compat; [apply Rabs_pos | apply Rabs_pos | |].
    + rewrite <- RPow_abs. apply pow_incr. split; [apply Rabs_pos | exact Hy].
    + apply IH; [lia | exact Hh].
Qed.

Section O.
Context (n : nat).
Notation O := (big_O n).

Lemma O_ext k f g : (forall h, length h = n -> f h = g h) -> O k f -> O k g.
Proof.
  intros E (K & d & D & H). exists K, d. split; [exact D|]. intros h L N. rewrite <- (E h L). now apply H.
Qed.
Lemma O_norm k : O k (fun h => norm h ^ k).
Proof.
  exists 1, 1. split; [lra|]. intros h L N. rewrite Rabs_right; [lra|]. apply Rle_ge, pow_le, norm_nonneg.
Qed.
(** A constant that is not negative, below any given radius. *)
Lemma O_small k f : O k f -> forall m, 0 < m -> exists K d, 0 <= K /\ 0 < d <= m /\
  forall h, length h = n -> norm h <= d -> Rabs (f h) <= K * norm h ^ k.
Proof.
  intros (K & d & D & H) m M. exists (Rmax K 0), (Rmin d m). split; [apply Rmax_r|]. split.
  { split; [now apply Rmin_glb_lt | apply Rmin_r]. }
  intros h L N. eapply Rle_trans; [apply H; [exact L|]|].
  - eapply Rle_trans; [exact N | apply Rmin_l].
  - apply Rmult_le_compat_r; [apply pow_le, norm_nonneg | apply Rmax_l].
Qed.
Lemma O_bound k f g : (forall h, length h = n -> norm h <= 1 -> Rabs (g h) <= Rabs (f h)) -> O k f -> O k g.
Proof.
  intros E H. destruct (O_small _ _ H 1) as (K & d & KP & [D D1] & B); [lra|]. exists K, d. split; [exact D|].
  intros h L N. eapply Rle_trans; [apply E; [exact L | lra] | now apply B].
Qed.
Lemma O_zero k : O k (fun _ => 0).
Proof. exists 0, 1. split; [lra|]. intros; rewrite Rabs_R0; lra. Qed.
Lemma O_add k f g : O k f -> O k g -> O k (fun h => f h + g h).
Proof.
  intros F G. destruct (O_small _ _ F 1) as (K & d & KP & [D D1] & B); [lra|].
  destruct (O_small _ _ G 1) as (K' & d' & KP' & [D' D1'] & B'); [lra|].
  exists (K + K'), (Rmin d d'). split; [now apply Rmin_glb_lt|]. intros h L N.
  eapply Rle_trans; [apply Rabs_triang|]. rewrite Rmult_plus_distr_r.
  apply Rplus_le_compat; [apply B | apply B']; try exact L; eapply Rle_trans; try exact N; [apply Rmin_l | apply Rmin_r].
Qed.
Lemma O_mul k l f g : O k f -> O l g -> O (k + l) (fun h => f h * g h).
Proof.
  intros F G. destruct (O_small _ _ F 1) as (K & d & KP & [D D1] & B); [lra|].
  destruct (O_small _ _ G 1) as (K' & d' & KP' & [D' D1'] & B'); [lra|].
  exists (K * K'), (Rmin d d'). split; [now apply Rmin_glb_lt|]. intros h L N.
  rewrite Rabs_mult, pow_add.
  replace (K * K' * (norm h ^ k * norm h ^ l)) with ((K * norm h ^ k) * (K' * norm h ^ l)) by ring.
  apply Rmult_le_compat; try apply Rabs_pos; [apply B | apply B']; try exact L; eapply Rle_trans; try exact N; [apply Rmin_l | apply Rmin_r].
Qed.
Lemma O_const c : O 0 (fun _ => c).
Proof. exists (Rabs c), 1. split; [lra|]. intros; simpl; lra. Qed.
Lemma O_scale k c f : O k f -> O k (fun h => c * f h).
Proof. intros H. exact (O_mul 0 k _ _ (O_const c) H). Qed.
Lemma O_neg k f : O k f -> O k (fun h => - f h).
Proof. intros H. eapply O_ext; [|exact (O_scale k (-1) _ H)]. intros; simpl; ring. Qed.
Lemma O_sub k f g : O k f -> O k g -> O k (fun h => f h - g h).
Proof. intros F G. exact (O_add _ _ _ F (O_neg _ _ G)). Qed.
Lemma O_weaken k l f : (l <= k)%nat -> O k f -> O l f.
Proof.
  intros LE H. destruct (O_small _ _ H 1) as (K & d & KP & [D D1] & B); [lra|]. exists K, d. split; [exact D|].
  intros h L N. eapply Rle_trans; [apply B; assumption|]. apply Rmult_le_compat_l; [exact KP|].
  replace k with ((k - l) + l)%nat by lia. rewrite pow_add.
  rewrite <- (Rmult_1_l (norm h ^ l)) at 2. apply Rmult_le_compat_r; [apply pow_le, norm_nonneg|].
  rewrite <- (pow1 (k - l)). apply pow_incr. split; [apply norm_nonneg | lra].
Qed.
Lemma O_pow k f m : O k f -> O (m * k) (fun h => f h ^ m).
Proof.
  intros H; induction m as [|m IH]; simpl; [apply O_const|]. exact (O_mul _ _ _ _ H IH).
Qed.
Lemma O_monom a : length a = n -> O (N.to_nat (total a)) (monom 1 Rmult a).
Proof.
  intros L. exists 1, 1. split; [lra|]. intros h Lh N. rewrite Rmult_1_l. apply monom_bound; [congruence | lra].
Qed.
Lemma O_nth i : (i < n)%nat -> O 1 (fun h => nth i h 0).
Proof. intros L. exists 1, 1. split; [lra|]. intros h Lh N. simpl. rewrite Rmult_1_l, Rmult_1_r. apply norm_nth. Qed.
(** A polynomial with no term below degree k. *)
Lemma O_rpoly k p : List.Forall (fun m => length (fst m) = n /\ (k <= N.to_nat (total (fst m)))%nat) p -> O k (rpoly p).
Proof.
  induction 1 as [|[a c] p [L T] _ IH]; [apply O_zero|].
  apply (O_ext k (fun h => c * monom 1 Rmult a h + rpoly p h)); [reflexivity|].
  apply O_add; [|exact IH]. apply O_scale. apply (O_weaken _ _ _ T). apply O_monom, L.
Qed.
Lemma O_rpoly0 p : List.Forall (fun m => length (fst m) = n) p -> O 0 (rpoly p).
Proof. intros H. apply O_rpoly. revert H. apply List.Forall_impl. intros m L. split; [exact L | lia]. Qed.
(** f = p + O(k+1) is bounded. *)
Lemma O_bounded k f p : List.Forall (fun m => length (fst m) = n) p -> O k (fun h => f h - rpoly p h) -> O 0 f.
Proof.
  intros P H. eapply O_ext; [|apply O_add; [apply (O_weaken k 0); [lia | exact H] | exact (O_rpoly0 p P)]].
  intros h _; simpl; ring.
Qed.
End O.
