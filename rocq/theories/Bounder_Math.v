(** A box which the Euler map sends into itself bounds the solutions of a differential equation. *)
From Coq Require Import Reals Lia Lra Psatz.
Local Open Scope R_scope.

Lemma Rabs_le_inv a b : Rabs a <= b -> - b <= a <= b.
Proof. unfold Rabs. destruct Rcase_abs; lra. Qed.

(** A continuous function with derivative [g] inside has a mean value. *)
Lemma mean_slope (f g : R -> R) a b : a < b -> (forall s, a <= s <= b -> continuity_pt f s) ->
  (forall s, a < s < b -> derivable_pt_lim f s (g s)) -> exists c, a < c < b /\ f b - f a = (b - a) * g c.
Proof.
  intros L C D.
  assert (forall c, a < c < b -> derivable_pt f c) as pr1 by (intros c Hc; exists (g c); apply D; auto).
  assert (forall c, a < c < b -> derivable_pt id c) as pr2 by (intros; apply derivable_pt_id).
  destruct (MVT f id a b pr1 pr2 L C) as (c & Hc & E).
  { intros; apply derivable_continuous_pt, derivable_pt_id. }
  exists c. split; auto. unfold id in E at 1 2.
  rewrite (derive_pt_eq_0 _ _ _ (pr1 c Hc) (D c Hc)) in E.
  rewrite (derive_pt_eq_0 _ _ _ (pr2 c Hc) (derivable_pt_lim_id c)) in E. lra.
Qed.

(** Finitely many continuous functions are bounded. *)
Lemma all_bounded (X : nat -> R -> R) a b n : a <= b -> (forall i s, (i < n)%nat -> a <= s <= b -> continuity_pt (X i) s) ->
  exists M, 0 <= M /\ forall i s, (i < n)%nat -> a <= s <= b -> Rabs (X i s) <= M.
Proof.
  intros L. induction n as [|n IH]; intros C.
  - exists 0. split; [lra|]. intros; lia.
  - destruct IH as (M & P & H); [intros; apply C; auto|].
    destruct (continuity_ab_maj (X n) a b L) as (u & Hu & _); [intros; apply C; auto|].
    destruct (continuity_ab_min (X n) a b L) as (l & Hl & _); [intros; apply C; auto|].
    exists (Rmax M (Rmax (Rabs (X n u)) (Rabs (X n l)))).
    pose proof (Rmax_l M (Rmax (Rabs (X n u)) (Rabs (X n l)))). pose proof (Rmax_r M (Rmax (Rabs (X n u)) (Rabs (X n l)))).
    pose proof (Rmax_l (Rabs (X n u)) (Rabs (X n l))). pose proof (Rmax_r (Rabs (X n u)) (Rabs (X n l))).
    split; [lra|]. intros i s Hi Hs. destruct (PeanoNat.Nat.eq_dec i n) as [->|N]; [|specialize (H i s ltac:(lia) Hs); lra].
    specialize (Hu s Hs). specialize (Hl s Hs). pose proof (Rle_abs (X n u)). pose proof (Rle_abs (- X n l)). rewrite Rabs_Ropp in *.
    apply Rabs_le. lra.
Qed.

Section Stay.
  Context (n : nat) (X G : nat -> R -> R) (lo hi : nat -> R) (V : nat -> R -> Prop) (t0 t1 L : R).
  Hypothesis T : t0 <= t1.
  Hypothesis HL : 0 <= L.
  Hypothesis Xc : forall i s, (i < n)%nat -> t0 <= s <= t1 -> continuity_pt (X i) s.
  Hypothesis Xd : forall i s, (i < n)%nat -> t0 < s < t1 -> derivable_pt_lim (X i) s (G i s).
  Hypothesis Vc : forall i v w p q, (i < n)%nat -> V i v -> V i w -> 0 <= p -> 0 <= q -> p + q = 1 -> V i (p * v + q * w).
  Hypothesis Start : forall i, (i < n)%nat -> lo i <= X i t0 <= hi i.
  Hypothesis Euler : forall i v s, (i < n)%nat -> V i v -> t0 <= s <= t1 -> lo i <= X i t0 + (s - t0) * v <= hi i.
  Hypothesis Lip : forall s e, t0 <= s <= t1 -> 0 <= e -> (forall i, (i < n)%nat -> lo i - e <= X i s <= hi i + e) ->
    forall i, (i < n)%nat -> exists v, V i v /\ Rabs (G i s - v) <= L * e.

  Let inside s := forall i, (i < n)%nat -> lo i <= X i s <= hi i.
  Let near e s := forall i, (i < n)%nat -> lo i - e <= X i s <= hi i + e.
  Let del := / (2 * (L + 1)).
  Lemma del_pos : 0 < del. Proof. apply Rinv_0_lt_compat. lra. Qed.
  Lemma del_small d : 0 <= d <= del -> d * L <= / 2.
  Proof.
    intros H. apply Rle_trans with (del * L); [apply Rmult_le_compat_r; lra|].
    unfold del. apply Rmult_le_reg_l with (2 * (L + 1)); [lra|]. field_simplify; lra.
  Qed.

  Lemma contract tau M : t0 <= tau <= t1 -> 0 <= M -> (forall s, t0 <= s <= tau -> inside s) ->
    (forall s, tau <= s <= t1 -> s <= tau + del -> near M s) ->
    forall s, tau <= s <= t1 -> s <= tau + del -> near (M / 2) s.
  Proof.
    intros Ht HM In Nr s Hs Hd i Hi. destruct (Req_dec s tau) as [->|Ns]; [specialize (In tau ltac:(lra) i Hi); lra|].
    destruct (mean_slope (X i) (G i) tau s) as (c & Hc & E); [lra|intros; apply Xc; auto; lra|intros; apply Xd; auto; lra|].
    destruct (Lip c M ltac:(lra) HM (Nr c ltac:(lra) ltac:(lra)) i Hi) as (v & Hv & Rv).
    assert (Rabs ((s - tau) * (G i c - v)) <= M / 2) as B.
    { rewrite Rabs_mult, (Rabs_pos_eq (s - tau)) by lra.
      apply Rle_trans with ((s - tau) * (L * M)); [apply Rmult_le_compat_l; lra|].
      replace ((s - tau) * (L * M)) with ((s - tau) * L * M) by ring.
      pose proof (del_small (s - tau) ltac:(lra)) as Q. apply Rmult_le_compat_r with (r := M) in Q; auto. lra. }
    apply Rabs_le_inv in B.
    assert (exists w, V i w /\ X i tau + (s - tau) * v = X i t0 + (s - t0) * w) as (w & Hw & Ew).
    { destruct (Req_dec tau t0) as [->|N]; [exists v; auto|].
      destruct (mean_slope (X i) (G i) t0 tau) as (c' & Hc' & E'); [lra|intros; apply Xc; auto; lra|intros; apply Xd; auto; lra|].
      destruct (Lip c' 0 ltac:(lra) ltac:(lra)) with (i := i) as (v' & Hv' & Rv'); [|auto|].
      { intros j Hj. specialize (In c' ltac:(lra) j Hj). lra. }
      assert (G i c' = v') as Eg.
      { rewrite Rmult_0_r in Rv'. pose proof (Rabs_pos (G i c' - v')). assert (Rabs (G i c' - v') = 0) as Z by lra.
        destruct (Req_dec (G i c' - v') 0); [lra|]. apply Rabs_no_R0 in H0. lra. }
      rewrite Eg in E'.
      exists ((tau - t0) / (s - t0) * v' + (s - tau) / (s - t0) * v). split.
      - apply Vc; auto; try (apply Rmult_le_pos; [lra|left; apply Rinv_0_lt_compat; lra]). field. lra.
      - replace (X i tau) with (X i t0 + (tau - t0) * v') by lra. field. lra. }
    pose proof (Euler i w s Hi Hw ltac:(lra)) as Q. rewrite <- Ew in Q.
    replace (X i s) with (X i tau + (s - tau) * v + (s - tau) * (G i c - v)) by (rewrite Rmult_minus_distr_l; lra). lra.
  Qed.

  Lemma start_bounded : exists M, 0 <= M /\ forall s, t0 <= s <= t1 -> near M s.
  Proof.
    destruct (all_bounded X t0 t1 n T Xc) as (M & P & H). exists (2 * M). split; [lra|]. intros s Hs i Hi.
    pose proof (Rabs_le_inv _ _ (H i s Hi Hs)). pose proof (Rabs_le_inv _ _ (H i t0 Hi ltac:(lra))). pose proof (Start i Hi). lra.
  Qed.

  Lemma small_zero a M : 0 <= M -> (forall k, a <= M / 2 ^ k) -> a <= 0.
  Proof.
    intros HM H. destruct (Rle_or_lt a 0) as [|P]; auto. exfalso.
    destruct (pow_lt_1_zero (/ 2) ltac:(rewrite Rabs_pos_eq; lra) (a / (M + 1))) as (N & HN).
    { apply Rmult_lt_0_compat; auto. apply Rinv_0_lt_compat; lra. }
    specialize (HN N (PeanoNat.Nat.le_refl N)). specialize (H N).
    rewrite Rabs_pos_eq in HN by (apply pow_le; lra). rewrite pow_inv in HN.
    unfold Rdiv in H. apply Rmult_lt_compat_r with (r := M + 1) in HN; [|lra].
    replace (a / (M + 1) * (M + 1)) with a in HN by (field; lra).
    assert (0 < / 2 ^ N) by (apply Rinv_0_lt_compat, pow_lt; lra). nra.
  Qed.

  Lemma extend tau : t0 <= tau <= t1 -> (forall s, t0 <= s <= tau -> inside s) ->
    forall s, t0 <= s <= t1 -> s <= tau + del -> inside s.
  Proof.
    intros Ht In. destruct start_bounded as (M & P & H).
    assert (forall k s, tau <= s <= t1 -> s <= tau + del -> near (M / 2 ^ k) s) as K.
    { induction k as [|k IH]; intros s Hs Hd.
      - replace (M / 2 ^ 0) with M by (cbn; field). apply H. lra.
      - replace (M / 2 ^ S k) with (M / 2 ^ k / 2) by (cbn; field; apply pow_nonzero; lra).
        apply contract with tau; auto. apply Rmult_le_pos; auto. left. apply Rinv_0_lt_compat, pow_lt; lra. }
    intros s Hs Hd i Hi. destruct (Rle_or_lt s tau) as [|Ls]; [apply In; auto; lra|].
    split.
    - assert (lo i - X i s <= 0); [|lra]. apply small_zero with M; auto. intros k. pose proof (K k s ltac:(lra) Hd i Hi). lra.
    - assert (X i s - hi i <= 0); [|lra]. apply small_zero with M; auto. intros k. pose proof (K k s ltac:(lra) Hd i Hi). lra.
  Qed.

  Theorem stay : forall s, t0 <= s <= t1 -> inside s.
  Proof.
    assert (forall k s, t0 <= s <= t1 -> s <= t0 + INR k * del -> inside s) as K.
    { induction k as [|k IH]; intros s Hs Hk.
      - cbn in Hk. assert (s = t0) as -> by lra. exact Start.
      - rewrite S_INR in Hk. pose proof del_pos as Dp. pose proof (pos_INR k) as Pk.
        assert (0 <= INR k * del) by (apply Rmult_le_pos; lra).
        apply (extend (Rmin (t0 + INR k * del) t1)); auto.
        + split; [apply Rmin_glb; lra|apply Rmin_r].
        + intros s' Hs'. apply IH. pose proof (Rmin_r (t0 + INR k * del) t1); lra. pose proof (Rmin_l (t0 + INR k * del) t1); lra.
        + unfold Rmin. destruct Rle_dec; lra. }
    intros s Hs. pose proof del_pos as Dp. destruct (archimed ((s - t0) / del)) as (Hk & _).
    assert (0 <= (s - t0) / del) as P by (apply Rmult_le_pos; [lra|left; apply Rinv_0_lt_compat; auto]).
    apply (K (Z.to_nat (up ((s - t0) / del)))); auto. rewrite INR_IZR_INZ, Znat.Z2Nat.id by (apply le_IZR; lra).
    apply Rmult_gt_compat_r with (r := del) in Hk; auto.
    replace ((s - t0) / del * del) with (s - t0) in Hk by (field; lra). lra.
  Qed.
End Stay.
