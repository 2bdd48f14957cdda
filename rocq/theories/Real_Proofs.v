(** Proofs about computable real numbers. *)
From Coq Require Import ZArith NArith QArith Qreals Reals List Lia Lra Bool.
From Flocq Require Import Core.
From Coquelicot Require Import Rbar.
From Verif Require Import Exact_Model Exact_Spec Exact_Proofs Exact_Dyadic_Proofs Logical_Model Real_Model Real_Spec.
Local Open Scope R_scope.

Lemma w_exact : exact_ops w_ops dval (fun _ => True).
Proof.
  split.
  - exact (sgn_d_pos 1).
  - exact (sgn_d_neg 1).
  - unfold dval; cbn; lra.
  - exact cmpx_val.
  - intros f _. apply negx_val.
  - intros f _. unfold dval; cbn [mant expo f_hlf w_ops]. unfold Zminus. rewrite bpow_plus. cbn [bpow Z.pow_pos Pos.iter]. cbn. lra.
  - intros f _. unfold dval; cbn [mant expo f_abs w_ops]. rewrite abs_IZR, Rabs_mult, (Rabs_pos_eq (bpow _ _)); [reflexivity|apply bpow_ge_0].
  - intros f _. apply mulx_val.
  - intros f g _ _. apply addx_val.
  - intros f g _ _. cbn [f_sub w_ops]. rewrite addx_val, negx_val. lra.
  - intros f g _ _. apply mulx_val.
Qed.

Lemma w_lt_sound : forall x y a b, dmean x = Some a -> dmean y = Some b -> w_lt x y = true <-> Rbar_lt a b.
Proof.
  intros x y a b Hx Hy. unfold w_lt.
  destruct (cmp_sound _ _ _ w_exact x y a b Hx Hy) as [[C L]|[[C L]|[C L]]]; rewrite C; cbn; split; intro; auto; try discriminate.
  - subst. exfalso. destruct b; cbn in H; try lra; auto.
  - exfalso. destruct a, b; cbn in *; try lra; auto.
Qed.
Lemma w_le_sound : forall x y a b, dmean x = Some a -> dmean y = Some b -> w_le x y = true <-> Rbar_le a b.
Proof.
  intros x y a b Hx Hy. unfold w_le. rewrite negb_true_iff. pose proof (w_lt_sound y x b a Hy Hx) as W.
  destruct (w_lt y x); split; intro H; try discriminate; auto.
  - exfalso. destruct W as [W _]. specialize (W eq_refl). destruct a, b; cbn in *; try lra; auto.
  - destruct W as [_ W]. destruct a as [a| |], b as [b| |]; cbn in *; auto; try (assert (false = true) by auto; discriminate).
    destruct (Rle_dec a b); auto. exfalso. assert (false = true) by (apply W; lra). discriminate.
Qed.
Lemma w_eq_sound : forall x y a b, dmean x = Some a -> dmean y = Some b -> w_eq x y = true <-> a = b.
Proof.
  intros x y a b Hx Hy. unfold w_eq.
  destruct (cmp_sound _ _ _ w_exact x y a b Hx Hy) as [[C L]|[[C L]|[C L]]]; rewrite C; cbn; split; intro; auto; try discriminate.
  - subst. exfalso. destruct b; cbn in L; try lra; auto.
  - subst. exfalso. destruct b; cbn in L; try lra; auto.
Qed.

Lemma dval_two : forall n, dval (mkD 1 (- Z.of_nat n)) = / 2 ^ n.
Proof.
  intro n. unfold dval. cbn [mant expo]. rewrite Rmult_1_l, bpow_opp. f_equal.
  rewrite <- (IZR_Zpower radix2) by lia. rewrite <- pow_IZR. reflexivity.
Qed.
Lemma dval_minus_two : forall n, dval (mkD (-1) (- Z.of_nat n)) = - / 2 ^ n.
Proof. intro n. rewrite <- dval_two. unfold dval. cbn [mant expo]. lra. Qed.
Lemma inv2_pos : forall n, 0 < / 2 ^ n.
Proof. intro n. apply Rinv_0_lt_compat, pow_lt. lra. Qed.
Lemma inv2_le1 : forall n, / 2 ^ n <= 1.
Proof. intro n. rewrite <- Rinv_1. apply Rinv_le_contravar; [lra|]. apply pow_R1_Rle. lra. Qed.

Lemma xor_two_pos : forall n, (0 < n)%nat -> (1 <= xor_two n)%Z.
Proof.
  intros n H. unfold xor_two. destruct (Z.ltb_spec (Z.of_nat n) (2 ^ 32 - 2)); [|cbn; lia].
  assert (0 <= Z.lxor 2 (2 ^ 32 - Z.of_nat n))%Z by (apply Z.lxor_nonneg; lia).
  assert (Z.lxor 2 (2 ^ 32 - Z.of_nat n) <> 0)%Z by (intro X; apply Z.lxor_eq in X; lia).
  lia.
Qed.

Lemma in_fin : forall l u v, in_dbounds (mkDB (Fin l) (Fin u)) v <-> dval l <= v <= dval u.
Proof. intros. unfold in_dbounds. cbn. tauto. Qed.

Lemma in_limit_bounds : forall n d, (0 < n)%nat -> Rabs d <= / 2 ^ n -> in_dbounds (limit_bounds n) d.
Proof.
  intros n d Hn H. unfold limit_bounds. rewrite in_fin, dval_minus_two.
  apply Rabs_le_inv in H. split; [lra|].
  unfold dval. cbn [mant expo bpow]. rewrite Rmult_1_r.
  pose proof (xor_two_pos n Hn) as X. apply IZR_le in X. pose proof (inv2_le1 n). lra.
Qed.

(** Intervals with extended end points. *)
Definition xin (l u : Rbar) (v : R) := Rbar_le l (Finite v) /\ Rbar_le (Finite v) u.
Lemma in_x : forall b v, in_dbounds b v <-> exists l u, dmean (d_l b) = Some l /\ dmean (d_u b) = Some u /\ xin l u v.
Proof.
  intros b v. unfold in_dbounds, xin. destruct (dmean (d_l b)) as [l|], (dmean (d_u b)) as [u|]; split; intro H.
  - exists l, u. tauto.
  - destruct H as (l' & u' & E1 & E2 & H). injection E1 as <-. injection E2 as <-. exact H.
  - contradiction. - destruct H as (l' & u' & E1 & E2 & H). discriminate.
  - contradiction. - destruct H as (l' & u' & E1 & E2 & H). discriminate.
  - contradiction. - destruct H as (l' & u' & E1 & E2 & H). discriminate.
Qed.

Lemma in_pm : forall b v w n, in_dbounds b w -> Rabs (w - v) <= / 2 ^ n -> in_dbounds (db_pm b (two_pow_minus n)) v.
Proof.
  intros b v w n H D. apply in_x in H. destruct H as (l & u & E1 & E2 & [L U]).
  apply Rabs_le_inv in D. apply in_x. unfold db_pm, w_sub, w_add; cbn [d_l d_u].
  unfold dmean in *. rewrite (sub_sound _ _ _ w_exact), (add_sound _ _ _ w_exact) by (destruct (d_l b), (d_u b); exact I).
  rewrite E1, E2. unfold two_pow_minus. cbn [meaning lift2]. rewrite dval_two.
  destruct l as [l| |], u as [u| |]; cbn in *; try contradiction; do 2 eexists; (split; [reflexivity|split; [reflexivity|]]); split; cbn; auto; lra.
Qed.

Lemma in_coarsening_l : forall a b v w, in_dbounds a v -> in_dbounds b w -> in_dbounds (db_coarsening a b) v.
Proof.
  intros a b v w H G. apply in_x in H, G. destruct H as (l & u & E1 & E2 & [L U]), G as (l' & u' & E1' & E2' & [L' U']).
  apply in_x. unfold db_coarsening. cbn [d_l d_u].
  destruct (min_sound _ _ _ w_exact _ _ _ _ E1 E1') as (c & Ec & _ & Cl & _).
  destruct (max_sound _ _ _ w_exact _ _ _ _ E2 E2') as (d & Ed & _ & Dl & _).
  exists c, d. split; [exact Ec|]. split; [exact Ed|]. split; [exact (Rbar_le_trans _ _ _ Cl L)|exact (Rbar_le_trans _ _ _ U Dl)].
Qed.
Lemma in_coarsening_r : forall a b v w, in_dbounds a v -> in_dbounds b w -> in_dbounds (db_coarsening a b) w.
Proof.
  intros a b v w H G. apply in_x in H, G. destruct H as (l & u & E1 & E2 & [L U]), G as (l' & u' & E1' & E2' & [L' U']).
  apply in_x. unfold db_coarsening. cbn [d_l d_u].
  destruct (min_sound _ _ _ w_exact _ _ _ _ E1 E1') as (c & Ec & _ & _ & Cl).
  destruct (max_sound _ _ _ w_exact _ _ _ _ E2 E2') as (d & Ed & _ & _ & Dl).
  exists c, d. split; [exact Ec|]. split; [exact Ed|]. split; [exact (Rbar_le_trans _ _ _ Cl L')|exact (Rbar_le_trans _ _ _ U' Dl)].
Qed.

(** ** Soundness *)
Section Sound.
  Context {K D M : Type} (kval : K -> option R) (AD : arith K D) (AM : nat -> arith K M).
  Context (hD : D -> R -> Prop) (hM : nat -> M -> R -> Prop).
  Hypothesis SD : sound_arith kval AD hD.
  Hypothesis SM : forall p, sound_arith kval (AM p) (hM p).

  Definition gives {A} (o : option A) (P : A -> Prop) : Prop := exists a, o = Some a /\ P a.

  Definition sound_impl (i : impl D M) (v : R) : Prop :=
    (forall e, gives (i_d i e) (fun b => in_dbounds b v)) /\
    (forall e, gives (i_dp i e) (fun x => hD x v)) /\
    (forall e p, gives (i_mp i e p) (fun x => hM p x v)).

  Lemma gives_map : forall {A B} (f : A -> B) o (P : A -> Prop) (Q : B -> Prop),
    gives o P -> (forall a, P a -> Q (f a)) -> gives (option_map f o) Q.
  Proof using. intros A B f o P Q (a & E & H) F. exists (f a). rewrite E. split; [reflexivity|auto]. Qed.
  Lemma gives_opt2 : forall {A B C} (f : A -> B -> C) o o' (P : A -> Prop) (P' : B -> Prop) (Q : C -> Prop),
    gives o P -> gives o' P' -> (forall a b, P a -> P' b -> Q (f a b)) -> gives (opt2 f o o') Q.
  Proof using. intros A B C f o o' P P' Q (a & E & H) (b & E' & H') F. exists (f a b). rewrite E, E'. split; [reflexivity|auto]. Qed.

  Lemma sound_expression : forall dp mp v,
    (forall e, gives (dp e) (fun x => hD x v)) -> (forall e p, gives (mp e p) (fun x => hM p x v)) ->
    sound_impl (expression AD AM dp mp) v.
  Proof using SD SM.
    intros dp mp v Hd Hm. split; [|split]; cbn; auto. intro e. destruct (Nat.leb _ _).
    - eapply gives_map; [apply Hd|]. intros a. apply (s_to_d _ _ _ SD).
    - eapply gives_map; [apply Hm|]. intros a. apply (s_to_d _ _ _ (SM _)).
  Qed.
  Lemma sound_wrapper : forall d v, (forall e, gives (d e) (fun b => in_dbounds b v)) -> sound_impl (wrapper AD AM d) v.
  Proof using SD SM.
    intros d v H. split; [exact H|split]; intros; cbn.
    - eapply gives_map; [apply H|]. intros b. apply (s_of_d _ _ _ SD).
    - eapply gives_map; [apply H|]. intros b. apply (s_of_d _ _ _ (SM _)).
  Qed.

  Theorem compile_sound : forall r v, denotes kval r v -> sound_impl (compile AD AM r) v.
  Proof using SD SM.
    intros r v H. induction H as [c v Hc|o a x H IH Dm|o a b x y Ha IHa Hb IHb Dm|a x n H IH Dm|s xs v H IH L|s xs v E L|s v H|P1 P2 p1 p2 r1 r2 v1 v2 v HP F1 F2 H1 IH1 H2 IH2 V1 V2].
    - apply sound_expression; intros; (eexists; split; [reflexivity|]).
      + apply (s_cnst _ _ _ SD _ _ Hc). + apply (s_cnst _ _ _ (SM _) _ _ Hc).
    - destruct IH as (_ & Id & Im). apply sound_expression; intros.
      + eapply gives_map; [apply Id|]. intros z Hz. apply (s_un _ _ _ SD); auto.
      + eapply gives_map; [apply Im|]. intros z Hz. apply (s_un _ _ _ (SM _)); auto.
    - destruct IHa as (_ & Ia & Ja), IHb as (_ & Ib & Jb). apply sound_expression; intros.
      + eapply gives_opt2; [apply Ia|apply Ib|]. intros z w Hz Hw. apply (s_bin _ _ _ SD); auto.
      + eapply gives_opt2; [apply Ja|apply Jb|]. intros z w Hz Hw. apply (s_bin _ _ _ (SM _)); auto.
    - destruct IH as (_ & Id & Im). apply sound_expression; intros.
      + eapply gives_map; [apply Id|]. intros z Hz. apply (s_pow _ _ _ SD); auto.
      + eapply gives_map; [apply Im|]. intros z Hz. apply (s_pow _ _ _ (SM _)); auto.
    - assert (A : forall n, (0 < n)%nat -> in_dbounds (limit_bounds n) (v - xs n)).
      { intros n Hn. apply in_limit_bounds; [exact Hn|]. rewrite Rabs_minus_sym. apply L. }
      split; [|split]; cbn [compile i_d i_dp i_mp]; intros.
      + eapply gives_map; [apply (IH (e + 1)%nat)|]. cbn beta. intros b Hb. eapply in_pm; [exact Hb|apply L].
      + eapply gives_map; [apply (IH (e + 1)%nat)|]. cbn beta. intros b Hb.
        replace v with (bsem Add (xs (e + 1)%nat) (v - xs (e + 1)%nat)) by (cbn; lra).
        apply (s_bin _ _ _ SD); [exact Hb| |exact I]. apply (s_of_d _ _ _ SD), A. lia.
      + eapply gives_map; [apply (IH (e + 1)%nat)|]. cbn beta. intros b Hb.
        replace v with (bsem Add (xs (e + 1)%nat) (v - xs (e + 1)%nat)) by (cbn; lra).
        apply (s_bin _ _ _ (SM _)); [exact Hb| |exact I]. apply (s_of_d _ _ _ (SM _)), A. lia.
    - apply sound_wrapper. intro e. eexists. split; [reflexivity|]. cbn zeta. rewrite E.
      change (mkDB _ _) with (db_pm (mkDB (Fin (xs (e + 1)%nat)) (Fin (xs (e + 1)%nat))) (two_pow_minus (e + 1))).
      apply (in_pm _ _ (dval (xs (e + 1)%nat))); [|apply L]. rewrite in_fin. lra.
    - apply sound_wrapper. intro e. eexists. split; [reflexivity|]. apply H.
    - assert (A : forall e, gives (when_d p1 (i_d (compile AD AM r1)) p2 (i_d (compile AD AM r2)) e) (fun b => in_dbounds b v)).
      { intro e. unfold when_d. destruct IH1 as (I1 & _), IH2 as (I2 & _).
        destruct (I1 e) as (b1 & E1 & B1), (I2 e) as (b2 & E2 & B2).
        destruct (p1 e) eqn:Q1, (p2 e) eqn:Q2; cbn [negb orb].
        - rewrite E1, E2. exists (db_coarsening b1 b2). split; [reflexivity|].
          destruct HP as [HP|HP]; [rewrite <- (V1 HP)|rewrite <- (V2 HP)].
          + eapply in_coarsening_l; eauto. + eapply in_coarsening_r; eauto.
        - exists b1. split; [exact E1|]. destruct HP as [HP|HP]; [|destruct (F2 e Q2 HP)]. rewrite <- (V1 HP). exact B1.
        - exists b2. split; [exact E2|]. destruct HP as [HP|HP]; [destruct (F1 e Q1 HP)|]. rewrite <- (V2 HP). exact B2.
        - exfalso. destruct HP as [HP|HP]; [exact (F1 e Q1 HP)|exact (F2 e Q2 HP)]. }
      split; [exact A|split]; cbn [compile i_d i_dp i_mp]; intros.
      + eapply gives_map; [apply A|]. cbn beta. intros b. apply (s_of_d _ _ _ SD).
      + eapply gives_map; [apply A|]. cbn beta. intros b. apply (s_of_d _ _ _ (SM _)).
  Qed.
End Sound.

(** ** Convergence *)
Lemma within_mono : forall b v e e', e <= e' -> within b v e -> within b v e'.
Proof. intros b v e e' H (l & u & E & L & U). exists l, u. split; [exact E|]. lra. Qed.
Lemma within_in : forall b v e, within b v e -> in_dbounds b v.
Proof. intros b v e (l & u & -> & L & U). rewrite in_fin. lra. Qed.
Lemma inv2_small : forall eps, 0 < eps -> exists N, forall n, (N <= n)%nat -> / 2 ^ n <= eps.
Proof.
  intros eps H. destruct (archimed (/ eps)) as [A _]. exists (Z.to_nat (up (/ eps))). intros n Hn.
  rewrite <- (Rinv_inv eps). apply Rinv_le_contravar; [apply Rinv_0_lt_compat; exact H|].
  assert (P : 0 < / eps) by (apply Rinv_0_lt_compat; exact H).
  assert (Z0 : (0 < up (/ eps))%Z) by (apply lt_IZR; lra).
  apply Rle_trans with (INR n).
  - apply Rle_trans with (IZR (up (/ eps))); [lra|]. rewrite INR_IZR_INZ. apply IZR_le. lia.
  - clear. induction n as [|n IH]; [cbn; lra|]. rewrite S_INR. change (2 ^ S n) with (2 * 2 ^ n).
    assert (1 <= 2 ^ n) by (apply pow_R1_Rle; lra). lra.
Qed.
Lemma within_coarsening : forall a b v e, within a v e -> within b v e -> within (db_coarsening a b) v e.
Proof.
  intros a b v e (l & u & -> & L & U) (l' & u' & -> & L' & U'). unfold db_coarsening, w_min, w_max, x_min, x_max. cbn [d_l d_u f_cmp w_ops].
  destruct (d_cmpx l l'), (d_cmpx u u'); do 2 eexists; (split; [reflexivity|lra]).
Qed.
Lemma within_pm : forall b v w e n, within b w e -> Rabs (w - v) <= / 2 ^ n -> within (db_pm b (two_pow_minus n)) v (e + 2 * / 2 ^ n).
Proof.
  intros b v w e n (l & u & -> & L & U) D. apply Rabs_le_inv in D.
  unfold db_pm, two_pow_minus, w_sub, w_add. cbn [d_l d_u x_sub x_add].
  do 2 eexists. split; [reflexivity|].
  rewrite (eo_sub _ _ _ w_exact), (eo_add _ _ _ w_exact) by exact I. rewrite dval_two. lra.
Qed.

Section Converge.
  Context {K D M : Type} (kval : K -> option R) (AD : arith K D) (AM : nat -> arith K M).
  Context (okU : unop -> bool) (okB : binop -> bool) (okP : Z -> bool).
  Hypothesis CM : continuous_arith kval AM okU okB okP.

  Definition near (p : nat) (v eps : R) (x : M) : Prop := within (a_to_d (AM p) x) v eps.
  Definition conv_d (i : impl D M) (v : R) : Prop :=
    forall eps, 0 < eps -> exists N, forall e, (N <= e)%nat -> gives (i_d i e) (fun b => within b v eps).
  Definition conv_mp (i : impl D M) (v : R) : Prop :=
    forall eps, 0 < eps -> exists N, forall e p, (N <= e)%nat -> (N <= p)%nat -> gives (i_mp i e p) (near p v eps).

  Lemma conv_expression : forall dp mp v,
    (forall eps, 0 < eps -> exists N, forall e p, (N <= e)%nat -> (N <= p)%nat -> gives (mp e p) (near p v eps)) ->
    conv_d (expression AD AM dp mp) v /\ conv_mp (expression AD AM dp mp) v.
  Proof using.
    intros dp mp v H. split; [|exact H]. intros eps He. destruct (H eps He) as (N & HN).
    exists (Nat.max N 4). intros e He'. cbn [expression i_d].
    replace (Nat.leb (e * PRECISION_PER_UNIT_EFFORT) 52) with false
      by (symmetry; apply Nat.leb_gt; unfold PRECISION_PER_UNIT_EFFORT; lia).
    cbn zeta. eapply gives_map; [apply HN; unfold PRECISION_PER_UNIT_EFFORT; lia|]. intros x Hx. exact Hx.
  Qed.
  Lemma conv_of_d : forall (d : nat -> option dbounds) (g : nat -> nat -> nat) v,
    (forall N, exists N', forall e p, (N' <= e)%nat -> (N' <= p)%nat -> (N <= g e p)%nat) ->
    (forall eps, 0 < eps -> exists N, forall e, (N <= e)%nat -> gives (d e) (fun b => within b v eps)) ->
    forall eps, 0 < eps -> exists N, forall e p, (N <= e)%nat -> (N <= p)%nat ->
      gives (option_map (a_of_d (AM p)) (d (g e p))) (near p v eps).
  Proof using CM.
    intros d g v G H eps He. destruct (c_of_d _ _ _ _ _ CM v eps He) as (del & P & Hd & HP).
    destruct (H del Hd) as (N & HN). destruct (G N) as (N' & HN'). exists (Nat.max P N'). intros e p H1 H2.
    eapply gives_map; [apply HN, HN'; lia|]. cbn beta. intros b Hb. apply HP; [lia|exact Hb].
  Qed.
  Lemma conv_wrapper : forall d v,
    (forall eps, 0 < eps -> exists N, forall e, (N <= e)%nat -> gives (d e) (fun b => within b v eps)) ->
    conv_d (wrapper AD AM d) v /\ conv_mp (wrapper AD AM d) v.
  Proof using CM.
    intros d v H. split; [exact H|]. unfold conv_mp. cbn [wrapper i_mp].
    apply (conv_of_d d (fun e _ => e)); [|exact H]. intro N. exists N. auto.
  Qed.

  Theorem compile_converges : forall r v, computable kval okU okB okP r v ->
    conv_d (compile AD AM r) v /\ conv_mp (compile AD AM r) v.
  Proof using CM.
    intros r v H. induction H as [c v Hc|o a x Ho H IH Dm|o a b x y Ho Ha IHa Hb IHb Dm|a x n Ho H IH Dm|s xs v E L|s v H
      |p1 p2 r1 r2 v Q1 Q2 H1 IH1 H2 IH2|p1 p2 r1 r2 v Q1 Q2 H1 IH1|p1 p2 r1 r2 v Q1 Q2 H2 IH2].
    - apply conv_expression. intros eps He. destruct (c_cnst _ _ _ _ _ CM c v eps Hc He) as (P & HP).
      exists P. intros e p _ Hp. eexists. split; [reflexivity|]. apply HP. exact Hp.
    - apply conv_expression. intros eps He. destruct (c_un _ _ _ _ _ CM o x eps Ho Dm He) as (del & P & Hd & HP).
      destruct (proj2 IH del Hd) as (N & HN). exists (Nat.max P N). intros e p H1 H2.
      eapply gives_map; [apply HN; lia|]. intros z Hz. apply HP; [lia|exact Hz].
    - apply conv_expression. intros eps He. destruct (c_bin _ _ _ _ _ CM o x y eps Ho Dm He) as (del & P & Hd & HP).
      destruct (proj2 IHa del Hd) as (N & HN), (proj2 IHb del Hd) as (N' & HN'). exists (Nat.max P (Nat.max N N')). intros e p H1 H2.
      eapply gives_opt2; [apply HN; lia|apply HN'; lia|]. intros z w Hz Hw. apply HP; [lia|exact Hz|exact Hw].
    - apply conv_expression. intros eps He. destruct (c_pow _ _ _ _ _ CM x n eps Ho Dm He) as (del & P & Hd & HP).
      destruct (proj2 IH del Hd) as (N & HN). exists (Nat.max P N). intros e p H1 H2.
      eapply gives_map; [apply HN; lia|]. intros z Hz. apply HP; [lia|exact Hz].
    - apply conv_wrapper. intros eps He. destruct (inv2_small (eps / 2)) as (N & HN); [lra|]. exists N. intros e Hle.
      eexists. split; [reflexivity|]. cbn zeta. rewrite E.
      change (mkDB _ _) with (db_pm (mkDB (Fin (xs (e + 1)%nat)) (Fin (xs (e + 1)%nat))) (two_pow_minus (e + 1))).
      apply (within_mono _ _ (0 + 2 * / 2 ^ (e + 1))); [specialize (HN (e + 1)%nat ltac:(lia)); lra|].
      apply (within_pm _ _ (dval (xs (e + 1)%nat))); [|apply L]. do 2 eexists. split; [reflexivity|]. lra.
    - apply conv_wrapper. intros eps He. destruct (H eps He) as (N & HN). exists N. intros e Hle. eexists. split; [reflexivity|]. apply HN, Hle.
    - assert (A : forall eps, 0 < eps -> exists N, forall e, (N <= e)%nat ->
        gives (when_d p1 (i_d (compile AD AM r1)) p2 (i_d (compile AD AM r2)) e) (fun b => within b v eps)).
      { intros eps He. destruct (proj1 IH1 eps He) as (N & HN), (proj1 IH2 eps He) as (N' & HN').
        exists (Nat.max N N'). intros e Hle. unfold when_d. rewrite Q1, Q2. cbn [negb orb].
        eapply gives_opt2; [apply HN; lia|apply HN'; lia|]. cbn beta. intros. apply within_coarsening; assumption. }
      split; [exact A|]. unfold conv_mp. cbn [compile i_mp]. apply (conv_of_d _ (fun _ p => p)); [|exact A]. intro N. exists N. auto.
    - destruct Q2 as (N2 & Q2). assert (A : forall eps, 0 < eps -> exists N, forall e, (N <= e)%nat ->
        gives (when_d p1 (i_d (compile AD AM r1)) p2 (i_d (compile AD AM r2)) e) (fun b => within b v eps)).
      { intros eps He. destruct (proj1 IH1 eps He) as (N & HN).
        exists (Nat.max N N2). intros e Hle. unfold when_d. rewrite Q1, Q2 by lia. cbn [negb orb]. apply HN. lia. }
      split; [exact A|]. unfold conv_mp. cbn [compile i_mp]. apply (conv_of_d _ (fun _ p => p)); [|exact A]. intro N. exists N. auto.
    - destruct Q1 as (N2 & Q1). assert (A : forall eps, 0 < eps -> exists N, forall e, (N <= e)%nat ->
        gives (when_d p1 (i_d (compile AD AM r1)) p2 (i_d (compile AD AM r2)) e) (fun b => within b v eps)).
      { intros eps He. destruct (proj1 IH2 eps He) as (N & HN).
        exists (Nat.max N N2). intros e Hle. unfold when_d. rewrite Q1, Q2 by lia. cbn [negb orb]. apply HN. lia. }
      split; [exact A|]. unfold conv_mp. cbn [compile i_mp]. apply (conv_of_d _ (fun _ p => p)); [|exact A]. intro N. exists N. auto.
  Qed.
End Converge.
