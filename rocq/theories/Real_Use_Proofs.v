(** Proofs about accuracy, comparisons and rounding of computable real numbers. *)
From Coq Require Import ZArith NArith QArith Qreals Reals List Lia Lra Bool.
From Flocq Require Import Core.
From Coquelicot Require Import Rbar.
From Verif Require Import Exact_Model Exact_Spec Exact_Proofs Exact_Dyadic_Proofs Logical_Model Real_Model Real_Spec Real_Proofs.
Local Open Scope R_scope.

Lemma error_narrow : forall b v bound, in_dbounds b v ->
  w_lt (w_hlf (w_sub (d_u b) (d_l b))) (Fin bound) = true <-> narrower b (dval bound).
Proof.
  intros [l u] v bound H. apply in_x in H. cbn [d_l d_u] in *. destruct H as (x & y & E1 & E2 & [L U]).
  split.
  - intro W.
    destruct l as [l| | |], u as [u| | |]; cbn in E1, E2; try discriminate.
    { do 2 eexists. split; [reflexivity|].
      assert (A : dmean (w_hlf (w_sub (Fin u) (Fin l))) = Some (Finite ((dval u - dval l) / 2))).
      { unfold w_hlf, w_sub, dmean. cbn [x_sub x_hlf meaning]. rewrite (eo_hlf _ _ _ w_exact), (eo_sub _ _ _ w_exact) by exact I. reflexivity. }
      apply (w_lt_sound _ (Fin bound) _ (Finite (dval bound)) A eq_refl) in W. exact W. }
    all: try (injection E1 as <-; cbn in L; contradiction). all: try (injection E2 as <-; cbn in U; contradiction). all: try (cbv in W; discriminate W).
  - intros (l' & u' & E & W). injection E as -> ->.
    assert (A : dmean (w_hlf (w_sub (Fin u') (Fin l'))) = Some (Finite ((dval u' - dval l') / 2))).
    { unfold w_hlf, w_sub, dmean. cbn [x_sub x_hlf meaning]. rewrite (eo_hlf _ _ _ w_exact), (eo_sub _ _ _ w_exact) by exact I. reflexivity. }
    apply (w_lt_sound _ (Fin bound) _ (Finite (dval bound)) A eq_refl). exact W.
Qed.

Lemma r_lt_sound : forall x y a b, rmean x = Some a -> rmean y = Some b -> r_lt x y = true <-> Rbar_lt a b.
Proof.
  intros x y a b Hx Hy. unfold r_lt, r_cmp.
  destruct (cmp_sound _ _ _ q_exact x y a b Hx Hy) as [[C L]|[[C L]|[C L]]]; rewrite C; cbn; split; intro; auto; try discriminate.
  - subst. exfalso. destruct b; cbn in H; try lra; auto.
  - exfalso. destruct a, b; cbn in *; try lra; auto.
Qed.

Section Use.
  Context {K D M : Type} (AD : arith K D) (AM : nat -> arith K M).

  (** What the bounds computed for a number are used for below. *)
  Definition computes (r : real K) (v : R) : Prop := forall e, gives (compute AD AM r e) (fun b => in_dbounds b v).
  Definition converges (r : real K) (v : R) : Prop :=
    forall eps, 0 < eps -> exists N, forall e, (N <= e)%nat -> gives (compute AD AM r e) (fun b => within b v eps).

  Lemma loop_sound : forall r v bound fuel e error res b, computes r v ->
    (w_lt error (Fin bound) = true -> in_dbounds res v /\ narrower res (dval bound)) ->
    refine_loop AD AM r (Fin bound) fuel e error res = Got b -> in_dbounds b v /\ narrower b (dval bound).
  Proof using.
    intros r v bound fuel. induction fuel as [|k IH]; intros e error res b C I R; cbn [refine_loop] in R.
    - destruct (w_lt error (Fin bound)); [|discriminate R]. injection R as <-. auto.
    - destruct (w_lt error (Fin bound)); [injection R as <-; auto|].
      destruct (C e) as (x & E & Hx). rewrite E in R. apply IH in R; auto.
      intro W. split; [exact Hx|]. apply (error_narrow _ v) in W; auto.
  Qed.
  Lemma loop_not_failed : forall r v bound fuel e error res, computes r v ->
    refine_loop AD AM r bound fuel e error res <> Failed.
  Proof using.
    intros r v bound fuel. induction fuel as [|k IH]; intros e error res C; cbn [refine_loop].
    - destruct (w_lt error bound); discriminate.
    - destruct (w_lt error bound); [discriminate|]. destruct (C e) as (x & E & Hx). rewrite E. apply IH, C.
  Qed.
  Lemma loop_found : forall r v bound k e error res b, computes r v ->
    compute AD AM r (e + k) = Some b -> narrower b (dval bound) ->
    exists fuel c, refine_loop AD AM r (Fin bound) fuel e error res = Got c.
  Proof using.
    intros r v bound k. induction k as [|k IH]; intros e error res b C Hb Nb.
    - replace (e + 0)%nat with e in Hb by lia.
      exists 1%nat. cbn [refine_loop]. destruct (w_lt error (Fin bound)); [eexists; reflexivity|]. rewrite Hb.
      destruct (C e) as (x & E & Hx). rewrite Hb in E. injection E as <-.
      apply (error_narrow _ v _ Hx) in Nb. rewrite Nb. eexists; reflexivity.
    - destruct (w_lt error (Fin bound)) eqn:W; [exists 0%nat; cbn [refine_loop]; rewrite W; eexists; reflexivity|].
      destruct (C e) as (x & E & Hx).
      destruct (IH (e + 1)%nat (w_hlf (w_sub (d_u x) (d_l x))) x b C) as (f & c & R); [|exact Nb|].
      { replace (e + 1 + k)%nat with (e + Datatypes.S k)%nat by lia. exact Hb. }
      exists (Datatypes.S f), c. cbn [refine_loop]. rewrite W, E. exact R.
  Qed.
  Lemma loop_needs : forall r v bound fuel e error res b, computes r v -> w_lt error (Fin bound) = false ->
    refine_loop AD AM r (Fin bound) fuel e error res = Got b ->
    exists e', (e <= e')%nat /\ compute AD AM r e' = Some b /\ narrower b (dval bound).
  Proof using.
    intros r v bound fuel. induction fuel as [|k IH]; intros e error res b C W R; cbn [refine_loop] in R; rewrite W in R; [discriminate|].
    destruct (C e) as (x & E & Hx). rewrite E in R.
    destruct (w_lt (w_hlf (w_sub (d_u x) (d_l x))) (Fin bound)) eqn:W'.
    - assert (b = x) by (destruct k; cbn [refine_loop] in R; rewrite W' in R; congruence). subst.
      exists e. split; [lia|]. split; [exact E|]. apply (error_narrow _ v) in W'; auto.
    - apply IH in R; auto. destruct R as (e' & L & Q). exists e'. split; [lia|exact Q].
  Qed.

  Lemma w_twice_pos : forall b, 0 <= dval b -> w_lt (w_twice (Fin b)) (Fin b) = false.
  Proof using.
    intros b H. destruct (w_lt (w_twice (Fin b)) (Fin b)) eqn:W; [|reflexivity]. exfalso.
    assert (A : dmean (w_twice (Fin b)) = Some (Finite (2 * dval b))).
    { unfold w_twice, dmean. cbn [x_mul meaning]. rewrite (eo_mul _ _ _ w_exact) by exact I.
      replace (dval (mkD 2 0)) with 2 by (unfold dval; cbn; lra). reflexivity. }
    apply (w_lt_sound _ (Fin b) _ (Finite (dval b)) A eq_refl) in W. cbn in W. lra.
  Qed.
  Lemma w_twice_neg : forall b, dval b < 0 -> w_lt (w_twice (Fin b)) (Fin b) = true.
  Proof using.
    intros b H.
    assert (A : dmean (w_twice (Fin b)) = Some (Finite (2 * dval b))).
    { unfold w_twice, dmean. cbn [x_mul meaning]. rewrite (eo_mul _ _ _ w_exact) by exact I.
      replace (dval (mkD 2 0)) with 2 by (unfold dval; cbn; lra). reflexivity. }
    apply (w_lt_sound _ (Fin b) _ (Finite (dval b)) A eq_refl). cbn. lra.
  Qed.

  Lemma accuracy_sound : forall r v bound fuel b, computes r v -> 0 <= dval bound ->
    compute_accuracy AD AM r (Fin bound) fuel = Got b -> in_dbounds b v /\ narrower b (dval bound).
  Proof using.
    intros r v bound fuel b C P R. unfold compute_accuracy in R. eapply loop_sound; [exact C| |exact R].
    rewrite w_twice_pos by exact P. discriminate.
  Qed.
  Lemma accuracy_terminates : forall r v bound, computes r v -> 0 <= dval bound ->
    (exists fuel b, compute_accuracy AD AM r (Fin bound) fuel = Got b) <->
    (exists e b, (1 <= e)%nat /\ compute AD AM r e = Some b /\ narrower b (dval bound)).
  Proof using.
    intros r v bound C P. split.
    - intros (fuel & b & R). unfold compute_accuracy in R. eapply loop_needs in R; [|exact C|apply w_twice_pos, P].
      destruct R as (e & L & E & N). exists e, b. auto.
    - intros (e & b & L & E & N). unfold compute_accuracy.
      destruct (loop_found r v bound (e - 1) 1 (w_twice (Fin bound)) (mkDB w_zero w_zero) b C) as (f & c & R); [|exact N|].
      { replace (1 + (e - 1))%nat with e by lia. exact E. }
      exists f, c. exact R.
  Qed.
  Lemma within_narrower : forall b v eps e, within b v eps -> eps < e -> narrower b e.
  Proof using. intros b v eps e (l & u & -> & L & U) H. exists l, u. split; [reflexivity|]. lra. Qed.
  Lemma accuracy_converges : forall r v bound, computes r v -> converges r v -> 0 < dval bound ->
    exists fuel b, compute_accuracy AD AM r (Fin bound) fuel = Got b.
  Proof using.
    intros r v bound C V P. apply (accuracy_terminates r v bound C); [lra|].
    destruct (V (dval bound / 2)) as (N & HN); [lra|]. destruct (HN (Nat.max N 1)) as (b & E & W); [lia|].
    exists (Nat.max N 1), b. split; [lia|]. split; [exact E|]. eapply within_narrower; [exact W|lra].
  Qed.

  (** ** Comparisons *)
  Lemma in_ends : forall b v, in_dbounds b v -> exists l u, dmean (d_l b) = Some l /\ dmean (d_u b) = Some u /\ Rbar_le l (Finite v) /\ Rbar_le (Finite v) u.
  Proof using. intros b v H. apply in_x in H. destruct H as (l & u & A & B & C). exists l, u. destruct C. auto. Qed.

  Lemma ends : forall b1 b2 v1 v2, in_dbounds b1 v1 -> in_dbounds b2 v2 ->
    (w_lt (d_u b1) (d_l b2) = true -> v1 < v2) /\ (w_le (d_u b1) (d_l b2) = true -> v1 <= v2) /\
    (w_gt (d_l b1) (d_u b2) = true -> v2 < v1) /\ (w_ge (d_l b1) (d_u b2) = true -> v2 <= v1).
  Proof using.
    intros b1 b2 v1 v2 H1 H2. apply in_ends in H1, H2.
    destruct H1 as (l & u & A & B & L & U), H2 as (l' & u' & A' & B' & L' & U').
    repeat split; intro W.
    - apply (w_lt_sound _ _ _ _ B A') in W. destruct u as [u| |], l' as [l'| |]; cbn in *; try contradiction; lra.
    - apply (w_le_sound _ _ _ _ B A') in W. destruct u as [u| |], l' as [l'| |]; cbn in *; try contradiction; lra.
    - unfold w_gt in W. apply (w_lt_sound _ _ _ _ B' A) in W. destruct u' as [u'| |], l as [l| |]; cbn in *; try contradiction; lra.
    - change (w_le (d_u b2) (d_l b1) = true) in W. apply (w_le_sound _ _ _ _ B' A) in W. destruct u' as [u'| |], l as [l| |]; cbn in *; try contradiction; lra.
  Qed.

  Lemma compare_right : forall b1 b2 v1 v2, in_dbounds b1 v1 -> in_dbounds b2 v2 ->
    right_about (db_lt b1 b2) (v1 < v2) /\ right_about (db_gt b1 b2) (v1 > v2) /\
    right_about (db_le b1 b2) (v1 <= v2) /\ right_about (db_ge b1 b2) (v1 >= v2) /\
    right_about (db_eq b1 b2) (v1 = v2) /\ right_about (db_ne b1 b2) (v1 <> v2).
  Proof using.
    intros b1 b2 v1 v2 H1 H2. destruct (ends b1 b2 v1 v2 H1 H2) as (E1 & E2 & E3 & E4).
    unfold right_about, db_lt, db_gt, db_le, db_ge, db_eq, db_ne.
    destruct (w_lt (d_u b1) (d_l b2)), (w_le (d_u b1) (d_l b2)), (w_gt (d_l b1) (d_u b2)), (w_ge (d_l b1) (d_u b2));
      cbn [andb orb]; repeat split; intros; try discriminate;
      repeat match goal with Q : true = true -> _ |- _ => specialize (Q eq_refl) end; lra.
  Qed.
  Lemma sgn_right : forall b v, in_dbounds b v -> (db_sgn b = TRUE -> 0 < v) /\ (db_sgn b = FALSE -> v < 0).
  Proof using.
    intros b v H. unfold db_sgn.
    assert (Z : in_dbounds (mkDB w_zero w_zero) 0) by (unfold w_zero; rewrite in_fin; unfold dval; cbn; lra).
    destruct (ends b _ v 0 H Z) as (E1 & _ & E3 & _). cbn [d_l d_u] in *.
    destruct (w_gt (d_l b) w_zero), (w_lt (d_u b) w_zero); split; intro; try discriminate; auto.
  Qed.
  Lemma check_sgn_is : forall r e, check_sgn AD AM r e = check1 AD AM db_sgn r e.
  Proof using. intros r e. unfold check_sgn, check1, db_sgn. destruct (compute AD AM r e); reflexivity. Qed.

  Lemma within_lt : forall b1 b2 v1 v2 eps, within b1 v1 eps -> within b2 v2 eps -> v1 + 2 * eps < v2 ->
    w_lt (d_u b1) (d_l b2) = true /\ w_le (d_u b1) (d_l b2) = true /\ w_gt (d_l b2) (d_u b1) = true /\ w_ge (d_l b2) (d_u b1) = true /\
    w_gt (d_l b1) (d_u b2) = false /\ w_ge (d_l b1) (d_u b2) = false.
  Proof using.
    intros b1 b2 v1 v2 eps (l & u & -> & L & U) (l' & u' & -> & L' & U') H. cbn [d_l d_u].
    assert (A : w_lt (Fin u) (Fin l') = true) by (apply (w_lt_sound (Fin u) (Fin l') (dval u) (dval l')); [reflexivity|reflexivity|cbn; lra]).
    assert (B : w_lt (Fin l') (Fin u) = false).
    { destruct (w_lt (Fin l') (Fin u)) eqn:W; [|reflexivity]. exfalso. apply (w_lt_sound (Fin l') (Fin u) (dval l') (dval u) eq_refl eq_refl) in W. cbn in W. lra. }
    assert (C : w_lt (Fin l) (Fin u') = true) by (apply (w_lt_sound (Fin l) (Fin u') (dval l) (dval u')); [reflexivity|reflexivity|cbn; lra]).
    assert (E : w_lt (Fin u') (Fin l) = false).
    { destruct (w_lt (Fin u') (Fin l)) eqn:W; [|reflexivity]. exfalso. apply (w_lt_sound (Fin u') (Fin l) (dval u') (dval l) eq_refl eq_refl) in W. cbn in W. lra. }
    unfold w_le, w_gt, w_ge. rewrite A, B, C, E. repeat split.
  Qed.
  Lemma compare_decided : forall b1 b2 v1 v2 eps, within b1 v1 eps -> within b2 v2 eps -> v1 + 2 * eps < v2 ->
    db_lt b1 b2 = TRUE /\ db_le b1 b2 = TRUE /\ db_gt b1 b2 = FALSE /\ db_ge b1 b2 = FALSE /\ db_eq b1 b2 = FALSE /\ db_ne b1 b2 = TRUE /\
    db_lt b2 b1 = FALSE /\ db_le b2 b1 = FALSE /\ db_gt b2 b1 = TRUE /\ db_ge b2 b1 = TRUE /\ db_eq b2 b1 = FALSE /\ db_ne b2 b1 = TRUE.
  Proof using.
    intros b1 b2 v1 v2 eps H1 H2 H. destruct (within_lt _ _ _ _ _ H1 H2 H) as (A & B & C & E & F & G).
    assert (A' : w_lt (d_u b2) (d_l b1) = false) by exact F.
    assert (B' : w_le (d_u b2) (d_l b1) = false) by exact G.
    unfold db_lt, db_le, db_gt, db_ge, db_eq, db_ne. rewrite A, B, C, E, F, G, A', B'. cbn [andb orb]. repeat split.
  Qed.

  Lemma eventually_decided : forall r1 r2 v1 v2, converges r1 v1 -> converges r2 v2 -> v1 < v2 ->
    exists N, forall e, (N <= e)%nat ->
      check2 AD AM db_lt r1 r2 e = Some TRUE /\ check2 AD AM db_le r1 r2 e = Some TRUE /\
      check2 AD AM db_gt r1 r2 e = Some FALSE /\ check2 AD AM db_ge r1 r2 e = Some FALSE /\
      check2 AD AM db_eq r1 r2 e = Some FALSE /\ check2 AD AM db_ne r1 r2 e = Some TRUE /\
      check2 AD AM db_lt r2 r1 e = Some FALSE /\ check2 AD AM db_le r2 r1 e = Some FALSE /\
      check2 AD AM db_gt r2 r1 e = Some TRUE /\ check2 AD AM db_ge r2 r1 e = Some TRUE /\
      check2 AD AM db_eq r2 r1 e = Some FALSE /\ check2 AD AM db_ne r2 r1 e = Some TRUE.
  Proof using.
    intros r1 r2 v1 v2 C1 C2 H. destruct (C1 ((v2 - v1) / 3)) as (N1 & H1); [lra|]. destruct (C2 ((v2 - v1) / 3)) as (N2 & H2); [lra|].
    exists (Nat.max N1 N2). intros e He. destruct (H1 e) as (b1 & E1 & W1); [lia|]. destruct (H2 e) as (b2 & E2 & W2); [lia|].
    unfold check2. rewrite E1, E2. cbn [opt2].
    destruct (compare_decided b1 b2 v1 v2 ((v2 - v1) / 3) W1 W2) as (Q1 & Q2 & Q3 & Q4 & Q5 & Q6 & Q7 & Q8 & Q9 & Q10 & Q11 & Q12); [lra|].
    repeat split; f_equal; assumption.
  Qed.
  Lemma sgn_decided : forall r v, converges r v -> v <> 0 ->
    exists N, forall e, (N <= e)%nat -> check1 AD AM db_sgn r e = Some (if Rlt_dec 0 v then TRUE else FALSE).
  Proof using.
    intros r v C H. assert (P : 0 < Rabs v) by (apply Rabs_pos_lt, H).
    destruct (C (Rabs v / 3)) as (N & HN); [lra|]. exists N. intros e He. destruct (HN e He) as (b & E & W).
    unfold check1. rewrite E. cbn [option_map]. f_equal. unfold db_sgn.
    assert (Z : within (mkDB w_zero w_zero) 0 (Rabs v / 3)).
    { exists (mkD 0 0), (mkD 0 0). split; [reflexivity|]. replace (dval (mkD 0 0)) with 0 by (unfold dval; cbn; lra). lra. }
    destruct (Rlt_dec 0 v) as [L|L].
    - rewrite Rabs_pos_eq in * by lra. destruct (within_lt _ _ _ _ _ Z W) as (_ & _ & G & _); [lra|]. cbn [d_u] in G. rewrite G. reflexivity.
    - rewrite Rabs_left in * by lra. destruct (within_lt _ _ _ _ _ W Z) as (A & _ & _ & _ & G & _); [lra|]. cbn [d_u d_l] in A, G.
      rewrite G, A. reflexivity.
  Qed.

  (** ** Choice *)
  Lemma greater_sound : forall r v a b fuel e c, computes r v -> greater_loop AD AM r (Fin a) (Fin b) fuel e = Chosen c ->
    if c then Q2R a < v else v < Q2R b.
  Proof using.
    intros r v a b fuel. induction fuel as [|k IH]; intros e c C R; cbn [greater_loop] in R; [discriminate|].
    destruct (C e) as (x & E & Hx). rewrite E in R. apply in_ends in Hx. destruct Hx as (l & u & El & Eu & L & U).
    assert (Ml : rmean (r_of_d (d_l x)) = Some l) by (rewrite r_of_d_mean; exact El).
    assert (Mu : rmean (r_of_d (d_u x)) = Some u) by (rewrite r_of_d_mean; exact Eu).
    destruct (r_gt (r_of_d (d_l x)) (Fin a)) eqn:G.
    - injection R as <-. unfold r_gt in G. apply (r_lt_sound (Fin a) _ _ _ eq_refl Ml) in G. destruct l as [l| |]; cbn in *; try contradiction; lra.
    - destruct (r_lt (r_of_d (d_u x)) (Fin b)) eqn:G'.
      + injection R as <-. apply (r_lt_sound _ (Fin b) _ _ Mu eq_refl) in G'. destruct u as [u| |]; cbn in *; try contradiction; lra.
      + eapply IH; eauto.
  Qed.
  Lemma greater_terminates : forall r v a b, computes r v -> converges r v -> Q2R a < Q2R b ->
    exists fuel c, greater_loop AD AM r (Fin a) (Fin b) fuel 0 = Chosen c.
  Proof using.
    intros r v a b C V H. destruct (V ((Q2R b - Q2R a) / 4)) as (N & HN); [lra|]. destruct (HN N) as (x & E & W); [lia|].
    assert (Q : forall k e, (e + k)%nat = N -> exists fuel c, greater_loop AD AM r (Fin a) (Fin b) fuel e = Chosen c).
    { induction k as [|k IH]; intros e He.
      - exists 1%nat. replace e with N by lia. cbn [greater_loop]. rewrite E. destruct W as (l & u & -> & L & U). cbn [d_l d_u].
        destruct (r_gt (r_of_d (Fin l)) (Fin a)) eqn:G; [eexists; reflexivity|].
        destruct (r_lt (r_of_d (Fin u)) (Fin b)) eqn:G'; [eexists; reflexivity|]. exfalso.
        assert (A1 : ~ Q2R a < dval l).
        { intro X. assert (Y : r_gt (r_of_d (Fin l)) (Fin a) = true) by (unfold r_gt; apply (r_lt_sound (Fin a) (r_of_d (Fin l)) (Finite (Q2R a)) (Finite (dval l)) eq_refl (r_of_d_mean (Fin l))); exact X). congruence. }
        assert (A2 : ~ dval u < Q2R b).
        { intro X. assert (Y : r_lt (r_of_d (Fin u)) (Fin b) = true) by (apply (r_lt_sound (r_of_d (Fin u)) (Fin b) (Finite (dval u)) (Finite (Q2R b)) (r_of_d_mean (Fin u)) eq_refl); exact X). congruence. }
        lra.
      - destruct (C e) as (y & Ey & Hy).
        destruct (IH (e + 1)%nat) as (f & c & R); [lia|]. exists (Datatypes.S f). cbn [greater_loop]. rewrite Ey.
        destruct (r_gt (r_of_d (d_l y)) (Fin a)); [eexists; reflexivity|].
        destruct (r_lt (r_of_d (d_u y)) (Fin b)); [eexists; reflexivity|]. exists c. exact R. }
    exact (Q N 0%nat eq_refl).
  Qed.

  (** ** Rounding *)
  Lemma w_round_half : forall a, exists z, w_round (Fin a) = Some z /\ Rabs (dval a - IZR z) <= / 2.
  Proof using.
    intro a. eexists. split; [reflexivity|].
    set (y := mkD (mant a) (expo a + 1)).
    set (w := d_addx y (if (0 <=? mant y)%Z then mkD 1 0 else mkD (-1) 0)).
    assert (Y : dval y = 2 * dval a) by (unfold y, dval; cbn [mant expo]; rewrite bpow_plus; cbn [bpow]; cbn; lra).
    assert (W : dval w = 2 * dval a + (if (0 <=? mant y)%Z then 1 else -1)).
    { unfold w. rewrite addx_val, Y. f_equal. destruct (0 <=? mant y)%Z; unfold dval; cbn; lra. }
    assert (H : dval (mkD (mant w) (expo w - 1)) = dval a + (if (0 <=? mant y)%Z then / 2 else - / 2)).
    { replace (dval (mkD (mant w) (expo w - 1))) with (dval w / 2); [rewrite W; destruct (0 <=? mant y)%Z; lra|].
      unfold dval. cbn [mant expo]. unfold Zminus. rewrite bpow_plus. cbn [bpow]. cbn. lra. }
    set (h := mkD (mant w) (expo w - 1)) in *.
    assert (S : (0 <= mant y)%Z <-> 0 <= dval a).
    { unfold y, dval. cbn [mant]. pose proof (bpow_gt_0 radix2 (expo a)). split; intro Q.
      - apply IZR_le in Q. apply Rmult_le_pos; lra.
      - apply le_IZR. destruct (Rle_dec 0 (IZR (mant a))); [assumption|]. exfalso.
        assert (IZR (mant a) * bpow radix2 (expo a) < 0); [|lra].
        rewrite <- (Rmult_0_l (bpow radix2 (expo a))). apply Rmult_lt_compat_r; lra. }
    assert (T : forall d, (0 <= dval d -> IZR (z_of_fin d) <= dval d < IZR (z_of_fin d) + 1) /\ (dval d <= 0 -> IZR (z_of_fin d) - 1 < dval d <= IZR (z_of_fin d))).
    { clear. intro d. unfold z_of_fin. destruct (Z.leb_spec 0 (expo d)) as [P|P].
      - rewrite <- (dval_int d P). lra.
      - rewrite (dval_frac d P). set (q := (2 ^ - expo d)%Z). assert (Hq : (0 < q)%Z) by (apply Z.pow_pos_nonneg; lia).
        pose proof (Z.quot_rem' (mant d) q) as E. pose proof (IZR_lt _ _ Hq) as Hr.
        assert (EE : IZR (mant d) = IZR q * IZR (Z.quot (mant d) q) + IZR (Z.rem (mant d) q)) by (rewrite <- mult_IZR, <- plus_IZR; f_equal; exact E).
        assert (F : IZR (mant d) / IZR q = IZR (Z.quot (mant d) q) + IZR (Z.rem (mant d) q) / IZR q) by (rewrite EE; field; lra).
        split; intro G.
        + assert (0 <= mant d)%Z.
          { apply le_IZR. replace (IZR (mant d)) with (IZR (mant d) / IZR q * IZR q) by (field; lra). apply Rmult_le_pos; lra. }
          pose proof (Z.rem_bound_pos (mant d) q ltac:(lia) Hq) as [R1 R2]. apply IZR_le in R1. apply IZR_lt in R2.
          rewrite F. assert (0 <= IZR (Z.rem (mant d) q) / IZR q) by (apply Rmult_le_pos; [lra|left; apply Rinv_0_lt_compat; lra]).
          assert (IZR (Z.rem (mant d) q) / IZR q < 1) by (apply Rmult_lt_reg_r with (IZR q); [lra|]; replace (IZR (Z.rem (mant d) q) / IZR q * IZR q) with (IZR (Z.rem (mant d) q)) by (field; lra); lra). lra.
        + assert (mant d <= 0)%Z.
          { apply le_IZR. replace (IZR (mant d)) with (IZR (mant d) / IZR q * IZR q) by (field; lra).
            rewrite <- (Rmult_0_l (IZR q)). apply Rmult_le_compat_r; lra. }
          assert (RB : (- q < Z.rem (mant d) q <= 0)%Z) by (pose proof (Z.rem_nonpos (mant d) q ltac:(lia) ltac:(lia)); pose proof (Z.rem_bound_abs (mant d) q ltac:(lia)); lia).
          destruct RB as [R1 R2]. apply IZR_lt in R1. apply IZR_le in R2. rewrite opp_IZR in R1. rewrite F.
          assert (IZR (Z.rem (mant d) q) / IZR q <= 0).
          { apply Rmult_le_reg_r with (IZR q); [lra|]. replace (IZR (Z.rem (mant d) q) / IZR q * IZR q) with (IZR (Z.rem (mant d) q)) by (field; lra). lra. }
          assert (-1 < IZR (Z.rem (mant d) q) / IZR q).
          { apply Rmult_lt_reg_r with (IZR q); [lra|]. replace (IZR (Z.rem (mant d) q) / IZR q * IZR q) with (IZR (Z.rem (mant d) q)) by (field; lra). lra. }
          lra. }
    specialize (T h). rewrite H in T. destruct (Z.leb_spec 0 (mant y)) as [Q|Q].
    - assert (0 <= dval a) by (apply S; exact Q). destruct T as [T _]. specialize (T ltac:(lra)). apply Rabs_le. lra.
    - assert (dval a < 0) by (destruct (Rlt_dec (dval a) 0); [assumption|exfalso; assert (0 <= mant y)%Z by (apply S; lra); lia]).
      destruct T as [_ T]. specialize (T ltac:(lra)). apply Rabs_le. lra.
  Qed.

  Lemma round_sound : forall r v fuel z, computes r v -> round_real AD AM r fuel = RGot z -> Rabs (v - IZR z) < 1.
  Proof using.
    intros r v fuel z C R. unfold round_real in R. destruct (compute_accuracy AD AM r (bits 1) fuel) as [| |b] eqn:A; try discriminate R.
    unfold bits, two_pow_minus in A. apply (accuracy_sound r v) in A; [|exact C|rewrite dval_two; apply Rlt_le, inv2_pos].
    rewrite dval_two in A. destruct A as [Hin (l & u & -> & N)]. rewrite in_fin in Hin. cbn [d_l d_u] in R.
    assert (M' : exists m, w_hlf (w_add (Fin l) (Fin u)) = Fin m /\ dval m = (dval l + dval u) / 2).
    { eexists. split; [reflexivity|]. rewrite (eo_hlf _ _ _ w_exact), (eo_add _ _ _ w_exact) by exact I. reflexivity. }
    destruct M' as (m & E & V). rewrite E in R. destruct (w_round_half m) as (z' & E' & Hz). rewrite E' in R. injection R as <-.
    rewrite V in Hz. apply Rabs_le_inv in Hz. rewrite pow_1 in N. apply Rabs_def1; lra.
  Qed.
  Lemma round_terminates : forall r v, computes r v -> converges r v -> exists fuel z, round_real AD AM r fuel = RGot z.
  Proof using.
    intros r v C V. destruct (accuracy_converges r v (mkD 1 (- Z.of_nat 1)) C V) as (fuel & b & A).
    { rewrite dval_two. apply inv2_pos. }
    exists fuel. unfold round_real, bits, two_pow_minus. rewrite A.
    apply (accuracy_sound r v) in A; [|exact C|rewrite dval_two; apply Rlt_le, inv2_pos].
    destruct A as [Hin (l & u & -> & N)]. cbn [d_l d_u].
    change (w_hlf (w_add (Fin l) (Fin u))) with (Fin (f_hlf w_ops (f_add w_ops l u))).
    destruct (w_round_half (f_hlf w_ops (f_add w_ops l u))) as (z' & E' & Hz). rewrite E'. eexists. reflexivity.
  Qed.
End Use.
