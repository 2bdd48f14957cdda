(** The series computed by the library are those of the elementary functions. *)
From Coq Require Import NArith List Bool Reals Lra Lia.
From Verif Require Import LRU_Model Poly_Model Poly_Spec Diff_Model Diff_Spec Diff_O_Proofs Diff_Series_Proofs Diff_Inst.
Import ListNotations.
Local Open Scope R_scope.

Lemma tan_derive x : cos x <> 0 -> derivable_pt_lim tan x (1 + tan x * tan x).
Proof.
  intros N. unfold tan. replace (1 + sin x / cos x * (sin x / cos x)) with ((cos x * cos x - - sin x * sin x) / Rsqr (cos x)).
  - apply (derivable_pt_lim_div sin cos); [apply derivable_pt_lim_sin | apply derivable_pt_lim_cos | exact N].
  - unfold Rsqr. field. exact N.
Qed.
Lemma cos_near r : cos r <> 0 -> exists d, 0 < d /\ forall t, Rabs t <= d -> cos (r + t) <> 0.
Proof.
  intros N. destruct (continuity_cos r (Rabs (cos r)) (Rabs_pos_lt _ N)) as (d & D & H). exists (d / 2). split; [lra|]. intros t T Q.
  destruct (Req_dec t 0) as [->|T0]; [rewrite Rplus_0_r in Q; contradiction|].
  specialize (H (r + t)). assert (A : D_x no_cond r (r + t) /\ dist R_met (r + t) r < d).
  { split; [split; [exact Logic.I | lra]|]. simpl. unfold R_dist. replace (r + t - r) with t by ring. lra. }
  specialize (H A). simpl in H. unfold R_dist in H. rewrite Q in H. replace (0 - cos r) with (- cos r) in H by ring. rewrite Rabs_Ropp in H. lra.
Qed.
Lemma tan_series r a : cos r <> 0 -> a 0%nat = tan r -> (forall d, INR (S d) * a (S d) = delta 1 d + cauchy a a d) -> forall n, Tn n (fun t => tan (r + t)) a.
Proof.
  intros N A0 A n. destruct (cos_near r N) as (d & D & C).
  assert (DD : forall t, Rabs t <= d -> derivable_pt_lim (fun t => tan (r + t)) t (1 + tan (r + t) * tan (r + t))).
  { intros t T. apply derive_sub, tan_derive, C, T. }
  induction n as [|n IH].
  - eapply Tn_0. apply DD. rewrite Rabs_R0. lra.
  - apply (Tn_integral n _ (fun t => 1 + tan (r + t) * tan (r + t)) a (fun i => delta 1 i + cauchy a a i) d); [exact D | exact DD | now rewrite Rplus_0_r | | intros i _; apply A].
    apply Tn_add; [apply Tn_const | now apply Tn_mul].
Qed.

Ltac rx :=
  change (carrier RX) with R in *;
  change (x_nul RX) with 0 in *;
  change (x_add RX) with Rplus in *;
  change (x_sub RX) with Rminus in *;
  change (x_mul RX) with Rmult in *;
  change (x_div RX) with Rdiv in *;
  change (x_neg RX) with Ropp in *;
  change (x_rec RX) with Rinv in *;
  change (x_sqrt RX) with sqrt in *;
  change (x_exp RX) with exp in *;
  change (x_log RX) with ln in *;
  change (x_sin RX) with sin in *;
  change (x_cos RX) with cos in *;
  change (x_tan RX) with tan in *;
  change (x_atan RX) with atan in *.
(** ** The coefficients, over the real numbers *)
Definition rseries (op : uop) (r : R) (n : nat) : list R := match series RX op r n with Some p => p | None => [] end.
Definition tc (op : uop) (r : R) (i : nat) : R := nth i (rseries op r (S i)) 0.
Lemma next_some X op d c y : has_series op = true -> exists v, next_coefficient X op d c y = Some v.
Proof. destruct op; intros H; try discriminate H; simpl; eauto. Qed.
Lemma rseries_step op r n : has_series op = true ->
  series RX op r n = Some (rseries op r n) /\ length (rseries op r n) = n /\
  exists w, next_coefficient RX op n r (rseries op r n) = Some w /\ rseries op r (S n) = rseries op r n ++ [w].
Proof.
  intros H. assert (A : forall m, exists p, series RX op r m = Some p /\ length p = m).
  { intros m. induction m as [|m (p & Q & L)]; [exists []; split; reflexivity|]. destruct (next_some RX op m r p H) as [w W].
    exists (p ++ [w]). simpl. rewrite Q, W. split; [reflexivity|]. rx. rewrite app_length, L. simpl. lia. }
  destruct (A n) as (p & Q & L). unfold rseries. rewrite Q. split; [reflexivity|]. split; [exact L|].
  destruct (next_some RX op n r p H) as [w W]. exists w. split; [exact W|]. simpl. rewrite Q, W. reflexivity.
Qed.
Lemma rseries_length op r n : has_series op = true -> length (rseries op r n) = n.
Proof. intros H. apply (rseries_step op r n H). Qed.
Lemma rseries_nth op r n i : has_series op = true -> (i < n)%nat -> nth i (rseries op r n) 0 = tc op r i.
Proof.
  intros H. induction n as [|n IH]; intros L; [lia|]. destruct (Nat.eq_dec i n) as [->|N]; [reflexivity|].
  destruct (rseries_step op r n H) as (_ & Ln & w & _ & ->). rewrite app_nth1 by lia. apply IH. lia.
Qed.
Lemma tc_next op r d : has_series op = true -> next_coefficient RX op d r (rseries op r d) = Some (tc op r d).
Proof.
  intros H. destruct (rseries_step op r d H) as (_ & L & w & -> & Q). f_equal. unfold tc. rewrite Q, app_nth2 by lia. rewrite L, Nat.sub_diag. reflexivity.
Qed.

Lemma nat_RX n : x_nat RX (N.of_nat n) = INR n.
Proof. simpl. now rewrite Nat2N.id. Qed.
Lemma hlf_RX x : x_hlf RX x = x / 2.
Proof. reflexivity. Qed.

Lemma some_inj {A} (x y : A) : Some x = Some y -> y = x.
Proof. intros H. now injection H. Qed.

(** Each recurrence. *)
Lemma tan_sum_conv d (a : nat -> R) y : (forall i, (i < S d)%nat -> nth i y 0 = a i) -> tan_sum RX (S d) y = cauchy a a d.
Proof.
  intros H. unfold tan_sum, cauchy. rx. replace (S d - 1)%nat with d by lia.
  assert (A : forall k, (k <= d)%nat -> fold_left (fun r i => r + nth i y 0 * nth (d - i) y 0) (seq 1 k) (nth 0 y 0 * nth d y 0) = conv a a d (S k)).
  { induction k as [|k IH]; intros L.
    - simpl. rewrite !H by lia. rewrite Nat.sub_0_r. ring.
    - rewrite seq_S, fold_left_app, IH by lia. cbn [fold_left]. rewrite !H by lia.
      change (conv a a d (S (S k))) with (conv a a d (S k) + a (S k) * a (d - S k)%nat). simpl (1 + k)%nat. reflexivity. }
  apply A. lia.
Qed.
Lemma series_correct op r : has_series op = true -> udom op r -> forall n, Tn n (fun t => usem op (r + t)) (tc op r).
Proof.
  intros H D.
  assert (Nt : forall n i, (i < n)%nat -> nth i (rseries op r n) (x_nul RX) = tc op r i) by (intros n i; apply rseries_nth, H).
  destruct op; try discriminate H; cbn [usem udom] in *;
    match goal with |- context [tc ?op r] => pose proof (fun d => some_inj _ _ (tc_next op r d H)) as Nx end.
  - (* nul *) intros n. apply (Tn_coef n _ (delta 0)); [|apply Tn_const]. intros i _. rewrite Nx. destruct i; reflexivity.
  - (* pos *) intros n. eapply Tn_coef; [|apply (Tn_id n r)]. intros [|[|i]] _; rewrite Nx; cbv beta iota; rx; rewrite ?nat_RX; cbn [INR]; ring.
  - (* neg *) intros n. apply (Tn_near n (fun t => -1 * (r + t)) _ _ 1); [lra | intros; ring|].
    eapply Tn_coef; [|apply Tn_scale, (Tn_id n r)]. intros [|[|i]] _; rewrite Nx; cbv beta iota; rx; rewrite ?nat_RX; cbn [INR]; ring.
  - (* sqr *) intros n. apply (Tn_near n (fun t => r * (r + t) + t * (r + t)) _ _ 1); [lra | intros; ring|].
    eapply Tn_coef; [|apply Tn_add; [apply Tn_scale, (Tn_id n r) | apply (Tn_weaken (S n)); [lia|]; apply Tn_shift, (Tn_id n r)]].
    intros [|[|[|i]]] _; rewrite Nx; cbv beta iota; rx; rewrite ?nat_RX; cbn [INR shift]; ring.
  - (* hlf *) intros n. apply (Tn_near n (fun t => / 2 * (r + t)) _ _ 1); [lra | intros; field|].
    eapply Tn_coef; [|apply Tn_scale, (Tn_id n r)]. intros [|[|i]] _; rewrite Nx; cbv beta iota; rx; rewrite ?hlf_RX; rewrite ?nat_RX; cbn [INR]; field.
  - (* rec *) apply rec_series; [exact D | rewrite Nx; reflexivity|]. intros d. rewrite (Nx (S d)). cbn [next_coefficient]. rx.
    replace (S d - 1)%nat with d by lia. change 0 with (x_nul RX). rewrite !Nt by lia. reflexivity.
  - (* sqrt *) apply sqrt_series; [exact D | rewrite Nx; reflexivity|]. intros d. rewrite (Nx (S d)). cbn [next_coefficient].
    replace (S d - 1)%nat with d by lia. rewrite !Nt by lia. rx. rewrite !nat_RX.
    assert (S0 : INR (S d) <> 0) by (apply not_0_INR; lia). destruct d as [|d].
    + simpl INR in *. field. lra.
    + replace (2 * S (S d) - 3)%nat with (2 * d + 1)%nat by lia. rewrite plus_INR, mult_INR, !S_INR in *. simpl INR in *. field. split; lra.
  - (* exp *) apply exp_series; [rewrite Nx; reflexivity|]. intros d. rewrite (Nx (S d)). cbn [next_coefficient]. replace (S d - 1)%nat with d by lia. rewrite !Nt by lia. rx.
    rewrite nat_RX. field. apply not_0_INR. lia.
  - (* log *) apply log_series; [exact D | rewrite Nx; reflexivity | rewrite Nx; cbn [next_coefficient]; rx; rewrite nat_RX; cbn [INR]; field; lra|]. intros d. rewrite (Nx (S (S d))). cbn [next_coefficient].
    replace (S (S d) - 1)%nat with (S d) by lia. rewrite !Nt by lia. rx. rewrite !nat_RX. field. apply not_0_INR. lia.
  - (* sin *) apply sin_series; [rewrite Nx; reflexivity | rewrite Nx; reflexivity|]. intros d. rewrite (Nx (S (S d))). cbn [next_coefficient].
    replace (S (S d) - 2)%nat with d by lia. replace (S (S d) - 1)%nat with (S d) by lia. rewrite !Nt by lia. rx. rewrite nat_RX, mult_INR. field. split; apply not_0_INR; lia.
  - (* cos *) apply cos_series; [rewrite Nx; reflexivity | rewrite Nx; reflexivity|]. intros d. rewrite (Nx (S (S d))). cbn [next_coefficient].
    replace (S (S d) - 2)%nat with d by lia. replace (S (S d) - 1)%nat with (S d) by lia. rewrite !Nt by lia. rx. rewrite nat_RX, mult_INR. field. split; apply not_0_INR; lia.
  - (* tan *) apply tan_series; [exact D | rewrite Nx; reflexivity|]. intros [|[|d]].
    + rewrite (Nx 1%nat). cbn [next_coefficient]. rewrite !Nt by lia. rx. rewrite nat_RX. unfold cauchy. simpl. ring.
    + rewrite (Nx 2%nat). cbn [next_coefficient]. rewrite !Nt by lia. rx. unfold cauchy. simpl. ring.
    + rewrite (Nx (S (S (S d)))). cbn [next_coefficient]. rewrite (tan_sum_conv (S (S d)) (tc Tan r)); [|intros i L; apply rseries_nth; [reflexivity | lia]]. rx. rewrite nat_RX.
      cbn [delta]. field. apply not_0_INR. lia.
  - (* atan *) apply atan_series; [rewrite Nx; reflexivity | | |].
    + rewrite Nx. cbn [next_coefficient]. rx. rewrite nat_RX. reflexivity.
    + rewrite (Nx 2%nat). cbn [next_coefficient]. rewrite !Nt by lia. rx. simpl INR. ring.
    + intros d. rewrite (Nx (S (S (S d)))). cbn [next_coefficient]. rewrite !Nt by lia. rx. rewrite !nat_RX.
      replace (S (S (S d)) - 2)%nat with (S d) by lia. replace (S (S (S d)) - 1)%nat with (S (S d)) by lia. rewrite mult_INR. simpl (INR 2). field. apply not_0_INR. lia.
Qed.

(** ** Any number type *)
Section Any.
Context (X : scalar) (holds : X -> R -> Prop) (E : encloses X holds).
Notation alike := (Forall2 holds).
Lemma alike_nth s p i : alike s p -> holds (nth i s (x_nul X)) (nth i p 0).
Proof. intros H. revert i. induction H as [|x y s p Hxy _ IH]; intros [|i]; simpl; try apply (h_nul _ _ E); auto. Qed.
Lemma holds_nat n : holds (x_nat X (N.of_nat n)) (INR n).
Proof. pose proof (h_nat _ _ E (N.of_nat n)) as H. now rewrite Nat2N.id in H. Qed.
Lemma tan_sum_holds d s p : alike s p -> holds (tan_sum X d s) (tan_sum RX d p).
Proof.
  intros A. unfold tan_sum. rx. generalize (seq 1 (d - 1)) as l.
  assert (B : holds (x_mul X (nth 0 s (x_nul X)) (nth (d - 1) s (x_nul X))) (nth 0 p 0 * nth (d - 1) p 0)) by (apply (h_mul _ _ E); now apply alike_nth).
  revert B. generalize (x_mul X (nth 0 s (x_nul X)) (nth (d - 1) s (x_nul X))) (nth 0 p 0 * nth (d - 1) p 0).
  intros v w B l. revert v w B. induction l as [|i l IH]; intros v w B; [exact B|]. simpl. apply IH. apply (h_add _ _ E); [exact B|]. apply (h_mul _ _ E); now apply alike_nth.
Qed.
Lemma next_holds op d c r s p : has_series op = true -> udom op r -> holds c r -> alike s p ->
  exists v w, next_coefficient X op d c s = Some v /\ next_coefficient RX op d r p = Some w /\ holds v w.
Proof.
  intros H D C A. pose proof (fun i => alike_nth s p i A) as An.
  pose proof (fun n => holds_nat n) as Hn.
  assert (NZ : forall n, INR (S n) <> 0) by (intros n; apply not_0_INR; lia).
  assert (H1 : holds (x_nat X (N.of_nat 1)) 1) by apply (holds_nat 1). assert (H2 : holds (x_nat X (N.of_nat 2)) 2) by (replace 2 with (INR 2) by (simpl; ring); apply holds_nat).
  pose proof (h_nul _ _ E) as H0.
  assert (Hadd1 : holds (x_add X (x_nul X) (x_nat X (N.of_nat 1))) (0 + 1)) by (now apply (h_add _ _ E)).
  destruct op; try discriminate H; cbn [udom] in D; do 2 eexists; (split; [reflexivity | split; [reflexivity|]]).
  - exact H0.
  - destruct d as [|[|d]]; rx; rewrite ?nat_RX; assumption.
  - destruct d as [|[|d]]; rx; rewrite ?nat_RX; [now apply (h_neg _ _ E) | now apply (h_sub _ _ E) | exact H0].
  - destruct d as [|[|[|d]]]; rx; rewrite ?nat_RX; [now apply (h_mul _ _ E) | apply (h_mul _ _ E); [apply Hn | exact C] | exact Hadd1 | exact H0].
  - destruct d as [|[|d]]; rx; rewrite ?nat_RX, ?hlf_RX; [now apply (h_hlf _ _ E) | now apply (h_hlf _ _ E) | exact H0].
  - destruct d as [|d]; rx; [now apply (h_rec _ _ E) | apply (h_mul _ _ E); [apply An | apply (h_neg _ _ E), An]].
  - destruct d as [|d]; rx; [now apply (h_sqrt _ _ E)|]. apply (h_mul _ _ E); [|apply An]. rewrite !nat_RX.
    apply (h_div _ _ E); [|apply Hn | apply NZ]. apply (h_div _ _ E); [|apply Hn | apply NZ].
    apply (h_mul _ _ E); [destruct d; rx; rewrite ?nat_RX; [apply (h_neg _ _ E), Hn | apply Hn]|]. apply (h_div _ _ E); [apply (h_neg _ _ E), Hn | exact C | lra].
  - destruct d as [|d]; rx; [now apply (h_exp _ _ E)|]. rewrite nat_RX. apply (h_div _ _ E); [apply An | apply Hn | apply NZ].
  - destruct d as [|[|d]]; rx; rewrite ?nat_RX; [now apply (h_log _ _ E) | apply (h_div _ _ E); [apply Hn | exact C | lra] |].
    apply (h_div _ _ E); [|apply Hn | apply NZ]. apply (h_mul _ _ E); [|apply Hn]. apply (h_mul _ _ E); [apply (h_neg _ _ E), An | apply An].
  - destruct d as [|[|d]]; rx; rewrite ?nat_RX; [now apply (h_sin _ _ E) | now apply (h_cos _ _ E) |].
    apply (h_div _ _ E); [apply (h_neg _ _ E), An | apply Hn | apply not_0_INR; lia].
  - destruct d as [|[|d]]; rx; rewrite ?nat_RX; [now apply (h_cos _ _ E) | now apply (h_neg _ _ E), (h_sin _ _ E) |].
    apply (h_div _ _ E); [apply (h_neg _ _ E), An | apply Hn | apply not_0_INR; lia].
  - destruct d as [|[|[|d]]]; rx; rewrite ?nat_RX; [now apply (h_tan _ _ E) | apply (h_add _ _ E); [apply Hn | apply (h_mul _ _ E); apply An] | apply (h_mul _ _ E); apply An |].
    apply (h_div _ _ E); [now apply tan_sum_holds | apply Hn | apply NZ].
  - destruct d as [|[|[|d]]]; rx; rewrite ?nat_RX; [now apply (h_atan _ _ E) | | |].
    + apply (h_rec _ _ E); [apply (h_add _ _ E); [apply Hn | now apply (h_mul _ _ E)]|]. simpl. pose proof (Rle_0_sqr r). unfold Rsqr in *. lra.
    + apply (h_mul _ _ E); [now apply (h_neg _ _ E) | apply (h_mul _ _ E); apply An].
    + apply (h_div _ _ E); [|apply Hn | apply NZ]. apply (h_mul _ _ E); [apply (h_neg _ _ E), An|].
      apply (h_add _ _ E); [apply (h_mul _ _ E); [apply Hn | apply An]|]. apply (h_mul _ _ E); [apply (h_mul _ _ E); [apply Hn | exact C] | apply An].
Qed.
Lemma series_holds op c r n : has_series op = true -> udom op r -> holds c r ->
  exists s, series X op c n = Some s /\ length s = n /\ forall i, (i < n)%nat -> holds (nth i s (x_nul X)) (tc op r i).
Proof.
  intros H D C. assert (A : exists s, series X op c n = Some s /\ length s = n /\ alike s (rseries op r n)).
  { induction n as [|n (s & Q & L & A)]; [exists []; repeat split; constructor|].
    destruct (next_holds op n c r s _ H D C A) as (v & w & V & W & Hv). exists (s ++ [v]). simpl. rewrite Q, V.
    split; [reflexivity|]. split; [rewrite app_length, L; simpl; lia|].
    destruct (rseries_step op r n H) as (_ & _ & w' & W' & ->). rewrite W in W'. injection W' as <-. apply Forall2_app; [exact A | repeat constructor; exact Hv]. }
  destruct A as (s & Q & L & A). exists s. split; [exact Q|]. split; [exact L|]. intros i I. rewrite <- (rseries_nth op r n i H I). now apply alike_nth.
Qed.
End Any.
