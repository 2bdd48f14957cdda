(** Proofs about the constraint solver. *)
From Coq Require Import ZArith Bool List Reals Lia Lra Psatz.
From Flocq Require Import Core IEEE754.BinarySingleNaN.
From Flocq Require Mult_error.
From Verif Require Import Logical_Model Float_Model Float_Spec Float_Proofs Bounds_Model Bounds_Spec Bounds_Proofs.
From Verif Require Import ConstraintSolver_Model ConstraintSolver_Spec.
Import ListNotations.
Local Open Scope R_scope.

Section Proofs.
Context {prec emax : Z} {Hprec : Prec_gt_0 prec} {Hemax : Prec_lt_emax prec emax} {Hp : (11 <= prec)%Z}.
Local Notation fl := (binary_float prec emax).
Local Notation bnd := (bounds prec emax).
Local Notation near := mode_NE.
Local Notation up := mode_UP.
Local Notation fexp := (SpecFloat.fexp prec emax).
Local Notation rnd m := (round radix2 fexp (round_mode m)).
Local Notation M := (bpow radix2 (emax - 4)).
Local Notation cbox := (@cbox prec emax).

Local Instance Vexp : Valid_exp fexp := fexp_correct prec emax Hprec.

(** ** Exact operations *)
Lemma int_format k e : (Z.abs k <= 1024)%Z -> (SpecFloat.emin prec emax <= e)%Z ->
  generic_format radix2 fexp (IZR k * bpow radix2 e).
Proof.
  intros Hk He. change (generic_format radix2 (FLT_exp (SpecFloat.emin prec emax) prec) (IZR k * bpow radix2 e)).
  apply generic_format_FLT. exists (Float radix2 k e); [reflexivity| |exact He].
  cbn [Fnum]. apply Z.le_lt_trans with 1024%Z; auto.
  apply Z.lt_le_trans with (Zpower radix2 11); [reflexivity|]. apply Zpower_le; auto.
Qed.
Lemma emin_neg : (SpecFloat.emin prec emax <= - 20)%Z.
Proof.
  unfold SpecFloat.emin. assert (prec < emax)%Z by (exact Hemax). lia.
Qed.
Lemma fint_exact k : (Z.abs k <= 1024)%Z -> B2R (fint k : fl) = IZR k /\ is_finite (fint k : fl) = true.
Proof.
  intros Hk. unfold fint.
  pose proof (binary_normalize_correct prec emax Hprec Hemax near k 0 false) as H. cbn zeta in H.
  assert (generic_format radix2 fexp (IZR k)) as G.
  { replace (IZR k) with (IZR k * bpow radix2 0) by (cbn; ring). apply int_format; auto. pose proof emin_neg; lia. }
  replace (F2R (Float radix2 k 0)) with (IZR k) in H by (unfold F2R; cbn; ring).
  rewrite round_generic in H by (auto with typeclass_instances).
  rewrite Rlt_bool_true in H. { tauto. }
  rewrite <- abs_IZR. apply Rle_lt_trans with 1024; [apply IZR_le; auto|].
  change 1024 with (bpow radix2 10). apply bpow_lt. assert (prec < emax)%Z by (exact Hemax). lia.
Qed.
Lemma fnat_exact k : (k <= 1024)%nat -> B2R (fnat k : fl) = INR k /\ is_finite (fnat k : fl) = true.
Proof. intros. unfold fnat. rewrite INR_IZR_INZ. apply fint_exact. lia. Qed.

Lemma rounded_small m r (f : fl) B : rounded m r f -> generic_format radix2 fexp B -> B < bpow radix2 emax ->
  Rabs r <= B -> is_finite f = true /\ Rabs (B2R f) <= B /\ B2R f = rnd m r.
Proof.
  intros H G L A.
  assert (Rabs (rnd m r) <= B) as A' by (apply abs_round_le_generic; auto with typeclass_instances).
  destruct H as [(_ & F & E)|(L' & _)]; [rewrite E; auto|lra].
Qed.
Lemma M_pos : 0 < M. Proof. apply bpow_gt_0. Qed.
Lemma M_multiple k : (0 <= k <= 8)%Z -> generic_format radix2 fexp (IZR k * M) /\ IZR k * M < bpow radix2 emax.
Proof.
  intros Hk. assert (prec < emax)%Z by (exact Hemax). split.
  - apply int_format; [lia|]. unfold SpecFloat.emin. lia.
  - apply Rle_lt_trans with (bpow radix2 3 * M).
    + apply Rmult_le_compat_r; [left; apply M_pos|]. apply (IZR_le k 8). lia.
    + rewrite <- bpow_plus. apply bpow_lt. lia.
Qed.

Lemma moderate_lt (a : fl) : moderate a -> Rabs (B2R a) < bpow radix2 emax.
Proof. intros [_ H]. pose proof (M_multiple 1 ltac:(lia)). lra. Qed.

(** The cut points are moderate, and the first and the last are the ends. *)
Lemma scaled (a : fl) k : (k <= 8)%nat -> moderate a ->
  is_finite (fmul near a (fnat k)) = true /\ Rabs (B2R (fmul near a (fnat k))) <= INR k * M
  /\ B2R (fmul near a (fnat k)) = rnd near (B2R a * INR k).
Proof.
  intros Hk [F A]. destruct (fnat_exact k ltac:(lia)) as [E Fk].
  pose proof (fmul_rounded near a (fnat k) F Fk) as H. rewrite E in H.
  destruct (M_multiple (Z.of_nat k) ltac:(lia)) as [G L]. rewrite <- INR_IZR_INZ in G, L.
  eapply rounded_small; eauto.
  rewrite Rabs_mult, (Rabs_pos_eq (INR k)) by apply pos_INR. pose proof (pos_INR k). nra.
Qed.
Lemma affine_moderate (l u : fl) i : (i <= 8)%nat -> moderate l -> moderate u ->
  moderate (affine l u i 8) /\
  B2R (affine l u i 8) = rnd near (rnd near (rnd near (B2R l * INR (8 - i)) + rnd near (B2R u * INR i)) / 8).
Proof.
  intros Hi Ml Mu. unfold affine.
  destruct (scaled l (8 - i) ltac:(lia) Ml) as (F1 & A1 & E1). destruct (scaled u i ltac:(lia) Mu) as (F2 & A2 & E2).
  set (p := fmul near l (fnat (8 - i))) in *. set (q := fmul near u (fnat i)) in *.
  destruct (M_multiple 8 ltac:(lia)) as [G8 L8]. destruct (M_multiple 1 ltac:(lia)) as [G1 L1].
  pose proof M_pos as Mp.
  assert (INR (8 - i) + INR i = 8) as S. { rewrite <- plus_INR. replace (8 - i + i)%nat with 8%nat by lia. cbn. lra. }
  destruct (rounded_small near _ _ _ (fadd_rounded near p q F1 F2) G8 L8) as (F3 & A3 & E3).
  { eapply Rle_trans; [apply Rabs_triang|]. nra. }
  destruct (fnat_exact 8 ltac:(lia)) as [E8 F8]. replace (INR 8) with 8 in E8 by (cbn; lra).
  assert (B2R (fnat 8 : fl) <> 0) as N8 by (rewrite E8; lra).
  pose proof (fdiv_rounded near (fadd near p q) (fnat 8) F3 N8) as R4. rewrite E8 in R4.
  destruct (rounded_small near _ _ _ R4 G1 L1) as (F4 & A4 & E4).
  { unfold Rdiv. rewrite Rabs_mult, (Rabs_pos_eq (/ 8)) by lra. lra. }
  split; [split; [exact F4|lra]|]. rewrite E4, E3, E1, E2. reflexivity.
Qed.
Lemma times8_format (a : fl) : moderate a -> rnd near (B2R a * 8) = B2R a * 8.
Proof.
  intros Ma. apply round_generic; [auto with typeclass_instances|].
  change 8 with (bpow radix2 3).
  change (generic_format radix2 (FLT_exp (SpecFloat.emin prec emax) prec) (B2R a * bpow radix2 3)).
  apply Mult_error.mult_bpow_pos_exact_FLT; [apply (generic_format_B2R prec emax)|lia].
Qed.
Lemma affine_first (l u : fl) : moderate l -> moderate u -> B2R (affine l u 0 8) = B2R l.
Proof.
  intros Ml Mu. destruct (affine_moderate l u 0 ltac:(lia) Ml Mu) as [_ ->].
  replace (INR (8 - 0)) with 8 by (cbn; lra). replace (B2R u * INR 0) with 0 by (cbn; ring).
  rewrite round_0 by auto with typeclass_instances. rewrite times8_format by auto.
  rewrite Rplus_0_r, times8_format by auto. replace (B2R l * 8 / 8) with (B2R l) by field.
  apply round_generic; auto with typeclass_instances. apply generic_format_B2R.
Qed.
Lemma affine_last (l u : fl) : moderate l -> moderate u -> B2R (affine l u 8 8) = B2R u.
Proof.
  intros Ml Mu. destruct (affine_moderate l u 8 ltac:(lia) Ml Mu) as [_ ->].
  replace (INR 8) with 8 by (cbn; lra). replace (B2R l * INR (8 - 8)) with 0 by (cbn; ring).
  rewrite round_0 by auto with typeclass_instances. rewrite times8_format by auto.
  rewrite Rplus_0_l, times8_format by auto. replace (B2R u * 8 / 8) with (B2R u) by field.
  apply round_generic; auto with typeclass_instances. apply generic_format_B2R.
Qed.

(** ** Boxes *)
Lemma in_coord (B : cbox) x v : in_cbox B x -> (v < length B)%nat -> contains (coord B v) (nth v x 0).
Proof.
  intros H. revert v. unfold coord. induction H; intros v L; [inversion L|].
  destruct v; cbn in *; [auto|]. apply IHForall2. lia.
Qed.
Lemma in_set_at (B : cbox) x v X : in_cbox B x -> contains X (nth v x 0) -> in_cbox (set_at v X B) x.
Proof.
  intros H. revert v. induction H; intros v C; destruct v; cbn in *; try constructor; auto. apply IHForall2; auto.
Qed.
Lemma in_replace (B : cbox) x v X t : in_cbox B x -> contains X t -> in_cbox (set_at v X B) (replace v t x).
Proof.
  intros H. revert v. induction H; intros v C; destruct v; cbn in *; constructor; auto. apply IHForall2; auto.
Qed.
Lemma in_box_length (B : cbox) x : in_cbox B x -> length B = length x.
Proof. induction 1; cbn; auto. Qed.
Lemma set_at_length {A} v (a : A) l : length (set_at v a l) = length l.
Proof. revert v; induction l; intros [|v]; cbn; auto. Qed.
Lemma coord_set_at (B : cbox) v X : (v < length B)%nat -> coord (set_at v X B) v = X.
Proof.
  revert v. unfold coord. induction B; intros v L; [inversion L|]. destruct v; cbn in *; auto. apply IHB. lia.
Qed.
Lemma coord_set_other (B : cbox) v w X : v <> w -> coord (set_at v X B) w = coord B w.
Proof.
  revert v w. unfold coord. induction B; intros v w N; cbn; [destruct v; reflexivity|].
  destruct v, w; cbn; auto; try congruence.
Qed.
Lemma set_at_twice {A} v (a b : A) l : set_at v a (set_at v b l) = set_at v a l.
Proof. revert v; induction l; intros [|v]; cbn; auto. now rewrite IHl. Qed.
Lemma set_at_coord (B : cbox) v : set_at v (coord B v) B = B.
Proof. revert v. unfold coord. induction B; intros [|v]; cbn; auto. now rewrite IHB. Qed.
Lemma contains_nonempty (X : bnd) r : contains X r -> ivl_empty X = false.
Proof.
  intros [L U]. unfold ivl_empty. destruct flt_lt eqn:E; auto. pose proof (lt_true _ _ _ _ E U L). lra.
Qed.
Lemma in_box_nonempty (B : cbox) x : in_cbox B x -> box_empty B = false.
Proof.
  induction 1; cbn; auto. rewrite (contains_nonempty _ _ H). auto.
Qed.
Lemma refinement_contains (X Y : bnd) r : contains X r -> contains Y r -> contains (b_refinement X Y) r.
Proof. intros [? ?] [? ?]. split; cbn; [apply below_fmax|apply above_fmin]; auto. Qed.

(** ** box_reduce *)
Section BoxReduce.
  Context (f : list R -> R -> Prop) (ev : cbox -> bnd) (c : bnd) (dom : cbox) (v : nat).
  Context (Hev : encloses f ev) (Hv : (v < length dom)%nat) (Hm : moderate_ivl (coord dom v)).
  Local Notation a i := (cut_point dom v i).
  Lemma cut_finite i : (i <= 8)%nat -> moderate (a i).
  Proof. intros. apply affine_moderate; auto; apply Hm. Qed.

  Context (x : list R) (Hx : solution f c dom x).
  Local Notation t := (nth v x 0).
  Lemma slice_kept i : (S i <= 8)%nat -> below (a i) t -> above (a (S i)) t -> slice_excluded ev c dom v i = false.
  Proof.
    intros Hi L U. destruct Hx as (B & y & E & C). unfold slice_excluded, slice_image.
    eapply contains_nonempty. apply refinement_contains; [|exact C].
    apply Hev with x; auto. apply in_set_at; auto. split; auto.
  Qed.
  Lemma excluded_beyond i : (S i <= 8)%nat -> slice_excluded ev c dom v i = true -> below (a i) t -> B2R (a (S i)) < t.
  Proof.
    intros Hi E L. destruct (Rlt_or_le (B2R (a (S i))) t) as [H|H]; auto.
    rewrite slice_kept in E; auto; [discriminate|].
    apply above_finite; auto. apply cut_finite; auto.
  Qed.
  Lemma excluded_before i : (S i <= 8)%nat -> slice_excluded ev c dom v i = true -> above (a (S i)) t -> t < B2R (a i).
  Proof.
    intros Hi E L. destruct (Rlt_or_le t (B2R (a i))) as [H|H]; auto.
    rewrite slice_kept in E; auto; [discriminate|].
    apply below_finite; auto. apply cut_finite; lia.
  Qed.
  Lemma from_below_keeps k i nl imax nl' : from_below ev c dom v k i nl = (imax, nl') -> (i + k <= 8)%nat ->
    below nl t -> below (a i) t -> below nl' t /\ (imax <> i -> B2R (a imax) < t) /\ (i <= imax <= i + k)%nat.
  Proof.
    revert i nl. induction k; cbn [from_below]; intros i nl H Hi L1 L2.
    - inversion H; subst. repeat split; auto; try lia; congruence.
    - destruct (slice_excluded ev c dom v i) eqn:E.
      + assert (B2R (a (S i)) < t) as B by (apply excluded_beyond; auto; lia).
        assert (below (a (S i)) t) as B' by (apply below_finite; [apply cut_finite; lia|lra]).
        destruct (IHk _ _ H ltac:(lia) B' B') as (Q & N & I). repeat split; auto; try lia.
        intros _. destruct (Nat.eq_dec imax (S i)); subst; auto.
      + inversion H; subst. repeat split; auto; try lia; congruence.
  Qed.
  Lemma from_above_keeps k j nu : (k <= j)%nat -> (j <= 7)%nat -> above nu t -> above (a (S j)) t ->
    above (from_above ev c dom v k j nu) t.
  Proof.
    revert j nu. induction k; cbn [from_above]; intros j nu Hk Hj U1 U2; auto.
    destruct (slice_excluded ev c dom v j) eqn:E; auto.
    assert (t < B2R (a j)) as B by (apply excluded_before; auto; lia).
    assert (above (a j) t) as B' by (apply above_finite; [apply cut_finite; lia|lra]).
    apply IHk; auto; try lia. replace (S (Nat.pred j)) with j by lia. auto.
  Qed.
  Lemma box_reduce_sound e dom' : box_reduce ev c dom v = Some (e, dom') -> in_cbox dom' x /\ e = false.
  Proof.
    destruct Hm as [Ml Mu]. destruct Hx as (B & _). pose proof (in_coord _ _ _ B Hv) as [L U].
    assert (below (a 0) t) as L0.
    { apply below_finite; [apply cut_finite; lia|]. unfold cut_point. rewrite affine_first by auto.
      apply below_finite; auto. apply Ml. }
    assert (above (a 8) t) as U8.
    { apply above_finite; [apply cut_finite; lia|]. unfold cut_point. rewrite affine_last by auto.
      apply above_finite; auto. apply Mu. }
    unfold box_reduce. destruct flt_le; [intros H; inversion H; subst; auto|].
    destruct (from_below ev c dom v slices 0 (b_l (coord dom v))) as [imax nl] eqn:E.
    destruct (from_below_keeps _ _ _ _ _ E ltac:(unfold slices; lia) L L0) as (L' & N & I).
    unfold slices in I.
    destruct (Nat.eqb_spec imax slices) as [->|Ni].
    { exfalso. unfold slices in N. specialize (N ltac:(lia)).
      apply above_finite in U8; [lra|apply cut_finite; lia]. }
    assert (above (from_above ev c dom v (slices - 1 - imax) (slices - 1) (b_u (coord dom v))) t) as U'.
    { apply from_above_keeps; [unfold slices; lia|unfold slices; lia|exact U|exact U8]. }
    destruct flt_lt; [discriminate|]. intros H; inversion H; subst. split; auto.
    apply in_set_at; auto. split; auto.
  Qed.
End BoxReduce.

(** Shape of the result *)
Lemma from_below_moderate ev c (dom : cbox) v k i nl : moderate_ivl (coord dom v) -> (i + k <= 8)%nat -> moderate nl ->
  moderate (snd (from_below ev c dom v k i nl)).
Proof.
  intros Hm. revert i nl. induction k; cbn [from_below]; intros i nl Hi Hn; auto.
  destruct slice_excluded; auto. apply IHk; try lia. apply cut_finite; auto; lia.
Qed.
Lemma from_above_moderate ev c (dom : cbox) v k j nu : moderate_ivl (coord dom v) -> (j <= 8)%nat -> moderate nu ->
  moderate (from_above ev c dom v k j nu).
Proof.
  intros Hm. revert j nu. induction k; cbn [from_above]; intros j nu Hi Hn; auto.
  destruct slice_excluded; auto. apply IHk; try lia. apply cut_finite; auto; lia.
Qed.
Lemma box_reduce_shape ev c (dom : cbox) v e dom' : box_reduce ev c dom v = Some (e, dom') ->
  exists X, dom' = set_at v X dom /\ (e = true -> X = b_empty) /\
    (moderate_ivl (coord dom v) -> e = false -> moderate_ivl X).
Proof.
  unfold box_reduce. destruct flt_le.
  { intros H; inversion H; subst. exists (coord dom' v). rewrite set_at_coord. repeat split; auto; discriminate || apply H0. }
  destruct from_below as [imax nl] eqn:E. destruct (Nat.eqb imax slices).
  { intros H; inversion H; subst. exists b_empty. repeat split; auto; discriminate. }
  destruct flt_lt; [discriminate|]. intros H; inversion H; subst. eexists; split; [reflexivity|].
  split; [discriminate|]. intros Hm _. split; cbn [b_l b_u].
  - pose proof (from_below_moderate ev c dom v slices 0 (b_l (coord dom v)) Hm ltac:(unfold slices; lia) (proj1 Hm)) as Q. rewrite E in Q. exact Q.
  - apply from_above_moderate; [auto|unfold slices; lia|apply Hm].
Qed.

(** The assertion can only fail when there is no solution, or when the cut points are out of order. *)
Lemma box_reduce_returns f ev c (dom : cbox) v x : encloses f ev -> (v < length dom)%nat -> moderate_ivl (coord dom v) ->
  solution f c dom x -> box_reduce ev c dom v <> None.
Proof.
  intros Hev Hv Hm Hx. destruct Hm as [Ml Mu]. destruct Hx as (B & y & Y). pose proof (in_coord _ _ _ B Hv) as [L U].
  assert (below (cut_point dom v 0) (nth v x 0)) as L0.
  { apply below_finite; [apply cut_finite; [split; auto|lia]|]. unfold cut_point. rewrite affine_first by auto.
    apply below_finite; auto. apply Ml. }
  assert (above (cut_point dom v 8) (nth v x 0)) as U8.
  { apply above_finite; [apply cut_finite; [split; auto|lia]|]. unfold cut_point. rewrite affine_last by auto.
    apply above_finite; auto. apply Mu. }
  assert (solution f c dom x) as Hx by (split; eauto).
  unfold box_reduce. destruct flt_le; [discriminate|].
  destruct (from_below ev c dom v slices 0 (b_l (coord dom v))) as [imax nl] eqn:E.
  destruct (from_below_keeps f ev c dom v Hev Hv (conj Ml Mu) x Hx _ _ _ _ _ E ltac:(unfold slices; lia) L L0) as (L' & _ & I).
  unfold slices in I. destruct (Nat.eqb_spec imax slices) as [->|Ni]; [discriminate|].
  assert (above (from_above ev c dom v (slices - 1 - imax) (slices - 1) (b_u (coord dom v))) (nth v x 0)) as U'.
  { eapply from_above_keeps; try exact Hev; try exact Hx; try exact U; try exact U8; try (unfold slices; lia); split; auto. }
  destruct flt_lt eqn:Q; [|discriminate]. pose proof (lt_true _ _ _ _ Q U' L'). lra.
Qed.

(** ** monotone_reduce *)
Lemma replace_nth v t x : (v < length x)%nat -> nth v (replace v t x) 0 = t.
Proof. revert v. induction x; intros v L; [inversion L|]. destruct v; cbn in *; auto. apply IHx; lia. Qed.
Lemma replace_twice v t s x : replace v t (replace v s x) = replace v t x.
Proof. revert v. induction x; intros [|v]; cbn; auto. now rewrite IHx. Qed.
Lemma replace_same v x : replace v (nth v x 0) x = x.
Proof. revert v. induction x; intros [|v]; cbn; auto. now rewrite IHx. Qed.

Lemma twice_format (a : fl) : moderate a -> rnd near (B2R a * 2) = B2R a * 2.
Proof.
  intros Ma. apply round_generic; [auto with typeclass_instances|].
  change 2 with (bpow radix2 1).
  change (generic_format radix2 (FLT_exp (SpecFloat.emin prec emax) prec) (B2R a * bpow radix2 1)).
  apply Mult_error.mult_bpow_pos_exact_FLT; [apply (generic_format_B2R prec emax)|lia].
Qed.
Lemma midpoint (X : bnd) : moderate_ivl X -> B2R (b_l X) <= B2R (b_u X) ->
  is_finite (b_value X) = true /\ B2R (b_l X) <= B2R (b_value X) <= B2R (b_u X).
Proof.
  intros [[Fl Ml] [Fu Mu]] LE. unfold b_value, fmed, fhlf.
  destruct (M_multiple 2 ltac:(lia)) as [G2 L2]. destruct (M_multiple 1 ltac:(lia)) as [G1 L1]. pose proof M_pos as Mp.
  destruct (rounded_small near _ _ _ (fadd_rounded near _ _ Fl Fu) G2 L2) as (F3 & A3 & E3).
  { eapply Rle_trans; [apply Rabs_triang|]. lra. }
  destruct (ftwo_val (Hprec := Hprec) (Hemax := Hemax)) as [E2 F2].
  assert (B2R (ftwo : fl) <> 0) as N2 by (rewrite E2; lra).
  pose proof (fdiv_rounded near (fadd near (b_l X) (b_u X)) ftwo F3 N2) as R4. rewrite E2 in R4.
  destruct (rounded_small near _ _ _ R4 G1 L1) as (F4 & A4 & E4).
  { unfold Rdiv. rewrite Rabs_mult, (Rabs_pos_eq (/ 2)) by lra. lra. }
  split; [exact F4|]. rewrite E4, E3.
  assert (forall a : fl, B2R a = rnd near (B2R a)) as RG.
  { intros a. symmetry. apply round_generic; auto with typeclass_instances. apply generic_format_B2R. }
  split.
  - rewrite (RG (b_l X)) at 1. apply round_le; auto with typeclass_instances.
    assert (rnd near (B2R (b_l X) * 2) <= rnd near (B2R (b_l X) + B2R (b_u X))) as Q by (apply round_le; auto with typeclass_instances; lra).
    rewrite twice_format in Q by (split; auto). lra.
  - rewrite (RG (b_u X)) at 2. apply round_le; auto with typeclass_instances.
    assert (rnd near (B2R (b_l X) + B2R (b_u X)) <= rnd near (B2R (b_u X) * 2)) as Q by (apply round_le; auto with typeclass_instances; lra).
    rewrite twice_format in Q by (split; auto). lra.
Qed.

Lemma div_contains_any (N D : bnd) n d q : contains N n -> contains D d -> n = d * q -> contains (b_div N D) q.
Proof.
  intros HN HD E. destruct (Req_dec d 0) as [->|Hd].
  - destruct (b_div_zero N D HD) as [[A B] _]. unfold contains. rewrite A, B. cbn. auto.
  - replace q with (n / d) by (subst; field; auto). apply b_div_contains; auto.
Qed.
Lemma fb_add_contains (s : fl) (Y : bnd) y : is_finite s = true -> contains Y y -> contains (fb_add s Y) (B2R s + y).
Proof.
  intros F [L U]. split; cbn; [apply fadd_down_below|apply fadd_up_above]; auto; [apply below_finite|apply above_finite]; auto; lra.
Qed.
Lemma bf_add_contains' (s : fl) (Y : bnd) y : is_finite s = true -> contains Y y -> contains (bf_add Y s) (y + B2R s).
Proof.
  intros F [L U]. split; cbn; [apply fadd_down_below|apply fadd_up_above]; auto; [apply below_finite|apply above_finite]; auto; lra.
Qed.

Section Monotone.
  Context (F d : list R -> R) (ev dev : cbox -> bnd) (c : bnd) (dom : cbox) (v : nat).
  Context (Hev : encloses (graph F) ev) (Hdev : encloses (graph d) dev).
  Context (Hd : partial_derivative F d v dom) (Hv : (v < length dom)%nat) (Hm : moderate_ivl (coord dom v)).
  Context (x : list R) (Hx : solution (graph F) c dom x).
  Local Notation t := (nth v x 0).

  Definition inside (X : bnd) : Prop := contains X t /\ moderate_ivl X /\
    B2R (b_l (coord dom v)) <= B2R (b_l X) /\ B2R (b_u X) <= B2R (b_u (coord dom v)).
  Lemma inside_start : inside (coord dom v).
  Proof. split; [apply in_coord; auto; apply Hx|]. split; auto. lra. Qed.
  Lemma inside_between X w : inside X -> B2R (b_l X) <= w <= B2R (b_u X) -> in_cbox (set_at v X dom) (replace v w x) /\ in_cbox dom (replace v w x).
  Proof.
    intros (C & [[Fl _] [Fu _]] & L & U) W. destruct Hm as [[Fl' _] [Fu' _]]. destruct Hx as (B & _). split.
    - apply in_replace; auto. split; [apply below_finite|apply above_finite]; auto; lra.
    - rewrite <- (set_at_coord dom v). apply in_replace; auto. split; [apply below_finite|apply above_finite]; auto; lra.
  Qed.
  Lemma derivative_at w : in_cbox dom (replace v w x) -> derivable_pt_lim (fun t => F (replace v t x)) w (d (replace v w x)).
  Proof.
    intros B. pose proof (Hd _ B) as H. pose proof (in_box_length _ _ (proj1 Hx)) as Lx. rewrite replace_nth in H by lia.
    intros eps He. destruct (H eps He) as [del Q]. exists del. intros h Hh Hl. specialize (Q h Hh Hl).
    rewrite !replace_twice in Q. exact Q.
  Qed.
  Lemma mean_value X s : inside X -> B2R (b_l X) <= s <= B2R (b_u X) ->
    exists w, in_cbox (set_at v X dom) (replace v w x) /\ F x - F (replace v s x) = d (replace v w x) * (t - s).
  Proof.
    intros IX Hs. pose proof IX as (C & [[Fl _] [Fu _]] & L & U). destruct C as [Cl Cu].
    apply below_finite in Cl; auto. apply above_finite in Cu; auto.
    destruct (Rtotal_order s t) as [lt|[E|gt]].
    - destruct (MVT_cor2 (fun t => F (replace v t x)) (fun t => d (replace v t x)) s t lt) as (w & E & I).
      { intros w Hw. apply derivative_at. apply inside_between with X; auto. lra. }
      exists w. split; [apply inside_between; auto; lra|]. rewrite replace_same in E. exact E.
    - exists t. split; [apply inside_between; auto; lra|]. rewrite E, replace_same. ring.
    - destruct (MVT_cor2 (fun t => F (replace v t x)) (fun t => d (replace v t x)) t s gt) as (w & E & I).
      { intros w Hw. apply derivative_at. apply inside_between with X; auto. lra. }
      exists w. split; [apply inside_between; auto; lra|]. rewrite replace_same in E. lra.
  Qed.
  Lemma newton_contains X : inside X -> contains (newton ev dev c dom v (set_at v X dom) X) t.
  Proof.
    intros IX. pose proof IX as (C & MX & L & U). pose proof MX as [[Fl _] [Fu _]]. destruct C as [Cl Cu].
    apply below_finite in Cl; auto. apply above_finite in Cu; auto.
    destruct (midpoint X MX ltac:(lra)) as [Fs Hs]. unfold newton. set (s := b_value X) in *.
    destruct (mean_value X (B2R s) IX Hs) as (w & B & E).
    replace t with (B2R s + (t - B2R s)) by ring. apply fb_add_contains; auto.
    destruct Hx as (Bx & y & Ey & Cy). red in Ey; subst y.
    eapply div_contains_any; [apply b_sub_contains; [exact Cy|]| |exact E].
    - apply Hev with (replace v (B2R s) x); [|reflexivity]. apply in_replace; auto. apply b_of_contains; auto.
    - apply Hdev with (replace v w x); [auto|reflexivity].
  Qed.
  Lemma refinement_inside X N : inside X -> contains N t -> inside (b_refinement X N).
  Proof.
    intros (C & [[Fl Ml] [Fu Mu]] & L & U) CN. pose proof (refinement_contains _ _ _ C CN) as CR.
    destruct C as [Cl Cu]. destruct CN as [Nl Nu]. apply below_finite in Cl; auto. apply above_finite in Cu; auto.
    assert (is_finite (fmax (b_l X) (b_l N)) = true /\ B2R (b_l X) <= B2R (fmax (b_l X) (b_l N)) <= t) as (F1 & A1 & B1).
    { unfold fmax. destruct (Bltb (b_l X) (b_l N)) eqn:Q.
      - destruct (below_cases _ _ Nl) as [[FN LN]|E]; [|rewrite E in Q; destruct (b_l X) as [|[|]| |[|]]; discriminate].
        apply flt_lt_finite in Q; auto. split; auto. lra.
      - split; auto. lra. }
    assert (is_finite (fmin (b_u X) (b_u N)) = true /\ t <= B2R (fmin (b_u X) (b_u N)) <= B2R (b_u X)) as (F2 & A2 & B2).
    { unfold fmin. destruct (Bltb (b_u N) (b_u X)) eqn:Q.
      - destruct (above_cases _ _ Nu) as [[FN LN]|E]; [|rewrite E in Q; destruct (b_u X) as [|[|]| |[|]]; discriminate].
        apply flt_lt_finite in Q; auto. split; auto. lra.
      - split; auto. lra. }
    split; [exact CR|]. unfold b_refinement; cbn [b_l b_u].
    apply Rabs_le_inv in Ml. apply Rabs_le_inv in Mu.
    repeat split; auto; cbn [b_l b_u]; auto; try lra; apply Rabs_le; lra.
  Qed.
  Lemma steps_inside X : inside X -> exists X', inside X' /\ step_lower ev dev c dom v (set_at v X dom) X = X'
    /\ step_upper ev dev c dom v (set_at v X dom) X = X'.
  Proof.
    intros IX. unfold step_lower, step_upper. destruct (flt_lt (threshold dom v) (width X)); [|eauto].
    cbn zeta. pose proof (newton_contains X IX) as CN. set (n := newton _ _ _ _ _ _ _) in *.
    exists (b_refinement X n). split; [apply refinement_inside; auto|].
    pose proof IX as ([Cl Cu] & _). destruct CN as [Nl Nu].
    destruct (flt_lt (b_u n) (b_l X)) eqn:E1; [pose proof (lt_true _ _ _ _ E1 Nu Cl); lra|].
    destruct (flt_lt (b_u X) (b_l n)) eqn:E2; [pose proof (lt_true _ _ _ _ E2 Cu Nl); lra|]. auto.
  Qed.
  Lemma monotone_loop_keeps fuel X sub : inside X -> monotone_loop ev dev c dom v fuel X X (set_at v X dom) = Some sub -> in_cbox sub x.
  Proof.
    revert X. induction fuel; cbn [monotone_loop]; intros X IX; [discriminate|].
    destruct (steps_inside X IX) as (X' & IX' & -> & ->). rewrite set_at_twice.
    replace (mkB (b_l X') (b_u X')) with X' by (destruct X'; reflexivity).
    destruct (_ && _).
    - apply IHfuel; auto.
    - intros H; inversion H; subst. apply in_set_at; [apply Hx|apply IX'].
  Qed.
  Lemma monotone_reduce_sound fuel e sub : monotone_reduce ev dev c dom v fuel = Some (e, sub) -> in_cbox sub x /\ e = false.
  Proof.
    unfold monotone_reduce. destruct monotone_loop as [sub'|] eqn:E; cbn; [|discriminate].
    intros H; inversion H; subst. assert (in_cbox sub x) as B.
    { apply monotone_loop_keeps with fuel (coord dom v); [apply inside_start|]. rewrite set_at_coord. exact E. }
    split; auto. apply in_box_nonempty with x; auto.
  Qed.
End Monotone.

(** ** lyapunov_reduce *)
Fixpoint rsum (l : list R) : R := match l with [] => 0 | a :: r => a + rsum r end.
Lemma dot_rsum a b : dot a b = rsum (map (fun ab => fst ab * snd ab) (combine a b)).
Proof. unfold dot. induction (map _ _) as [|w l IH]; cbn; auto. Qed.
Lemma subtract_others_contains j k C rs s ws : contains C s -> Forall2 contains rs ws ->
  contains (subtract_others j k C rs) (s - rsum ws + (if (k <=? j)%nat then nth (j - k) ws 0 else 0)).
Proof.
  intros HC H. revert k C s HC. induction H as [|r w rs ws Hr H IH]; cbn [subtract_others rsum]; intros k C s HC.
  - replace (s - 0 + _) with s; auto. destruct (k <=? j)%nat; [destruct (j - k)%nat; cbn; ring|ring].
  - destruct (Nat.eqb_spec j k) as [->|N].
    + rewrite Nat.leb_refl, Nat.sub_diag. cbn [nth].
      specialize (IH (S k) C s HC). replace (S k <=? k)%nat with false in IH by (symmetry; apply Nat.leb_gt; lia).
      replace (s - (w + rsum ws) + w) with (s - rsum ws + 0) by ring. exact IH.
    + specialize (IH (S k) _ (s - w) (b_sub_contains _ _ _ _ HC Hr)).
      replace (s - (w + rsum ws) + _) with (s - w - rsum ws + (if (S k <=? j)%nat then nth (j - S k) ws 0 else 0)); [exact IH|].
      destruct (Nat.leb_spec (S k) j), (Nat.leb_spec k j); try lia.
      * replace (j - k)%nat with (S (j - S k)) by lia. cbn [nth]. ring.
      * ring.
Qed.
Lemma zero_contains : contains (b_of fzero : bnd) 0.
Proof. split; cbn; lra. Qed.
Lemma weighted_contains (mult : list fl) (bs : list bnd) ys C s :
  List.Forall (fun a => is_finite a = true) mult -> List.Forall finite_bounds bs -> length mult = length bs ->
  in_cbox bs ys -> contains C s ->
  contains (fold_left (fun C mb => b_add C (fb_mul (fst mb) (snd mb))) (combine mult bs) C) (s + dot (map B2R mult) ys).
Proof.
  intros Fm Fb L B. rewrite dot_rsum. revert mult C s Fm L Fb. induction B as [|b y bs ys Hb B IH]; intros mult C s Fm L Fb HC.
  - destruct mult; [|discriminate]. cbn. rewrite Rplus_0_r. auto.
  - destruct mult as [|a mult]; [discriminate|]. inversion Fm; subst. inversion Fb; subst. cbn [combine fold_left map rsum fst snd].
    rewrite <- Rplus_assoc. apply IH; auto. apply b_add_contains; auto. unfold fb_mul.
    apply b_mul_contains; auto; [apply b_of_contains; auto|]. eapply b_mul_no_nan; eauto; [apply b_of_contains; auto|]. split; auto.
Qed.
Lemma sub_finite (X : bnd) (a : fl) : moderate_ivl X -> moderate a -> finite_bounds (b_sub X (b_of a)).
Proof.
  intros [[F1 A1] [F2 A2]] [Fa Aa]. destruct (M_multiple 2 ltac:(lia)) as [G2 L2]. pose proof M_pos as Mp.
  split; cbn [b_sub b_l b_u b_of].
  - apply (rounded_small mode_DN _ _ _ (fsub_rounded mode_DN (b_l X) a F1 Fa) G2 L2).
    eapply Rle_trans; [apply Rabs_triang|]. rewrite Rabs_Ropp. lra.
  - apply (rounded_small up _ _ _ (fsub_rounded up (b_u X) a F2 Fa) G2 L2).
    eapply Rle_trans; [apply Rabs_triang|]. rewrite Rabs_Ropp. lra.
Qed.
Lemma ranges_contain (dom dg : cbox) (centre : list fl) x gr :
  moderate_box dom -> List.Forall finite_bounds dg -> List.Forall moderate centre -> length centre = length dom ->
  in_cbox dom x -> in_cbox dg gr ->
  Forall2 contains (lyapunov_ranges dom dg centre) (map (fun ab => fst ab * snd ab) (combine gr (minus x (map B2R centre)))).
Proof.
  unfold lyapunov_ranges, zip_with, minus. intros Md Fg Mc L B G. revert dom centre x Md Mc L B.
  induction G as [|g w dg gr Hg G IH]; intros dom centre x Md Mc L B; [constructor|].
  inversion Fg; subst. destruct B as [|X t dom x HX B]; [destruct centre; constructor|].
  destruct centre as [|a centre]; [discriminate|]. inversion Md; inversion Mc; subst. cbn.
  constructor; [|apply IH; auto].
  assert (contains (b_sub X (b_of a)) (t - B2R a)) as C.
  { apply b_sub_contains; auto. apply b_of_contains. apply H7. }
  apply b_mul_contains; auto. eapply b_mul_no_nan; eauto. apply sub_finite; auto.
Qed.
Lemma along_one p x : length p = length x -> along p (minus x p) 1 = x.
Proof.
  unfold along, minus. revert x. induction p; intros [|b x] L; try discriminate; cbn; auto.
  rewrite IHp by (cbn in L; lia). f_equal. ring.
Qed.
Lemma along_zero p x : length p = length x -> along p (minus x p) 0 = p.
Proof.
  unfold along, minus. revert x. induction p; intros [|b x] L; try discriminate; cbn; auto.
  rewrite IHp by (cbn in L; lia). f_equal. ring.
Qed.
Lemma minus_length x p : length p = length x -> length (minus x p) = length p.
Proof. unfold minus. intros. rewrite map_length, combine_length. lia. Qed.
Lemma convex (B : cbox) p x s : in_cbox B p -> in_cbox B x -> 0 <= s <= 1 -> in_cbox B (along p (minus x p) s).
Proof.
  intros Hp' Hx Hs. unfold along, minus. revert x Hx. induction Hp' as [|b a B p Ha Hp' IH]; intros x Hx; inversion Hx; subst; constructor; auto; [|apply IH; auto].
  cbn. destruct Ha as [La Ua], H1 as [Ly Uy].
  split; [destruct (below_cases _ _ La) as [[F A]| ->], (below_cases _ _ Ly) as [[F' A']|E]; cbn; auto; try congruence
         |destruct (above_cases _ _ Ua) as [[F A]| ->], (above_cases _ _ Uy) as [[F' A']|E]; cbn; auto; try congruence].
  - apply below_finite; auto. nra.
  - rewrite E in F; discriminate.
  - apply above_finite; auto. nra.
  - rewrite E in F; discriminate.
Qed.
Lemma combine_nth_dot a b j : length a = length b -> nth j (map (fun ab => fst ab * snd ab) (combine a b)) 0 = nth j a 0 * nth j b 0.
Proof.
  revert b j. induction a; intros [|y b] j L; try discriminate; destruct j; cbn; auto; try ring.
Qed.
Lemma minus_nth x p j : length x = length p -> nth j (minus x p) 0 = nth j x 0 - nth j p 0.
Proof.
  unfold minus. revert p j. induction x; intros [|y p] j L; try discriminate; destruct j; cbn; auto; try ring.
Qed.
Section Lyapunov.
  Context (g : list R -> R) (dg : list R -> list R) (dom : cbox) (mult : list fl) (bs : list bnd) (gc : bnd) (dgr : cbox) (centre : list fl).
  Context (Hg : has_gradient g dg dom) (Hdg : forall p, in_cbox dom p -> in_cbox dgr (dg p)).
  Context (Hc : in_cbox dom (map B2R centre)) (Hgc : contains gc (g (map B2R centre))).
  Context (Md : moderate_box dom) (Mc : List.Forall moderate centre) (Fg : List.Forall finite_bounds dgr).
  Context (Fm : List.Forall (fun a => is_finite a = true) mult) (Fb : List.Forall finite_bounds bs) (Lm : length mult = length bs).
  Context (Ld : length dgr = length dom).
  Context (x ys : list R) (Hx : in_cbox dom x) (Hys : in_cbox bs ys) (E : g x = dot (map B2R mult) ys).
  Lemma gradient_value : exists gr, in_cbox dgr gr /\ dot gr (minus x (map B2R centre)) = g x - g (map B2R centre).
  Proof.
    pose proof (in_box_length _ _ Hx) as L1. pose proof (in_box_length _ _ Hc) as L2.
    set (p := map B2R centre) in *. set (w := minus x p).
    destruct (MVT_cor2 (fun s => g (along p w s)) (fun s => dot (dg (along p w s)) w) 0 1 ltac:(lra)) as (s & Q & I).
    { intros s Hs. apply Hg; [unfold w; rewrite minus_length; lia|]. apply convex; auto. }
    exists (dg (along p w s)). split; [apply Hdg, convex; auto; lra|].
    unfold w in Q. rewrite along_one, along_zero in Q by lia. unfold w. lra.
  Qed.
  Lemma lyapunov_keeps : in_cbox (snd (lyapunov_reduce dom mult bs gc dgr centre)) x.
  Proof.
    destruct gradient_value as (gr & G & D). cbn [lyapunov_reduce snd].
    pose proof (in_box_length _ _ Hx) as L1. pose proof (in_box_length _ _ Hc) as L2. rewrite map_length in L2.
    pose proof (in_box_length _ _ G) as L3.
    set (C := lyapunov_value mult bs gc). set (rs := lyapunov_ranges dom dgr centre).
    assert (contains C (g x - g (map B2R centre))) as HC.
    { unfold C, lyapunov_value. apply b_sub_contains; auto. rewrite E. rewrite <- (Rplus_0_l (dot _ _)). apply weighted_contains; auto. apply zero_contains. }
    pose proof (ranges_contain dom dgr centre x gr Md Fg Mc ltac:(lia) Hx G) as HR. fold rs in HR.
    assert (forall j, (j < length dom)%nat -> contains (lyapunov_component C rs dom dgr centre j) (nth j x 0)) as K.
    { intros j Hj. unfold lyapunov_component. apply refinement_contains; [apply in_coord; auto|].
      pose proof (subtract_others_contains j 0 C rs _ _ HC HR) as S. rewrite <- dot_rsum, D in S.
      cbn [Nat.leb] in S. rewrite Nat.sub_0_r, combine_nth_dot, minus_nth in S by (rewrite ?minus_length, ?map_length; rewrite ?map_length; lia).
      assert (nth j (map B2R centre) 0 = B2R (nth j centre fzero)) as EC.
      { rewrite nth_indep with (d' := B2R (fzero : fl)) by (rewrite map_length; lia). apply map_nth. }
      rewrite EC in S. replace (nth j x 0) with (nth j x 0 - B2R (nth j centre fzero) + B2R (nth j centre fzero)) by ring.
      assert (is_finite (nth j centre fzero) = true) as Fc.
      { assert (moderate (nth j centre fzero)) as [Q _]; auto. eapply (proj1 (Forall_forall _ _)); [exact Mc|]. apply nth_In; lia. }
      apply bf_add_contains'; auto. eapply div_contains_any; [exact S| |].
      - apply in_coord; [exact G|lia].
      - ring. }
    clear - K L1. revert K. rewrite L1. clear L1. revert x. 
    generalize (lyapunov_component C rs dom dgr centre). intros h x K.
    assert (forall k y, (forall j, (j < length y)%nat -> contains (h (k + j)%nat) (nth j y 0)) -> Forall2 contains (map h (seq k (length y))) y) as Q.
    { intros k y. revert k. induction y; intros k A; cbn; constructor.
      - specialize (A 0%nat). rewrite Nat.add_0_r in A. apply A. cbn; lia.
      - apply IHy. intros j Hj. replace (S k + j)%nat with (k + S j)%nat by lia. apply (A (S j)). cbn; lia. }
    apply (Q 0%nat); auto.
  Qed.
End Lyapunov.

(** ** reduce *)
Lemma moderate_coord (B : cbox) v : moderate_box B -> (v < length B)%nat -> moderate_ivl (coord B v).
Proof. intros H L. eapply (proj1 (Forall_forall _ _)); [exact H|]. apply nth_In; auto. Qed.
Lemma moderate_set_at (B : cbox) v X : moderate_box B -> moderate_ivl X -> moderate_box (set_at v X B).
Proof. intros H. revert v. induction H; intros [|v] HX; cbn; constructor; auto. apply IHForall; auto. Qed.

Lemma shave_variables_sound f ev c vs (dom : cbox) x : encloses f ev -> moderate_box dom ->
  (forall v, In v vs -> (v < length dom)%nat) -> solution f c dom x ->
  exists d, shave_variables ev c vs dom = Some (false, d) /\ in_cbox d x /\ moderate_box d.
Proof.
  intros He. revert dom. induction vs as [|v vs IH]; intros dom Md Hvs Hx; cbn [shave_variables].
  - exists dom. split; auto. split; auto. apply Hx.
  - assert (v < length dom)%nat as Hv by (apply Hvs; cbn; auto).
    pose proof (moderate_coord _ _ Md Hv) as Mv.
    destruct (box_reduce ev c dom v) as [[e d]|] eqn:E; [|exfalso; eapply box_reduce_returns; eauto].
    destruct (box_reduce_sound f ev c dom v He Hv Mv x Hx e d E) as [B ->].
    destruct (box_reduce_shape _ _ _ _ _ _ E) as (X & -> & _ & MX). specialize (MX Mv eq_refl).
    rewrite (in_box_nonempty _ _ B). apply IH.
    + apply moderate_set_at; auto.
    + intros w Hw. rewrite set_at_length. apply Hvs. cbn; auto.
    + split; auto. apply Hx.
Qed.
Lemma shave_all_sound fcs evs (dom : cbox) x : enclosing fcs evs -> moderate_box dom -> solves_all fcs dom x ->
  exists d, shave_all evs dom = Some (false, d) /\ in_cbox d x /\ moderate_box d.
Proof.
  intros H. revert dom. induction H as [|[f c] [ev c'] fcs evs [He Ec] H IH]; intros dom Md Hx; cbn [shave_all].
  - exists dom. split; auto. split; auto. apply Hx.
  - cbn in He, Ec. subst c'. destruct Hx as [B S].
    destruct (shave_variables_sound f ev c (seq 0 (length dom)) dom x He Md) as (d & -> & B' & Md').
    + intros v Hv. apply in_seq in Hv. lia.
    + split; auto. apply S. cbn; auto.
    + apply IH; auto. split; auto. intros f' c' Hf. apply S. cbn; auto.
Qed.
Lemma round_vector_sound hull fcs evs (dom : cbox) x : enclosing fcs evs ->
  (forall B x, solves_all fcs B x -> in_cbox (hull B) x) ->
  (forall B, moderate_box B -> box_empty (hull B) = false -> moderate_box (hull B)) ->
  moderate_box dom -> solves_all fcs dom x ->
  exists d, round_vector hull evs dom = Some (false, d) /\ in_cbox d x /\ moderate_box d.
Proof.
  intros He Hk Hm Md Hx. unfold round_vector. cbn zeta. pose proof (Hk _ _ Hx) as B. pose proof (in_box_nonempty _ _ B) as N. rewrite N.
  destruct (shave_all_sound fcs evs (hull dom) x He) as (d & -> & B' & Md'); [auto|split; auto; apply Hx|].
  exists d. rewrite (in_box_nonempty _ _ B'). auto.
Qed.
Lemma round_list_sound hulls fcs (dom : cbox) x :
  Forall2 (fun h fc => keeps (fst fc) (snd fc) h) hulls fcs -> solves_all fcs dom x ->
  exists d, round_list hulls dom = Some (false, d) /\ in_cbox d x.
Proof.
  intros H Hx. unfold round_list. cbn zeta.
  assert (in_cbox (fold_left (fun d h => h d) hulls dom) x) as B.
  { revert dom Hx. induction H as [|h [f c] hulls fcs Hh H IH]; intros dom [B S]; cbn [fold_left]; auto.
    apply IH. split; [|intros; apply S; cbn; auto]. apply Hh. split; auto. apply S. cbn; auto. }
  eexists. split; [|exact B]. do 2 f_equal. apply in_box_nonempty with x. exact B.
Qed.
Section LoopSound.
  Context (one_round : cbox -> option (bool * cbox)) (m : mode) (x : list R) (Inv : cbox -> Prop).
  Context (Hr : forall d, Inv d -> in_cbox d x -> exists d', one_round d = Some (false, d') /\ in_cbox d' x /\ Inv d').
  Lemma reduce_loop_sound fuel mag dom : Inv dom -> in_cbox dom x ->
    match reduce_loop one_round m fuel mag dom with
    | Reduced e d => e = false /\ in_cbox d x | AssertionFailed => False | Unfinished => True end.
  Proof.
    revert mag dom. induction fuel; cbn [reduce_loop]; intros mag dom I B; auto.
    destruct (Hr dom I B) as (d & -> & B' & I'). destruct flt_lt; auto. apply IHfuel; auto.
  Qed.
  Lemma reduce_with_sound fuel dom : Inv dom -> in_cbox dom x ->
    match reduce_with one_round m fuel dom with
    | Reduced e d => e = false /\ in_cbox d x | AssertionFailed => False | Unfinished => True end.
  Proof.
    intros I B. unfold reduce_with. rewrite (in_box_nonempty _ _ B). apply reduce_loop_sound; auto.
  Qed.
End LoopSound.

(** The value returned says whether the box is empty. *)
Lemma shave_variables_true ev c vs (dom : cbox) e d : shave_variables ev c vs dom = Some (e, d) -> e = true -> box_empty d = true.
Proof.
  revert dom. induction vs as [|v vs IH]; cbn [shave_variables]; intros dom H T; [congruence|].
  destruct box_reduce as [[e' d']|]; [|discriminate]. destruct (box_empty d') eqn:Q; [congruence|eauto].
Qed.
Lemma shave_all_true evs (dom : cbox) e d : shave_all evs dom = Some (e, d) -> e = true -> box_empty d = true.
Proof.
  revert dom. induction evs as [|[ev c] evs IH]; cbn [shave_all]; intros dom H T; [congruence|].
  destruct shave_variables as [[[|] d']|] eqn:Q; [|eauto|discriminate].
  inversion H; subst. eapply shave_variables_true; eauto.
Qed.
Definition honest (one_round : cbox -> option (bool * cbox)) : Prop :=
  forall d e d', one_round d = Some (e, d') -> e = box_empty d'.
Lemma round_vector_honest hull evs : honest (round_vector hull evs).
Proof.
  intros d e d'. unfold round_vector. cbn zeta. destruct (box_empty (hull d)) eqn:Q; [congruence|].
  destruct shave_all as [[b d0]|] eqn:S; [|discriminate]. intros H; inversion H; subst.
  destruct b; cbn; auto. symmetry. eapply shave_all_true; eauto.
Qed.
Lemma round_list_honest hulls : honest (round_list hulls).
Proof. intros d e d'. unfold round_list. cbn zeta. congruence. Qed.
Lemma reduce_loop_answer one_round m fuel mag dom e d : honest one_round ->
  reduce_loop one_round m fuel mag dom = Reduced e d -> e = box_empty d.
Proof.
  intros Ho. revert mag dom. induction fuel; cbn [reduce_loop]; intros mag dom; [discriminate|].
  destruct (one_round dom) as [[[|] d']|] eqn:Q; [| |discriminate]; pose proof (Ho _ _ _ Q).
  - congruence.
  - destruct flt_lt; [apply IHfuel|congruence].
Qed.
Lemma reduce_with_answer one_round m fuel dom e d : honest one_round ->
  reduce_with one_round m fuel dom = Reduced e d -> e = box_empty d.
Proof.
  intros Ho. unfold reduce_with. destruct (box_empty dom) eqn:Q; [congruence|]. apply reduce_loop_answer; auto.
Qed.

(** Termination: the magnitude is a non-negative number which decreases. *)
Definition size_like (a : fl) : Prop := a = B754_nan \/ a = B754_infinity false \/ (is_finite a = true /\ 0 <= B2R a).
Lemma width_size (X : bnd) : ivl_empty X = false -> size_like (width X).
Proof.
  destruct X as [l u]. unfold ivl_empty, width; cbn [b_l b_u]. intros H.
  destruct (is_finite u) eqn:Fu.
  - destruct (is_finite l) eqn:Fl.
    + assert (B2R l <= B2R u) as Q.
      { apply Rnot_lt_le. intros L. apply flt_lt_finite in L; auto. congruence. }
      pose proof (fsub_rounded up u l Fu Fl) as R. pose proof (rounded_up_above _ _ R) as A.
      destruct (above_cases _ _ A) as [[F G]|E]; [right; right; split; auto; lra|right; left; auto].
    + destruct l as [|[|]| |[|] ? ? ?]; try discriminate; destruct u as [|[|]| |[|] ? ? ?]; try discriminate; cbn; unfold size_like; auto.
  - destruct u as [|[|]| |[|] ? ? ?]; try discriminate; destruct l as [|[|]| |[|] ? ? ?]; try discriminate; cbn; unfold size_like; auto.
Qed.
Lemma size_add (a b : fl) : size_like a -> size_like b -> size_like (fadd up a b).
Proof.
  intros [->|[->|[Fa Pa]]] [->|[->|[Fb Pb]]]; try (left; reflexivity); try (right; left; reflexivity).
  all: try (destruct b; try discriminate; right; left; reflexivity).
  all: try (destruct a; try discriminate; first [left; reflexivity|right; left; reflexivity]).
  pose proof (fadd_rounded up a b Fa Fb) as R. pose proof (rounded_up_above _ _ R) as A.
  destruct (above_cases _ _ A) as [[F G]|E]; [right; right; split; auto; lra|right; left; auto].
Qed.
Lemma magnitude_size (d : cbox) : box_empty d = false -> size_like (magnitude d).
Proof.
  unfold magnitude. assert (size_like (fzero : fl)) as Z. { right; right. cbn. split; [reflexivity|lra]. }
  revert Z. generalize (fzero : fl). induction d as [|X d IH]; cbn; intros a Ha H; auto.
  apply orb_false_iff in H. destruct H as [H1 H2]. apply IH; auto. apply size_add; auto. apply width_size; auto.
Qed.
Lemma three_quarters_val : B2R (three_quarters : fl) = 3 / 4 /\ is_finite (three_quarters : fl) = true.
Proof.
  unfold three_quarters. destruct (fnat_exact 3 ltac:(lia)) as [E3 F3]. destruct (fnat_exact 4 ltac:(lia)) as [E4 F4].
  assert (B2R (fnat 4 : fl) <> 0) as N by (rewrite E4; cbn; lra).
  pose proof (fdiv_rounded near (fnat 3 : fl) (fnat 4) F3 N) as R. rewrite E3, E4 in R.
  replace (INR 3 / INR 4) with (3 * bpow radix2 (-2)) in R by (cbn; lra).
  assert (generic_format radix2 fexp (3 * bpow radix2 (-2))) as G by (apply int_format; [lia|pose proof emin_neg; lia]).
  destruct (rounded_small near _ _ _ R G) as (F & _ & E).
  - apply Rlt_trans with (bpow radix2 0); [cbn; lra|]. apply bpow_lt. assert (prec < emax)%Z by (exact Hemax). lia.
  - rewrite Rabs_pos_eq; cbn; lra.
  - split; auto. rewrite E, round_generic by auto with typeclass_instances. cbn. lra.
Qed.
Local Notation emin := (SpecFloat.emin prec emax).
Definition grid (a : fl) : Z := Ztrunc (B2R a * bpow radix2 (- emin)).
Lemma grid_val (a : fl) : B2R a = IZR (grid a) * bpow radix2 emin.
Proof.
  assert (generic_format radix2 (FIX_exp emin) (B2R a)) as G.
  { apply (generic_format_FIX_FLT radix2 emin prec). apply (generic_format_B2R prec emax a). }
  apply FIX_format_generic in G. destruct G as [f E X]. unfold grid. rewrite E. unfold F2R. rewrite X.
  rewrite Rmult_assoc, <- bpow_plus. replace (emin + - emin)%Z with 0%Z by lia. cbn [bpow]. rewrite Rmult_1_r, Ztrunc_IZR. reflexivity.
Qed.
Lemma grid_lt (a b : fl) : B2R a < B2R b -> (grid a < grid b)%Z.
Proof.
  rewrite (grid_val a), (grid_val b). intros H. apply Rmult_lt_reg_r in H; [|apply bpow_gt_0]. apply lt_IZR; auto.
Qed.
Lemma grid_nonneg (a : fl) : 0 <= B2R a -> (0 <= grid a)%Z.
Proof.
  rewrite (grid_val a). intros H. apply le_IZR. pose proof (bpow_gt_0 radix2 emin).
  destruct (Rle_or_lt 0 (IZR (grid a))); auto. nra.
Qed.
Definition grid_max : Z := Zpower radix2 (emax - emin).
Lemma grid_bound (a : fl) : is_finite a = true -> (grid a < grid_max)%Z.
Proof.
  intros F. assert (B2R a < bpow radix2 emax) as H.
  { eapply Rle_lt_trans; [apply Rle_abs|]. apply (abs_B2R_lt_emax prec emax). }
  rewrite (grid_val a) in H. 
  assert (bpow radix2 emax = bpow radix2 (emax - emin) * bpow radix2 emin) as Q by (rewrite <- bpow_plus; f_equal; lia).
  rewrite Q in H. apply Rmult_lt_reg_r in H; [|apply bpow_gt_0].
  apply lt_IZR. unfold grid_max. rewrite IZR_Zpower; auto. pose proof emin_neg. assert (prec < emax)%Z by (exact Hemax). lia.
Qed.
Definition rank (a : fl) : nat :=
  match a with B754_infinity false => S (Z.to_nat grid_max) | B754_infinity true => 0 | B754_nan => 0 | _ => Z.to_nat (grid a) end.
Lemma rank_finite (a : fl) : is_finite a = true -> rank a = Z.to_nat (grid a).
Proof. destruct a; cbn; auto; discriminate. Qed.
Lemma rank_bound (a : fl) : (rank a <= S (Z.to_nat grid_max))%nat.
Proof.
  destruct (is_finite a) eqn:F.
  - rewrite rank_finite by auto. pose proof (grid_bound a F). lia.
  - destruct a as [|[|]| |]; cbn; try lia; discriminate.
Qed.
Lemma rank_decreases (m : mode) (a b : fl) : size_like a -> flt_lt a (fmul m b three_quarters) = true -> (rank a < rank b)%nat.
Proof.
  intros Ha H. destruct three_quarters_val as [E3 F3].
  destruct (is_finite a) eqn:Fa.
  2: { exfalso. destruct Ha as [->|[->|[F _]]]; [discriminate| |congruence].
       destruct (fmul m b three_quarters) as [|[|]| |[|]]; discriminate. }
  assert (0 <= B2R a) as Pa. { destruct Ha as [->|[->|[_ P]]]; auto; discriminate. }
  pose proof (grid_nonneg a Pa) as G0. pose proof (grid_bound a Fa) as G1.
  rewrite rank_finite by auto.
  destruct (is_finite b) eqn:Fb.
  - rewrite rank_finite by auto. pose proof (fmul_rounded m b three_quarters Fb F3) as R. rewrite E3 in R.
    assert (generic_format radix2 fexp (Rabs (B2R b))) as Gb by (apply generic_format_abs, generic_format_B2R).
    destruct (rounded_small m _ _ _ R Gb) as (F & A & E).
    + apply (abs_B2R_lt_emax prec emax).
    + rewrite Rabs_mult, (Rabs_pos_eq (3 / 4)) by lra. pose proof (Rabs_pos (B2R b)). lra.
    + apply flt_lt_finite in H; auto.
      assert (0 < B2R b) as Pb.
      { apply Rnot_le_lt. intros N. assert (rnd m (B2R b * (3 / 4)) <= 0) as Q by (apply round_sign_neg; lra). lra. }
      rewrite (Rabs_pos_eq (B2R b)) in A by lra. apply Rabs_le_inv in A.
      pose proof (grid_lt a b ltac:(lra)). lia.
  - destruct b as [|[|]| |]; try discriminate; cbn [rank].
    + exfalso. pose proof (finite_sign_pos _ F3 ltac:(lra)) as S3.
      assert (fmul m (B754_infinity true) (three_quarters : fl) = B754_infinity true) as Q.
      { rewrite fmul_inf_l, S3; [reflexivity|]. destruct (three_quarters : fl); cbn in E3; try lra; try discriminate. reflexivity. }
      rewrite Q in H. destruct a as [|[|]| |[|] ? ? ?]; discriminate.
    + lia.
    + destruct a; discriminate.
Qed.
Lemma reduce_loop_finishes one_round m fuel mag dom : honest one_round -> (rank mag < fuel)%nat ->
  reduce_loop one_round m fuel mag dom <> Unfinished.
Proof.
  intros Ho. revert mag dom. induction fuel; cbn [reduce_loop]; intros mag dom L; [lia|].
  destruct (one_round dom) as [[[|] d]|] eqn:Q; try discriminate.
  destruct flt_lt eqn:K; [|discriminate]. apply IHfuel.
  pose proof (Ho _ _ _ Q) as N. pose proof (rank_decreases m _ _ (magnitude_size d (eq_sym N)) K). lia.
Qed.
Lemma reduce_with_finishes one_round m : honest one_round ->
  exists n, forall fuel dom, (n <= fuel)%nat -> reduce_with one_round m fuel dom <> Unfinished.
Proof.
  intros Ho. exists (S (S (Z.to_nat grid_max))). intros fuel dom L. unfold reduce_with. destruct box_empty; [discriminate|].
  apply reduce_loop_finishes; auto. pose proof (rank_bound (magnitude dom)). lia.
Qed.

(** ** check_feasibility *)
Lemma not_lt_above (u y : fl) : is_nan u = false -> is_finite y = true -> flt_lt u y = false -> above u (B2R y).
Proof.
  intros N F H. destruct (is_finite u) eqn:Fu.
  - apply above_finite; auto. apply Rnot_lt_le. intros L. apply flt_lt_finite in L; auto. congruence.
  - destruct u as [|[|]| |]; try discriminate; try reflexivity. destruct y as [|[|]| |[|]]; discriminate.
Qed.
Lemma not_lt_below (l y : fl) : is_nan l = false -> is_finite y = true -> flt_lt y l = false -> below l (B2R y).
Proof.
  intros N F H. destruct (is_finite l) eqn:Fu.
  - apply below_finite; auto. apply Rnot_lt_le. intros L. apply flt_lt_finite in L; auto. congruence.
  - destruct l as [|[|]| |]; try discriminate; try reflexivity. destruct y as [|[|]| |[|]]; discriminate.
Qed.
Lemma point_outside_true (d : cbox) y : point_outside d y = true -> List.Forall (fun a => is_finite a = true) y -> ~ in_cbox d (map B2R y).
Proof.
  revert y. induction d as [|X d IH]; intros [|a y]; cbn [point_outside]; try discriminate.
  intros H F B. inversion F as [|? ? Fa Fy]; subst. inversion B as [|? ? ? ? [L U] B']; subst.
  apply orb_prop in H. destruct H as [H|H]; [|exact (IH _ H Fy B')].
  destruct (b_of_contains a Fa) as [La Ua]. cbn [b_of b_l b_u] in La, Ua.
  apply orb_prop in H. destruct H as [H|H].
  - pose proof (lt_true _ _ _ _ H Ua L). lra.
  - pose proof (lt_true _ _ _ _ H U La). lra.
Qed.
Lemma point_outside_false (d : cbox) y : point_outside d y = false -> List.Forall (fun a => is_finite a = true) y ->
  List.Forall no_nan d -> length y = length d -> in_cbox d (map B2R y).
Proof.
  revert y. induction d as [|X d IH]; intros [|a y]; cbn [point_outside]; try discriminate; intros H F N L; [constructor|].
  inversion F as [|? ? Fa Fy]; inversion N as [|? ? [Na Nb] Nd]; subst. apply orb_false_iff in H. destruct H as [H H']. apply orb_false_iff in H. destruct H as [H1' H2'].
  constructor; [|apply IH; auto]. split; [apply not_lt_below|apply not_lt_above]; auto.
Qed.
(** [X] lies strictly inside [b]. *)
Definition strictly_inside (X b : bnd) : Prop := flt_lt (b_u X) (b_u b) = true /\ flt_lt (b_l b) (b_l X) = true.
Lemma check_values_true (fy c : cbox) r : check_values fy c r = TRUE -> r = TRUE /\
  List.Forall (fun xb : bnd * bnd => flt_le (b_u (snd xb)) (b_u (fst xb)) = false /\ flt_le (b_l (fst xb)) (b_l (snd xb)) = false) (combine fy c).
Proof.
  revert c r. induction fy as [|X fy IH]; intros [|b c] r; cbn [check_values combine]; try (intros; split; auto; constructor).
  destruct (_ || _) eqn:D; [discriminate|]. destruct (flt_le (b_u b) (b_u X) || flt_le (b_l X) (b_l b)) eqn:E; intros H.
  - apply IH in H. destruct H; discriminate.
  - apply orb_false_iff in E. destruct (IH _ _ H) as [-> K]. split; auto.
Qed.
Lemma check_values_false (fy c : cbox) r ys : check_values fy c r = FALSE -> r <> FALSE -> in_cbox fy ys -> ~ in_cbox c ys.
Proof.
  intros H N B. revert c r H N. induction B as [|X y fy ys HX B IH]; intros [|b c] r H N C; cbn [check_values] in H; try congruence.
  inversion C as [|? ? ? ? [L' U'] C']; subst. destruct HX as [L U].
  destruct (flt_lt (b_u b) (b_l X)) eqn:E1; cbn [orb] in H; [pose proof (lt_true _ _ _ _ E1 U' L); lra|].
  destruct (flt_lt (b_u X) (b_l b)) eqn:E2; cbn [orb] in H; [pose proof (lt_true _ _ _ _ E2 U L'); lra|].
  eapply IH; eauto. destruct (_ || _); congruence.
Qed.
Lemma le_false_contains (X b : bnd) y : contains X y -> no_nan b ->
  flt_le (b_u b) (b_u X) = false -> flt_le (b_l X) (b_l b) = false -> contains b y.
Proof.
  intros [L U] [N1 N2] E1 E2. rewrite flt_le_lt in E1 by (auto; eapply above_not_nan; eauto). apply negb_false_iff in E1.
  rewrite flt_le_lt in E2 by (auto; eapply below_not_nan; eauto). apply negb_false_iff in E2.
  split; [eapply Bltb_true_below; eauto|eapply Bltb_true_above; eauto].
Qed.
Lemma combine_contains (fy c : cbox) ys : in_cbox fy ys -> List.Forall no_nan c -> length c = length ys ->
  List.Forall (fun xb : bnd * bnd => flt_le (b_u (snd xb)) (b_u (fst xb)) = false /\ flt_le (b_l (fst xb)) (b_l (snd xb)) = false) (combine fy c) ->
  in_cbox c ys.
Proof.
  intros B. revert c. induction B as [|X y fy ys HX B IH]; intros [|b c] N L H; try discriminate; [constructor|].
  inversion N as [|? ? Nb Nc]; inversion H as [|? ? [E1 E2] K]; subst. cbn in E1, E2, L. constructor; [|apply IH; auto; lia]. eapply le_false_contains; eauto.
Qed.
Section Check.
  Context (F : list R -> list R -> Prop) (ev : cbox -> list bnd).
  Context (Hev : forall B x ys, in_cbox B x -> F x ys -> in_cbox (ev B) ys).
  Lemma of_points y : List.Forall (fun a => is_finite a = true) y -> in_cbox (map b_of y : cbox) (map B2R y).
  Proof. induction 1; cbn; constructor; auto. apply b_of_contains; auto. Qed.
  Lemma check_true d c y ys : List.Forall (fun a => is_finite a = true) y -> List.Forall no_nan d -> List.Forall no_nan c ->
    length y = length d -> F (map B2R y) ys -> length c = length ys ->
    check_feasibility d ev c y = TRUE -> feasible_point F d c (map B2R y).
  Proof.
    intros Fy Nd Nc L E Ly. unfold check_feasibility. destruct point_outside eqn:O; [discriminate|]. intros H.
    split; [apply point_outside_false; auto|]. exists ys. split; auto.
    apply check_values_true in H. eapply combine_contains; [|auto..|apply H]; auto. eapply Hev; eauto. apply of_points; auto.
  Qed.
  Lemma check_false d c y : (forall x ys zs, F x ys -> F x zs -> ys = zs) -> List.Forall (fun a => is_finite a = true) y ->
    check_feasibility d ev c y = FALSE -> ~ feasible_point F d c (map B2R y).
  Proof.
    intros Fun Fy. unfold check_feasibility. destruct point_outside eqn:O; intros H (B & ys & E & C).
    - eapply point_outside_true; eauto.
    - eapply check_values_false; eauto; [discriminate|]. eapply Hev; eauto. apply of_points; auto.
  Qed.
End Check.
Lemma check_values_strict (fy c : cbox) : Forall2 strictly_inside fy c -> List.Forall inhabited fy -> check_values fy c TRUE = TRUE.
Proof.
  induction 1 as [|X b fy c [H1 H2] H IH]; intros I; cbn [check_values]; auto. inversion I as [|? ? [y [L U]] I']; subst.
  assert (flt_lt (b_u b) (b_l X) = false) as E1.
  { destruct (flt_lt (b_u b) (b_l X)) eqn:E; auto. pose proof (lt_true _ _ _ _ E (Bltb_true_above _ _ _ H1 U) L). lra. }
  assert (flt_lt (b_u X) (b_l b) = false) as E2.
  { destruct (flt_lt (b_u X) (b_l b)) eqn:E; auto. pose proof (lt_true _ _ _ _ E U (Bltb_true_below _ _ _ H2 L)). lra. }
  assert (is_nan (b_u b) = false) as N1. { pose proof (Bltb_true_above _ _ _ H1 U) as A. eapply above_not_nan; eauto. }
  assert (is_nan (b_l b) = false) as N2. { pose proof (Bltb_true_below _ _ _ H2 L) as A. eapply below_not_nan; eauto. }
  rewrite E1, E2. cbn [orb]. rewrite !flt_le_lt, H1, H2; auto; [eapply below_not_nan|eapply above_not_nan]; eauto.
Qed.

(** ** feasible *)
Fixpoint terms (bs : list bnd) (xu xl : list fl) : R :=
  match bs, xu, xl with
  | b :: bs', u :: xu', l :: xl' => (B2R (b_u b) * B2R u - B2R (b_l b) * B2R l) + terms bs' xu' xl'
  | _, _, _ => 0
  end.
Lemma add_terms_contains bs xu xl cnst k : List.Forall finite_bounds bs -> List.Forall nonnegative xu -> List.Forall nonnegative xl ->
  contains cnst k -> contains (add_terms bs xu xl cnst) (k + terms bs xu xl).
Proof.
  revert xu xl cnst k. induction bs as [|b bs IH]; intros [|u xu] [|l xl] cnst k Fb Fu Fl C; cbn [add_terms terms]; rewrite ?Rplus_0_r; auto.
  inversion Fb as [|? ? [B1 B2] Fb']; inversion Fu as [|? ? [U1 U2] Fu']; inversion Fl as [|? ? [L1 L2] Fl']; subst. rewrite <- Rplus_assoc. apply IH; auto. unfold add_term.
  apply b_add_contains; auto. apply b_sub_contains; apply ff_mul_contains; auto.
Qed.
Definition coefs (xu xl : list fl) : list R := map (fun ab => B2R (fst ab) - B2R (snd ab)) (combine xu xl).
Lemma coefs_contain xu xl : List.Forall nonnegative xu -> List.Forall nonnegative xl -> Forall2 contains (zip_with ff_sub xu xl : cbox) (coefs xu xl).
Proof.
  unfold zip_with, coefs. revert xl. induction xu as [|u xu IH]; intros [|l xl] Fu Fl; cbn; try constructor; inversion Fu as [|? ? [U1 U2] Fu']; inversion Fl as [|? ? [L1 L2] Fl']; subst; [|apply IH; auto].
  apply ff_sub_contains; auto.
Qed.
Lemma lagrange_sign bs xu xl ys : List.Forall finite_bounds bs -> List.Forall nonnegative xu -> List.Forall nonnegative xl ->
  length xu = length bs -> length xl = length bs -> in_cbox bs ys -> 0 <= terms bs xu xl - dot (coefs xu xl) ys.
Proof.
  intros Fb Fu Fl Lu Ll B. unfold coefs. rewrite dot_rsum. revert xu xl Fb Fu Fl Lu Ll. induction B as [|b y bs ys Hb B IH]; intros [|u xu] [|l xl] Fb Fu Fl Lu Ll; try discriminate; cbn; [lra|].
  inversion Fb as [|? ? [F1 F2] Fb']; inversion Fu as [|? ? [_ Pu] Fu']; inversion Fl as [|? ? [_ Pl] Fl']; subst. cbn in Lu, Ll. specialize (IH xu xl Fb' Fu' Fl' ltac:(lia) ltac:(lia)).
  destruct Hb as [L U]. apply below_finite in L; auto. apply above_finite in U; auto. nra.
Qed.
Lemma forall_sub_list {A} (P : A -> Prop) s n l : List.Forall P l -> List.Forall P (sub_list s n l).
Proof.
  unfold sub_list. intros H. apply Forall_forall. intros a Ha. eapply (proj1 (Forall_forall _ _)); [exact H|].
  rewrite <- (firstn_skipn s l). apply in_or_app. right.
  rewrite <- (firstn_skipn n (skipn s l)). apply in_or_app. left. auto.
Qed.
Lemma length_sub_list {A} s n (l : list A) : (s + n <= length l)%nat -> length (sub_list s n l) = n.
Proof. intros. unfold sub_list. rewrite firstn_length, skipn_length. lia. Qed.
Lemma coefs_length xu xl : length xu = length xl -> length (coefs xu xl) = length xl.
Proof. intros. unfold coefs. rewrite map_length, combine_length. lia. Qed.
Lemma dot_app a b c d : length a = length c -> dot (a ++ b) (c ++ d) = dot a c + dot b d.
Proof.
  rewrite !dot_rsum. revert c. induction a; intros [|y c] L; try discriminate; cbn; [lra|]. rewrite IHa by (cbn in L; lia). lra.
Qed.

Section Feasible.
  Context (F : list R -> list R -> Prop) (P : @solver_parts prec emax) (c : cbox).
  Context (Hev : forall B x ys, in_cbox B x -> F x ys -> in_cbox (p_eval P B) ys).
  Context (Hep : forall B x ys, in_cbox B x -> F x ys -> in_cbox (p_eval_point P B) ys).
  Context (Hlin : forall d co B x ys cr, in_cbox d x -> in_cbox B x -> F x ys -> Forall2 contains co cr ->
                  contains (p_linear P d co B) (- dot cr (ys ++ x))).
  Context (Hhull : forall f g b, encloses f g -> keeps f b (p_hull P g b)).
  Context (Hhm : forall g b B, moderate_box B -> box_empty (p_hull P g b B) = false -> moderate_box (p_hull P g b B)).
  Context (Hhl : forall g b B, length (p_hull P g b B) = length B).
  Context (Fc : List.Forall finite_bounds c).
  (** the optimiser gives finite points and finite non-negative multipliers *)
  Context (Hst : forall d s, In s (p_steps P d) -> List.Forall nonnegative (o_x s) /\ (length (o_x s) = 2 * (length c + length d))%nat).

  Definition lagrange_values (d : cbox) (k : R) (cr : list R) : list R -> R -> Prop :=
    fun x y => in_cbox d x /\ exists ys, F x ys /\ y = k + - dot cr (ys ++ x).
  Lemma moderate_finite (d : cbox) : moderate_box d -> List.Forall finite_bounds d.
  Proof. intros H. eapply Forall_impl; [|exact H]. intros X [[A _] [B _]]. split; auto. Qed.
  Lemma lagrangian_encloses d xs : List.Forall nonnegative xs -> moderate_box d -> (length xs = 2 * (length c + length d))%nat ->
    exists f, encloses f (lagrangian P c d xs) /\ forall x, feasible_point F d c x -> exists y, f x y /\ contains (nonneg : bnd) y.
  Proof.
    intros Hx Md L. set (n := length c) in *. set (m := length d) in *.
    set (u1 := sub_list 0 n xs). set (l1 := sub_list n n xs). set (u2 := sub_list (2 * n) m xs). set (l2 := sub_list (2 * n + m) m xs).
    assert (List.Forall nonnegative u1 /\ List.Forall nonnegative l1 /\ List.Forall nonnegative u2 /\ List.Forall nonnegative l2) as (N1 & N2 & N3 & N4).
    { repeat split; apply forall_sub_list; auto. }
    assert (length u1 = n /\ length l1 = n /\ length u2 = m /\ length l2 = m) as (L1 & L2 & L3 & L4).
    { repeat split; apply length_sub_list; lia. }
    pose proof (moderate_finite d Md) as Fd.
    exists (lagrange_values d (0 + terms c u1 l1 + terms d u2 l2) (coefs u1 l1 ++ coefs u2 l2)). split.
    - intros B x y Hb (Hd & ys & E & ->). unfold lagrangian. apply b_add_contains.
      + unfold lagrange_constant. fold n m u1 l1 u2 l2. apply add_terms_contains; auto. apply add_terms_contains; auto. apply zero_contains.
      + eapply Hlin; eauto. unfold lagrange_coefficients. fold n m u1 l1 u2 l2. apply Forall2_app; apply coefs_contain; auto.
    - intros x (Hd & ys & E & C). eexists. split; [split; [exact Hd|exists ys; split; [exact E|reflexivity]]|].
      pose proof (in_box_length _ _ C) as Ly. rewrite dot_app by (rewrite coefs_length; unfold n in *; lia).
      pose proof (lagrange_sign c u1 l1 ys Fc N1 N2 ltac:(auto) ltac:(auto) C).
      pose proof (lagrange_sign d u2 l2 x Fd N3 N4 ltac:(auto) ltac:(auto) Hd).
      split; cbn; [lra|reflexivity].
  Qed.
  Lemma shave_feasible_sound f g vs sub x : encloses f g -> moderate_box sub -> (forall v, In v vs -> (v < length sub)%nat) ->
    solution f nonneg sub x -> shave_feasible g vs sub = Some false.
  Proof.
    intros He. revert sub. induction vs as [|v vs IH]; intros sub Md Hvs Hx; cbn [shave_feasible]; auto.
    assert (v < length sub)%nat as Hv by (apply Hvs; cbn; auto). pose proof (moderate_coord _ _ Md Hv) as Mv.
    destruct (box_reduce g nonneg sub v) as [[e d]|] eqn:E; [|exfalso; eapply box_reduce_returns; eauto].
    destruct (box_reduce_sound f g nonneg sub v He Hv Mv x Hx e d E) as [B ->].
    destruct (box_reduce_shape _ _ _ _ _ _ E) as (X & -> & _ & MX). specialize (MX Mv eq_refl).
    rewrite (in_box_nonempty _ _ B). apply IH.
    - apply moderate_set_at; auto.
    - intros w Hw. rewrite set_at_length. apply Hvs. cbn; auto.
    - split; auto. apply Hx.
  Qed.

  Context (Hmid : forall X, moderate_ivl X -> B2R (b_l X) <= B2R (b_u X) -> is_finite (p_mid P X) = true /\ B2R (b_l X) <= B2R (p_mid P X) <= B2R (b_u X)).
  Lemma proper_moderate (d : cbox) : proper_box d -> moderate_box d.
  Proof. intros H. eapply Forall_impl; [|exact H]. cbn. tauto. Qed.
  Lemma proper_set_at (B : cbox) v X : proper_box B -> (moderate_ivl X /\ B2R (b_l X) <= B2R (b_u X)) -> proper_box (set_at v X B).
  Proof. intros H. revert v. induction H; intros [|v] HX; cbn; constructor; auto. apply IHForall; auto. Qed.
  Lemma set_at_out {A} v (a : A) l : (length l <= v)%nat -> set_at v a l = l.
  Proof. revert v. induction l; intros [|v] H; cbn in *; auto; try lia. rewrite IHl; auto; lia. Qed.
  Lemma split_proper d k d1 d2 : proper_box d -> split_box k (p_mid P) d = (d1, d2) ->
    proper_box d1 /\ proper_box d2 /\ (forall x, in_cbox d x -> in_cbox d1 x \/ in_cbox d2 x) /\ (forall x, in_cbox d1 x \/ in_cbox d2 x -> in_cbox d x).
  Proof.
    intros Hd H. unfold split_box in H. inversion H; subst; clear H. destruct (Nat.lt_ge_cases k (length d)) as [K|K].
    2: { rewrite !set_at_out by auto. intuition. }
    assert (moderate_ivl (coord d k) /\ B2R (b_l (coord d k)) <= B2R (b_u (coord d k))) as [[Ml Mu] LE].
    { eapply (proj1 (Forall_forall _ _) Hd). apply nth_In; auto. }
    destruct (Hmid (coord d k) (conj Ml Mu) LE) as [Fm Bm]. set (a := p_mid P (coord d k)) in *.
    pose proof Ml as [Fl Al]. pose proof Mu as [Fu Au].
    assert (moderate a) as Ma. { split; auto. apply Rabs_le_inv in Al. apply Rabs_le_inv in Au. apply Rabs_le. lra. }
    split; [|split; [|split]].
    - apply proper_set_at; auto. cbn [b_l b_u]. split; [split; auto|lra].
    - apply proper_set_at; auto. cbn [b_l b_u]. split; [split; auto|lra].
    - intros x B. destruct (in_coord d x k B K) as [L U]. destruct (Rle_or_lt (nth k x 0) (B2R a)).
      + left. apply in_set_at; auto. split; auto. apply above_finite; auto.
      + right. apply in_set_at; auto. split; auto. cbn [b_l b_u]. apply below_finite; auto. apply Rlt_le; auto.
    - intros x [B|B].
      + pose proof (in_coord _ x k B ltac:(rewrite set_at_length; auto)) as C. rewrite coord_set_at in C by auto. destruct C as [L U]. cbn [b_l b_u] in *.
        rewrite <- (set_at_coord d k), <- (set_at_twice k (coord d k) (mkB (b_l (coord d k)) a)). apply in_set_at; auto.
        apply above_finite in U; auto. split; auto. apply above_finite; auto. lra.
      + pose proof (in_coord _ x k B ltac:(rewrite set_at_length; auto)) as C. rewrite coord_set_at in C by auto. destruct C as [L U]. cbn [b_l b_u] in *.
        rewrite <- (set_at_coord d k), <- (set_at_twice k (coord d k) (mkB a (b_u (coord d k)))). apply in_set_at; auto.
        apply below_finite in L; auto. split; auto. apply below_finite; auto. lra.
  Qed.
  Lemma or_false a b : lv_or a b = FALSE -> a = FALSE /\ b = FALSE.
  Proof. destruct a, b; cbn; intros; try discriminate; auto. Qed.
  Lemma or_true a b : lv_or a b = TRUE -> a = TRUE \/ b = TRUE.
  Proof. destruct a, b; cbn; intros; try discriminate; auto. Qed.
  Lemma opt_loop_values d steps r y : opt_loop P c d steps = Some (r, y) ->
    (r = TRUE /\ (exists s, In s steps /\ o_y s = y) /\ check_feasibility d (p_eval_point P) c y = TRUE) \/ r = INDET.
  Proof.
    induction steps as [|s steps IH]; cbn [opt_loop]; [discriminate|]. destruct flt_le.
    - destruct definitely eqn:D; intros H; inversion H; subst; auto. left. split; auto. split; [exists s; cbn; auto|].
      destruct check_feasibility; try discriminate; auto.
    - intros H. destruct (IH H) as [(A & (s' & I & E) & C)|A]; auto. left. split; auto. split; auto. exists s'. cbn; auto.
  Qed.
  Lemma image_disjoint d x : feasible_point F d c x -> existsb (fun xc => ivl_disjoint (fst xc) (snd xc)) (combine (p_eval P d) c) = false.
  Proof.
    intros (B & ys & E & C). pose proof (Hev _ _ _ B E) as I. clear - C I. revert c C. induction I as [|X y l ys HX I IH]; intros c' C; cbn; auto.
    inversion C as [|b ? c0 ? [L' U'] C']; subst. cbn. rewrite IH by auto. destruct HX as [L U]. unfold ivl_disjoint. cbn [fst snd].
    destruct flt_lt eqn:E1; [pose proof (lt_true _ _ _ _ E1 U' L); lra|].
    destruct (flt_lt (b_u X) (b_l b)) eqn:E2; [pose proof (lt_true _ _ _ _ E2 U L'); lra|]. reflexivity.
  Qed.
  Lemma feasible_false fuel d y : proper_box d -> feasible P c fuel d = Some (FALSE, y) -> forall x, ~ feasible_point F d c x.
  Proof.
    revert d y. induction fuel; cbn [feasible]; intros d y Hd H x Hx; [discriminate|].
    rewrite (image_disjoint d x Hx) in H.
    destruct (opt_loop P c d (p_steps P d)) as [[r y']|] eqn:O.
    { inversion H; subst. destruct (opt_loop_values _ _ _ _ O) as [[A _]|A]; discriminate. }
    destruct (rev (p_steps P d)) as [|s rest] eqn:R; [discriminate|].
    destruct (flt_lt (o_t s) terr); [|discriminate].
    assert (In s (p_steps P d)) as Hs by (apply in_rev; rewrite R; cbn; auto).
    destruct (Hst d s Hs) as (N & L).
    destruct (lagrangian_encloses d (o_x s) N (proper_moderate _ Hd) L) as (f & He & Hf).
    set (g := lagrangian P c d (o_x s)) in *. cbn zeta in H.
    destruct (Hf x Hx) as (z & Ez & Cz).
    assert (solution f nonneg d x) as Sd by (split; [apply Hx|eauto]).
    pose proof (Hhull f g nonneg He d x Sd) as Bh. pose proof (in_box_nonempty _ _ Bh) as Nh. rewrite Nh in H.
    rewrite (shave_feasible_sound f g _ _ x He) in H.
    - destruct (split_box (p_widest P d) (p_mid P) d) as [d1 d2] eqn:S.
      destruct (split_proper _ _ _ _ Hd S) as (P1 & P2 & C & _).
      destruct (feasible P c fuel d1) as [[r1 y1]|] eqn:E1; [|discriminate].
      destruct (feasible P c fuel d2) as [[r2 y2]|] eqn:E2; [|discriminate].
      inversion H as [[H1 H2]]. apply or_false in H1. destruct H1; subst.
      destruct (C x (proj1 Hx)) as [B|B].
      + apply (IHfuel _ _ P1 E1 x). split; auto. apply Hx.
      + apply (IHfuel _ _ P2 E2 x). split; auto. apply Hx.
    - apply Hhm; auto. apply proper_moderate; auto.
    - intros v Hv. apply in_seq in Hv. rewrite Hhl. lia.
    - split; auto; eauto.
  Qed.
  Context (Hpt : forall d s, In s (p_steps P d) -> List.Forall (fun a => is_finite a = true) (o_y s) /\ length (o_y s) = length d /\
                  exists ys, F (map B2R (o_y s)) ys /\ length c = length ys).
  Lemma finite_no_nan (X : bnd) : finite_bounds X -> no_nan X.
  Proof. intros [A B]. split; [destruct (b_l X)|destruct (b_u X)]; cbn in *; congruence. Qed.
  Lemma feasible_true fuel d y : proper_box d -> feasible P c fuel d = Some (TRUE, y) -> exists x, feasible_point F d c x.
  Proof.
    revert d y. induction fuel; cbn [feasible]; intros d y Hd H; [discriminate|].
    destruct existsb; [discriminate|].
    destruct (opt_loop P c d (p_steps P d)) as [[r y']|] eqn:O.
    { inversion H; subst. destruct (opt_loop_values _ _ _ _ O) as [(_ & (s & Hs & <-) & C)|A]; [|discriminate].
      destruct (Hpt d s Hs) as (Fy & Ly & ys & E & Lc). exists (map B2R (o_y s)).
      eapply check_true; eauto.
      - eapply Forall_impl; [apply finite_no_nan|]. apply moderate_finite, proper_moderate; auto.
      - eapply Forall_impl; [apply finite_no_nan|auto]. }
    destruct (rev (p_steps P d)) as [|s rest] eqn:R; [discriminate|].
    destruct (flt_lt (o_t s) terr); [|discriminate]. cbn zeta in H.
    destruct box_empty; [discriminate|]. destruct shave_feasible as [[|]|]; try discriminate.
    destruct (split_box (p_widest P d) (p_mid P) d) as [d1 d2] eqn:S.
    destruct (split_proper _ _ _ _ Hd S) as (P1 & P2 & _ & C).
    destruct (feasible P c fuel d1) as [[r1 y1]|] eqn:E1; [|discriminate].
    destruct (feasible P c fuel d2) as [[r2 y2]|] eqn:E2; [|discriminate].
    inversion H as [[H1 H2]]. apply or_true in H1. destruct H1 as [->| ->].
    - destruct (IHfuel _ _ P1 E1) as (x & B & K). exists x. split; auto.
    - destruct (IHfuel _ _ P2 E2) as (x & B & K). exists x. split; auto.
  Qed.
  (** A point which is returned with TRUE is feasible. *)
  Lemma feasible_point_returned fuel d y : proper_box d -> feasible P c fuel d = Some (TRUE, y) -> y <> [] -> feasible_point F d c (map B2R y).
  Proof.
    destruct fuel; cbn [feasible]; intros Hd H N; [discriminate|].
    destruct existsb; [discriminate|].
    destruct (opt_loop P c d (p_steps P d)) as [[r y']|] eqn:O.
    { inversion H; subst. destruct (opt_loop_values _ _ _ _ O) as [(_ & (s & Hs & <-) & C)|A]; [|discriminate].
      destruct (Hpt d s Hs) as (Fy & Ly & ys & E & Lc).
      eapply check_true; eauto.
      - eapply Forall_impl; [apply finite_no_nan|]. apply moderate_finite, proper_moderate; auto.
      - eapply Forall_impl; [apply finite_no_nan|auto]. }
    destruct (rev (p_steps P d)) as [|s rest]; [discriminate|]. destruct flt_lt; [|discriminate]. cbn zeta in H.
    destruct box_empty; [discriminate|]. destruct shave_feasible as [[|]|]; try discriminate.
    destruct split_box. destruct feasible as [[? ?]|]; [|discriminate]. destruct feasible as [[? ?]|]; [|discriminate]. congruence.
  Qed.
End Feasible.
End Proofs.
