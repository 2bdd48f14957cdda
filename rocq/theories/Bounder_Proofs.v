(** Proofs about the bounder. *)
From Coq Require Import ZArith Bool List Reals Lia Lra Psatz.
From Flocq Require Import Core IEEE754.BinarySingleNaN.
From Verif Require Import Logical_Model Float_Model Float_Spec Float_Proofs Bounds_Model Bounds_Spec Bounds_Proofs.
From Verif Require Import Box_Float_Model Box_Num_Proofs ErrBound_Proofs.
From Verif Require Import ConstraintSolver_Model ConstraintSolver_Spec ConstraintSolver_Proofs.
From Verif Require Import Bounder_Model Bounder_Spec Bounder_Math.
From Verif Require Exact_Model.
Import ListNotations.
Local Open Scope R_scope.

Section Proofs.
Context {prec emax : Z} {Hprec : Prec_gt_0 prec} {Hemax : Prec_lt_emax prec emax} {Hp : (11 <= prec)%Z}.
Local Notation fl := (binary_float prec emax).
Local Notation bnd := (bounds prec emax).
Local Notation cbox := (@cbox prec emax).
Local Notation near := mode_NE.
Local Notation up := mode_UP.
Local Notation down := mode_DN.
Local Notation fexp := (SpecFloat.fexp prec emax).
Local Notation rnd m := (round radix2 fexp (round_mode m)).
Local Notation M := (bpow radix2 (emax - 4)).
Local Notation time := Exact_Model.dyadic_fin.
Local Instance Vexp : Valid_exp fexp := fexp_correct prec emax Hprec.

(** ** Times *)
Lemma to_float_rounded m (d : time) : rounded m (tval d) (to_float m d : fl).
Proof. apply normalize_rounded. Qed.
Lemma to_float_exact m (d : time) : float_time (prec := prec) (emax := emax) d ->
  B2R (to_float m d : fl) = tval d /\ moderate (to_float m d : fl).
Proof.
  intros (x & Mx & E). pose proof (to_float_rounded m d) as H. rewrite <- E in H. rewrite <- E.
  assert (rnd m (B2R x) = B2R x) as G by (apply round_generic; auto with typeclass_instances; apply generic_format_B2R).
  pose proof (moderate_lt (Hp := Hp) x Mx). destruct H as [(_ & F & B)|(L & _)]; [|rewrite G in L; lra].
  rewrite G in B. rewrite B. split; [auto|]. split; auto. rewrite B. apply Mx.
Qed.

Lemma dyadic_align (a b : time) m n e : Exact_Model.d_align a b = (m, n, e) -> tval a = IZR m * bpow radix2 e /\ tval b = IZR n * bpow radix2 e.
Proof.
  unfold Exact_Model.d_align. intros H. injection H as <- <- <-. unfold tval.
  split; rewrite mult_IZR, (IZR_Zpower radix2) by lia; rewrite Rmult_assoc, <- bpow_plus; f_equal; f_equal; lia.
Qed.
Lemma tval_add a b : tval (Exact_Model.d_addx a b) = tval a + tval b.
Proof.
  unfold Exact_Model.d_addx. destruct (Exact_Model.d_align a b) as [[m n] e] eqn:E. apply dyadic_align in E as [-> ->].
  unfold tval; cbn. rewrite plus_IZR. ring.
Qed.
Lemma t_lt_iff a b : t_lt a b = true <-> tval a < tval b.
Proof.
  unfold t_lt, Exact_Model.d_cmpx. destruct (Exact_Model.d_align a b) as [[m n] e] eqn:E. apply dyadic_align in E as [-> ->].
  pose proof (bpow_gt_0 radix2 e). destruct (Z.compare_spec m n) as [->|L|L].
  - split; [discriminate|lra].
  - split; auto. intros _. apply Rmult_lt_compat_r; auto. apply IZR_lt; auto.
  - split; [discriminate|]. apply IZR_lt in L. intros. nra.
Qed.
Lemma of_float_val (x : fl) : tval (of_float x) = B2R x.
Proof. destruct x; cbn; unfold tval; cbn; try ring. destruct s; reflexivity. Qed.
Lemma next_step_val h : 0 <= tval h -> 0 <= tval (next_step (prec := prec) (emax := emax) (Hprec := Hprec) (Hemax := Hemax) h) <= tval h / 2.
Proof.
  intros P. unfold next_step. rewrite of_float_val.
  set (d := Exact_Model.mkD _ _).
  assert (tval d = tval h / 2) as Ed.
  { unfold d, tval; cbn [Exact_Model.mant Exact_Model.expo]. unfold Zminus. rewrite bpow_plus. change (bpow radix2 (-(1))) with (/ 2). field. }
  pose proof (to_float_rounded mode_ZR d) as H.
  assert (0 <= rnd mode_ZR (tval d) <= tval d) as Q.
  { assert (0 <= tval d) as P' by lra. cbn [round_mode]. rewrite round_ZR_DN by auto.
    split; [apply round_ge_generic; auto with typeclass_instances; apply generic_format_0|apply round_DN_pt; auto with typeclass_instances]. }
  destruct H as [(_ & _ & E)|(L & E)]; [lra|].
  rewrite Rabs_pos_eq in L by lra. pose proof (abs_B2R_lt_emax prec emax (to_float mode_ZR d)) as A.
  assert (0 <= B2R (to_float mode_ZR d : fl)) as N; [|rewrite Rabs_pos_eq in A by auto; lra].
  apply B2R_sign_pos. rewrite Rlt_bool_false in E by lra. destruct (to_float mode_ZR d : fl); try discriminate; cbn in *; congruence.
Qed.

(** ** The time interval *)
Definition step_ok (K : bnd) : Prop :=
  is_finite (b_l K) = true /\ is_finite (b_u K) = true /\ B2R (b_l K) = 0 /\ 0 < B2R (b_u K).
Lemma step_zero K : step_ok K -> contains K 0.
Proof. intros (Fl & Fu & E & P). split; [apply below_finite|apply above_finite]; auto; lra. Qed.
Lemma elapsed_ok (T : bnd) : moderate (b_l T) -> moderate (b_u T) -> B2R (b_l T) < B2R (b_u T) ->
  let rH := bf_sub T (b_l T) in step_ok rH /\ Rabs (B2R (b_u rH)) <= 2 * M.
Proof.
  intros [Fl Ml] [Fu Mu] L. cbn zeta. unfold bf_sub. cbn [b_l b_u].
  destruct (M_multiple (Hp := Hp) 2 ltac:(lia)) as [G2 L2].
  destruct (rounded_small down _ _ _ (fsub_rounded down _ _ Fl Fl) (generic_format_0 radix2 fexp) (bpow_gt_0 _ _)) as (F1 & _ & E1).
  { rewrite Rminus_diag_eq, Rabs_R0 by auto. lra. }
  destruct (rounded_small up _ _ _ (fsub_rounded up _ _ Fu Fl) G2 L2) as (F2 & A2 & E2).
  { eapply Rle_trans; [apply Rabs_triang|]. rewrite Rabs_Ropp. lra. }
  repeat split; auto; cbn [b_l b_u].
  - rewrite E1, Rminus_diag_eq by auto. apply round_0; auto with typeclass_instances.
  - pose proof (rounded_up_above _ _ (fsub_rounded up _ _ Fu Fl)) as A. apply above_finite in A; auto. lra.
Qed.
Definition vector_widening (vw : fl) : Prop := is_finite vw = true /\ 1 <= B2R vw <= 2.
Lemma widened_step (vw : fl) rH : vector_widening vw -> step_ok rH -> Rabs (B2R (b_u rH)) <= 2 * M -> step_ok (fb_mul vw rH).
Proof.
  intros [Fv Hv] (Fl & Fu & E & P) A. unfold fb_mul, b_mul, b_of; cbn [b_l b_u].
  assert (ge0 vw = true) as -> by (apply ge0_finite; auto; lra).
  assert (ge0 (b_l rH) = true) as -> by (apply ge0_finite; auto; lra).
  destruct (M_multiple (Hp := Hp) 4 ltac:(lia)) as [G4 L4].
  destruct (rounded_small down _ _ _ (fmul_rounded down _ _ Fv Fl) (generic_format_0 radix2 fexp) (bpow_gt_0 _ _)) as (F1 & _ & E1).
  { rewrite E, Rmult_0_r, Rabs_R0. lra. }
  destruct (rounded_small up _ _ _ (fmul_rounded up _ _ Fv Fu) G4 L4) as (F2 & _ & E2).
  { rewrite Rabs_mult, (Rabs_pos_eq (B2R vw)) by lra. pose proof (Rabs_pos (B2R (b_u rH))). nra. }
  repeat split; auto; cbn [b_l b_u].
  - rewrite E1, E, Rmult_0_r. apply round_0; auto with typeclass_instances.
  - pose proof (rounded_up_above _ _ (fmul_rounded up _ _ Fv Fu)) as Q. apply above_finite in Q; auto. nra.
Qed.
Lemma step_mul_contains K (Y : bnd) k y : step_ok K -> contains K k -> contains Y y -> contains (b_mul K Y) (k * y).
Proof.
  intros (Fl & Fu & E & P) Hk Hy. apply b_mul_contains; auto.
  destruct Hy as [L U]. pose proof (below_not_nan _ _ L) as Nl. pose proof (above_not_nan _ _ U) as Nu.
  assert (ge0 (b_l K) = true) as G by (apply ge0_finite; auto; lra).
  assert (forall m (g : fl), is_nan g = false -> is_nan (fmul m (b_u K) g) = false) as Q.
  { intros m g N. destruct (is_finite g) eqn:Fg.
    - eapply rounded_not_nan, fmul_rounded; auto.
    - apply fmul_not_nan; auto; [destruct (b_u K); auto; discriminate|lra|congruence]. }
  assert (forall m (g : fl), is_finite g = true -> is_nan (fmul m (b_l K) g) = false) as Q0.
  { intros. eapply rounded_not_nan, fmul_rounded; auto. }
  unfold b_mul, no_nan. rewrite G. destruct (ge0 (b_l Y)) eqn:G1; [|destruct (le0 (b_u Y)) eqn:G2]; cbn [b_l b_u]; split; auto.
  - apply Q0. destruct (b_l Y); auto. cbn in L. subst s. discriminate.
  - apply Q0. destruct (b_u Y); auto. cbn in U. subst s. discriminate.
Qed.

(** ** The widened domain *)
Lemma box_midpoint (X : bnd) : moderate_ivl X -> B2R (b_l X) <= B2R (b_u X) ->
  is_finite (ivl_midpoint X) = true /\ B2R (b_l X) <= B2R (ivl_midpoint X) <= B2R (b_u X).
Proof.
  intros [[Fl Ml] [Fu Mu]] LE.
  assert (is_finite (ivl_midpoint X) = true) as F; [|destruct (midpoint_between near _ _ LE F) as (_ & _ & Q); auto].
  unfold ivl_midpoint, f_midpoint.
  destruct (M_multiple (Hp := Hp) 2 ltac:(lia)) as [G2 L2]. destruct (M_multiple (Hp := Hp) 1 ltac:(lia)) as [G1 L1].
  destruct (ftwo_val (Hprec := Hprec) (Hemax := Hemax)) as [E2 F2].
  assert (B2R (ftwo : fl) <> 0) as N2 by (rewrite E2; lra).
  assert (forall m, moderate (fhlf near (fadd m (b_l X) (b_u X))) /\ B2R (fhlf near (fadd m (b_l X) (b_u X))) = rnd near (rnd m (B2R (b_l X) + B2R (b_u X)) / 2)) as Q.
  { intros m. destruct (rounded_small m _ _ _ (fadd_rounded m _ _ Fl Fu) G2 L2) as (F3 & A3 & E3).
    { eapply Rle_trans; [apply Rabs_triang|]. lra. }
    pose proof (fdiv_rounded near (fadd m (b_l X) (b_u X)) ftwo F3 N2) as R4. rewrite E2 in R4.
    destruct (rounded_small near _ _ _ R4 G1 L1) as (F4 & A4 & E4).
    { unfold Rdiv. rewrite Rabs_mult, (Rabs_pos_eq (/ 2)) by lra. lra. }
    unfold moderate, fhlf. rewrite E4, E3 in *. rewrite Rmult_1_l in A4. auto. }
  apply (midpoint (Hp := Hp)); unfold b_hlf, ff_add; cbn [b_l b_u].
  - split; apply Q.
  - rewrite !(proj2 (Q _)). apply round_le; auto with typeclass_instances. apply Rmult_le_compat_r; [lra|].
    cbn [round_mode]. apply Rle_trans with (B2R (b_l X) + B2R (b_u X)); [apply round_DN_pt|apply round_UP_pt]; auto with typeclass_instances.
Qed.
Lemma widened_contains (iw : fl) (D : cbox) x : moderate_box D -> in_cbox D x -> in_cbox (widened_domain D iw) x.
Proof.
  intros MD Hx. unfold widened_domain. destruct flt_eq eqn:E; cbn [negb]; auto.
  destruct (fnat_exact (Hp := Hp) 1 ltac:(lia)) as [E1 F1].
  assert (is_finite iw = true /\ B2R iw = 1) as [Fi Ei].
  { assert (is_finite iw = true) as Fi.
    { clear - E F1. revert E F1. generalize (fnat 1 : fl). intros g. unfold flt_eq. destruct iw as [| [|] | |], g as [| [|] | |]; cbn; auto; try discriminate;
        try (destruct s; discriminate). }
    split; auto. apply flt_eq_finite in E; auto. rewrite E, E1. reflexivity. }
  revert MD. induction Hx as [|X r D' x' C H IH]; intros MD; cbn [map]; constructor; inversion MD as [|? ? MX MD']; subst; [|apply IH; auto].
  destruct C as [L U]. pose proof MX as [[Fl Ml] [Fu Mu]].
  apply below_finite in L; auto. apply above_finite in U; auto.
  destruct (box_midpoint X MX ltac:(lra)) as [Fm Bm].
  destruct (M_multiple (Hp := Hp) 2 ltac:(lia)) as [G2 L2].
  assert (Rabs (B2R (ivl_midpoint X)) <= M) as Mm by (unfold Rabs in *; repeat destruct Rcase_abs; lra).
  assert (finite_bounds (bf_sub X (ivl_midpoint X))) as FB.
  { split; cbn.
    - destruct (rounded_small down _ _ _ (fsub_rounded down _ _ Fl Fm) G2 L2); auto.
      eapply Rle_trans; [apply Rabs_triang|]. rewrite Rabs_Ropp. lra.
    - destruct (rounded_small up _ _ _ (fsub_rounded up _ _ Fu Fm) G2 L2); auto.
      eapply Rle_trans; [apply Rabs_triang|]. rewrite Rabs_Ropp. lra. }
  assert (contains X r) as CX by (split; [apply below_finite|apply above_finite]; auto).
  assert (contains X (B2R (ivl_midpoint X))) as CM by (split; [apply below_finite|apply above_finite]; auto; lra).
  pose proof (bf_sub_contains X _ _ Fm CM) as [CS _]. rewrite Rminus_diag_eq in CS by auto.
  replace r with (r + B2R iw * 0) by ring. apply b_add_contains; auto.
  pose proof (b_of_contains iw Fi) as CI.
  apply b_mul_contains; auto. eapply b_mul_no_nan; eauto. split; auto.
Qed.
Lemma widened_length (iw : fl) (D : cbox) : length (widened_domain D iw) = length D.
Proof. unfold widened_domain. destruct negb; auto. apply map_length. Qed.

Lemma in_cbox_nth (B : cbox) x : in_cbox B x <-> length B = length x /\ forall i, (i < length B)%nat -> contains (coord B i) (nth i x 0).
Proof.
  split.
  - intros H. split; [apply in_box_length; auto|]. intros. apply in_coord; auto.
  - revert x. induction B as [|X B IH]; intros [|r x] [E H]; try discriminate; constructor.
    + apply (H 0%nat). cbn; lia.
    + apply IH. split; [injection E; auto|]. intros i Hi. apply (H (S i)). cbn; lia.
Qed.

(** ** Formula *)
Section Formula.
  Context (auto : bool) (f : cbox -> list bnd) (D A : cbox).
  Definition argument (T : bnd) (B : cbox) : cbox := if auto then B ++ A else B ++ T :: A.
  Lemma formula_length T B iw vw : length (f (argument T B)) = length D -> length (formula auto f D A T B iw vw) = length D.
  Proof. intros E. unfold formula. cbv zeta. change (if auto then _ else _) with (argument T B). rewrite map_length, combine_length, widened_length, E. lia. Qed.
  Lemma formula_coord T B iw vw i : length (f (argument T B)) = length D -> (i < length D)%nat ->
    coord (formula auto f D A T B iw vw) i =
    b_add (coord (widened_domain D iw) i) (b_mul (fb_mul vw (bf_sub T (b_l T))) (coord (f (argument T B)) i)).
  Proof.
    intros E Hi. unfold formula, coord. cbv zeta. change (if auto then _ else _) with (argument T B).
    set (g := fun wv : bnd * bnd => _).
    rewrite nth_indep with (d' := g (b_empty, b_empty)) by (rewrite map_length, combine_length, widened_length, E; lia).
    rewrite map_nth, combine_nth by (rewrite widened_length; auto). reflexivity.
  Qed.
End Formula.

Lemma refines_subset (X Y : bnd) r : contains X r -> b_refines X Y = true -> contains Y r.
Proof. intros C H. apply b_refines_iff in H; [apply H; auto|exists r; exact C]. Qed.
Lemma box_refines_subset (B1 B2 : cbox) x : length B1 = length B2 -> box_refines B1 B2 = true -> in_cbox B1 x -> in_cbox B2 x.
Proof.
  revert B2 x. induction B1 as [|X B1 IH]; intros [|Y B2] x E H C; try discriminate; auto.
  inversion C; subst. cbn in H. apply andb_prop in H as [Q1 Q2]. constructor; [eapply refines_subset; eauto|].
  apply IH; auto.
Qed.
Lemma bounded_coord (B : cbox) i r : is_bounded B = true -> (i < length B)%nat -> contains (coord B i) r ->
  is_finite (b_l (coord B i)) = true /\ is_finite (b_u (coord B i)) = true.
Proof.
  intros H Hi [L U]. unfold is_bounded in H. rewrite forallb_forall in H.
  specialize (H (coord B i) (nth_In _ _ Hi)). apply andb_prop in H as [H1 H2].
  destruct (coord B i) as [l u]; cbn [b_l b_u] in *.
  split; [destruct l as [|[|]| |]|destruct u as [|[|]| |]]; auto; try discriminate; try contradiction.
Qed.
Lemma contains_convex (X : bnd) v w p q : contains X v -> contains X w -> 0 <= p -> 0 <= q -> p + q = 1 -> contains X (p * v + q * w).
Proof.
  intros [L1 U1] [L2 U2] P Q S. assert (v <= p * v + q * w \/ w <= p * v + q * w) by (destruct (Rle_or_lt v w); [left|right]; nra).
  assert (p * v + q * w <= v \/ p * v + q * w <= w) by (destruct (Rle_or_lt v w); [right|left]; nra).
  split; [destruct H; [eapply below_le; [exact L1|]|eapply below_le; [exact L2|]]; auto|
          destruct H0; [eapply above_ge; [exact U1|]|eapply above_ge; [exact U2|]]; auto].
Qed.
Lemma max_exists (g : nat -> R) n : exists M, 0 <= M /\ forall i, (i < n)%nat -> Rabs (g i) <= M.
Proof.
  induction n as [|n (M & P & H)]; [exists 0; split; [lra|intros; lia]|].
  exists (Rmax M (Rabs (g n))). pose proof (Rmax_l M (Rabs (g n))). pose proof (Rmax_r M (Rabs (g n))). split; [lra|].
  intros i Hi. destruct (Nat.eq_dec i n) as [->|]; auto. specialize (H i ltac:(lia)). lra.
Qed.

(** ** The flow *)
Section Flow.
  Context (auto : bool) (F : field) (f : cbox -> list bnd) (D A : cbox) (T : bnd) (t0 t1 : R) (x a : R -> list R).
  Hypothesis HF : encloses_field auto F (length D) f.
  Hypothesis MD : moderate_box D.
  Hypothesis MT : moderate (b_l T) /\ moderate (b_u T) /\ B2R (b_l T) = t0 /\ t1 <= B2R (b_u T) /\ t0 < t1.
  Hypothesis Sol : solves F D A t0 t1 x a.
  Let n := length D.
  Let K := bf_sub T (b_l T).
  Let X i s := nth i (x s) 0.
  Let G i s := nth i (F (x s) s (a s)) 0.

  Lemma elapsed : step_ok K /\ Rabs (B2R (b_u K)) <= 2 * M.
  Proof. destruct MT as (M1 & M2 & E1 & E2 & L). apply elapsed_ok; auto. lra. Qed.
  Lemma field_value B y s b : t0 <= s <= t1 -> in_cbox B y -> in_cbox A b -> length y = n -> in_cbox (f (argument auto A T B)) (F y s b).
  Proof.
    intros Hs Hy Hb Hl. destruct HF as [_ H]. unfold argument. destruct auto; apply H; auto.
    destruct MT as ((F1 & _) & (F2 & _) & E1 & E2 & L). split; [apply below_finite|apply above_finite]; auto; lra.
  Qed.
  Lemma x_length s : t0 <= s <= t1 -> length (x s) = n. Proof. apply Sol. Qed.
  Lemma t_start : t0 <= t0 <= t1. Proof. destruct MT as (_ & _ & _ & _ & L). lra. Qed.
  Lemma value_length B y s b : t0 <= s <= t1 -> in_cbox B y -> in_cbox A b -> length y = n -> length (f (argument auto A T B)) = length D.
  Proof.
    intros Hs Hy Hb Hl. rewrite (in_box_length _ _ (field_value B y s b Hs Hy Hb Hl)). destruct HF as [H _]. apply H; auto.
  Qed.
  Lemma widening_1 : vector_widening (no_widening : fl).
  Proof. destruct (fnat_exact (Hp := Hp) 1 ltac:(lia)) as [E H]. split; auto. unfold no_widening. rewrite E. cbn. lra. Qed.
  Lemma widening_2 : vector_widening (initial_starting_widening : fl).
  Proof. destruct (fnat_exact (Hp := Hp) 2 ltac:(lia)) as [E H]. split; auto. unfold initial_starting_widening. rewrite E. cbn. lra. Qed.
  Lemma widening_9_8 : vector_widening (initial_refining_widening : fl).
  Proof.
    destruct (fnat_exact (Hp := Hp) 9 ltac:(lia)) as [E9 F9]. destruct (fnat_exact (Hp := Hp) 8 ltac:(lia)) as [E8 F8].
    assert (B2R (fnat 8 : fl) <> 0) as N by (rewrite E8; cbn; lra).
    assert (emax_ok : (prec < emax)%Z) by exact Hemax.
    assert (forall k : Z, (0 < k <= 4)%Z -> generic_format radix2 fexp (IZR k)) as GF.
    { intros k Hk. replace (IZR k) with (IZR k * bpow radix2 0) by (cbn; ring). apply (int_format (Hp := Hp)); [lia|]. unfold SpecFloat.emin. lia. }
    destruct (rounded_small near _ _ 2 (fdiv_rounded near _ _ F9 N)) as (Ff & _ & Ef).
    - apply GF; lia.
    - change 2 with (bpow radix2 1). apply bpow_lt. lia.
    - rewrite E9, E8. cbn. rewrite Rabs_pos_eq; lra.
    - split; [exact Ff|]. unfold initial_refining_widening. rewrite Ef, E9, E8. split.
      + apply round_ge_generic; auto with typeclass_instances; [apply GF; lia|cbn; lra].
      + apply round_le_generic; auto with typeclass_instances; [apply GF; lia|cbn; lra].
  Qed.

  (** The initial state is in all the boxes. *)
  Lemma formula_start iw vw B : vector_widening vw -> in_cbox B (x t0) -> in_cbox (formula auto f D A T B iw vw) (x t0).
  Proof.
    intros Hv HB. destruct elapsed as [OK AK].
    pose proof (field_value B (x t0) t0 (a t0) t_start HB (parameters_in _ _ _ _ _ _ _ Sol t0 t_start) (x_length t0 t_start)) as HV.
    pose proof (value_length B (x t0) t0 (a t0) t_start HB (parameters_in _ _ _ _ _ _ _ Sol t0 t_start) (x_length t0 t_start)) as LV.
    apply in_cbox_nth. rewrite formula_length by auto. split; [symmetry; apply x_length, t_start|].
    intros i Hi. rewrite formula_coord by auto.
    replace (nth i (x t0) 0) with (nth i (x t0) 0 + 0 * G i t0) by ring.
    pose proof (widened_contains iw D (x t0) MD (start_in _ _ _ _ _ _ _ Sol)) as WD.
    pose proof (widened_step vw K Hv OK AK) as OK'.
    apply b_add_contains; [apply in_coord; auto; rewrite widened_length; auto|].
    apply step_mul_contains; auto; [apply step_zero; auto|]. apply in_coord; auto. rewrite LV. auto.
  Qed.

  (** An Euler step is in the refinement. *)
  Lemma refinement_euler B i v s : length (f (argument auto A T B)) = length D -> (i < n)%nat -> contains (coord (f (argument auto A T B)) i) v ->
    t0 <= s <= t1 -> contains (coord (refinement auto f D A T B) i) (X i t0 + (s - t0) * v).
  Proof.
    intros LV Hi Hv Hs. destruct elapsed as [OK AK]. unfold refinement. rewrite formula_coord by auto.
    pose proof (widened_contains no_widening D (x t0) MD (start_in _ _ _ _ _ _ _ Sol)) as WD.
    pose proof (widened_step no_widening K widening_1 OK AK) as OK'.
    apply b_add_contains; [apply in_coord; auto; rewrite widened_length; auto|].
    apply step_mul_contains; auto.
    destruct (fnat_exact (Hp := Hp) 1 ltac:(lia)) as [E1 F1]. destruct MT as ((Fl & _) & (Fu & _) & E2 & E3 & L).
    replace (s - t0) with (B2R (no_widening : fl) * (s - B2R (b_l T))) by (unfold no_widening; rewrite E1, E2; cbn; ring).
    assert (contains T s) as Ts by (split; [apply below_finite|apply above_finite]; auto; lra).
    apply b_mul_contains; [apply b_of_contains; auto|apply (bf_sub_contains T (b_l T) s Fl Ts)|].
    eapply b_mul_no_nan; [apply b_of_contains; auto|apply (bf_sub_contains T (b_l T) s Fl Ts)|split; auto|].
    destruct OK as (O1 & O2 & _). split; auto.
  Qed.

  (** If the flow is in [B], it is in the refinement of [B]. *)
  Lemma refinement_flow B : (forall s, t0 <= s <= t1 -> in_cbox B (x s)) -> forall s, t0 <= s <= t1 -> in_cbox (refinement auto f D A T B) (x s).
  Proof.
    intros HB s Hs.
    assert (forall r, t0 <= r <= t1 -> in_cbox (f (argument auto A T B)) (F (x r) r (a r)) /\ length (f (argument auto A T B)) = length D) as V.
    { intros r Hr. pose proof (parameters_in _ _ _ _ _ _ _ Sol r Hr) as Ar. pose proof (x_length r Hr) as Lr. split; [apply field_value|eapply value_length with (y := x r) (s := r) (b := a r)]; auto. }
    destruct (V s Hs) as [_ LV].
    apply in_cbox_nth. unfold refinement. rewrite formula_length by auto. split; [symmetry; apply x_length; auto|].
    intros i Hi. destruct (Req_dec s t0) as [->|N].
    - pose proof (formula_start no_widening no_widening B widening_1 (HB _ t_start)) as Q. apply in_coord; auto. rewrite formula_length; auto.
    - destruct (mean_slope (X i) (G i) t0 s) as (c & Hc & E); [lra| | |].
      + intros r Hr. apply (state_continuous _ _ _ _ _ _ _ Sol); auto. lra.
      + intros r Hr. apply (state_derivative _ _ _ _ _ _ _ Sol); auto. lra.
      + fold (X i s). replace (X i s) with (X i t0 + (s - t0) * G i c) by lra.
        apply refinement_euler; auto. destruct (V c ltac:(lra)) as [Q _]. apply in_coord; auto. rewrite LV; auto.
  Qed.

  Hypothesis Lip : locally_lipschitz F n A t0 t1.

  Lemma contraction_flow B : in_cbox B (x t0) -> is_bounded (refinement auto f D A T B) = true ->
    box_refines (refinement auto f D A T B) B = true -> length B = n ->
    forall s, t0 <= s <= t1 -> in_cbox (refinement auto f D A T B) (x s).
  Proof.
    intros HB Bd Rf LB. set (Br := refinement auto f D A T B) in *.
    pose proof (value_length B (x t0) t0 (a t0) t_start HB (parameters_in _ _ _ _ _ _ _ Sol t0 t_start) (x_length t0 t_start)) as LV.
    pose proof (formula_start no_widening no_widening B widening_1 HB) as HBr. change (in_cbox Br (x t0)) in HBr.
    assert (length Br = n) as LBr by (unfold Br, refinement; apply formula_length; auto).
    assert (forall i, (i < n)%nat -> is_finite (b_l (coord Br i)) = true /\ is_finite (b_u (coord Br i)) = true) as Fin.
    { intros i Hi. apply bounded_coord with (r := nth i (x t0) 0); auto; [rewrite LBr; auto|]. apply in_coord; auto. rewrite LBr; auto. }
    set (lo := fun i => B2R (b_l (coord Br i))). set (hi := fun i => B2R (b_u (coord Br i))).
    assert (forall i r, (i < n)%nat -> contains (coord Br i) r <-> lo i <= r <= hi i) as Con.
    { intros i r Hi. destruct (Fin i Hi) as [F1 F2]. unfold contains, lo, hi. rewrite below_finite, above_finite by auto. tauto. }
    destruct MT as (_ & _ & _ & _ & LT).
    assert (forall i s, (i < n)%nat -> t0 <= s <= t1 -> continuity_pt (X i) s) as Cx by apply Sol.
    destruct (all_bounded X t0 t1 n ltac:(lra) Cx) as (M1 & P1 & B1).
    destruct (max_exists lo n) as (M2 & P2 & B2). destruct (max_exists hi n) as (M3 & P3 & B3).
    destruct (Lip (M1 + M2 + M3)) as (L & HL).
    assert (forall s, t0 <= s <= t1 -> forall i, (i < n)%nat -> lo i <= X i s <= hi i) as St.
    { apply (stay n X G lo hi (fun i => contains (coord (f (argument auto A T B)) i)) t0 t1 (Rmax L 0)).
      - lra.
      - apply Rmax_r.
      - exact Cx.
      - intros i s Hi Hs. apply (state_derivative _ _ _ _ _ _ _ Sol); auto.
      - intros. apply contains_convex; auto.
      - intros i Hi. apply Con; auto. apply in_coord; auto. rewrite LBr; auto.
      - intros i v s Hi Hv Hs. apply Con; auto. apply refinement_euler; auto.
      - intros s e Hs He Hn i Hi.
        set (y := map (fun i => Rmax (lo i) (Rmin (hi i) (X i s))) (seq 0 n)).
        assert (length y = n) as Ly by (unfold y; rewrite map_length, seq_length; auto).
        assert (forall j, (j < n)%nat -> nth j y 0 = Rmax (lo j) (Rmin (hi j) (X j s))) as Yn.
        { intros j Hj. unfold y. rewrite nth_indep with (d' := (fun i => Rmax (lo i) (Rmin (hi i) (X i s))) 0%nat) by (rewrite map_length, seq_length; auto).
          rewrite (map_nth (fun i => Rmax (lo i) (Rmin (hi i) (X i s)))). rewrite seq_nth by auto. reflexivity. }
        assert (forall j, (j < n)%nat -> lo j <= hi j) as Ord.
        { intros j Hj. assert (lo j <= nth j (x t0) 0 <= hi j); [apply Con; auto; apply in_coord; auto; rewrite LBr; auto|lra]. }
        assert (forall j, (j < n)%nat -> lo j <= nth j y 0 <= hi j /\ Rabs (X j s - nth j y 0) <= e) as Yb.
        { intros j Hj. rewrite Yn by auto. specialize (Ord j Hj). specialize (Hn j Hj).
          unfold Rmax, Rmin. repeat destruct Rle_dec; unfold Rabs; destruct Rcase_abs; lra. }
        assert (in_cbox Br y) as By.
        { apply in_cbox_nth. rewrite LBr. split; [auto|]. intros j Hj. apply Con; auto. apply Yb; auto. }
        apply box_refines_subset with (B2 := B) in By; auto; [|rewrite LBr; auto].
        pose proof (parameters_in _ _ _ _ _ _ _ Sol s Hs) as As.
        pose proof (field_value B y s (a s) Hs By As Ly) as FV.
        exists (nth i (F y s (a s)) 0). split; [apply in_coord; auto; rewrite LV; auto|].
        apply Rle_trans with (L * e); [|apply Rmult_le_compat_r; auto; apply Rmax_l].
        unfold G. apply HL; auto; [apply x_length; auto|].
        intros j Hj. pose proof (B1 j s Hj Hs). pose proof (B2 j Hj). pose proof (B3 j Hj). destruct (Yb j Hj) as [Q1 Q2].
        split; [fold (X j s); lra|]. split; [|fold (X j s); auto].
        unfold Rabs in *. repeat destruct Rcase_abs; lra. }
    intros s Hs. apply in_cbox_nth. rewrite LBr. split; [symmetry; apply x_length; auto|].
    intros i Hi. apply Con; auto. apply St; auto.
  Qed.

  Lemma expand_flow k B Br : in_cbox B (x t0) -> length B = n -> expand auto f D A T k B = Some Br ->
    forall s, t0 <= s <= t1 -> in_cbox Br (x s).
  Proof.
    revert B. induction k as [|k IH]; intros B HB LB E; [discriminate|]. cbn [expand] in E.
    destruct is_bounded eqn:Bd; cbn [negb] in E; [|discriminate].
    destruct box_refines eqn:Rf.
    - injection E as <-. apply contraction_flow; auto.
    - refine (IH _ _ _ E); [apply formula_start; auto; apply widening_9_8|].
      apply formula_length. eapply value_length with (y := x t0) (s := t0) (b := a t0); auto using t_start, x_length.
      apply (parameters_in _ _ _ _ _ _ _ Sol), t_start.
  Qed.
  Lemma refine_flow k B : (forall s, t0 <= s <= t1 -> in_cbox B (x s)) -> forall s, t0 <= s <= t1 -> in_cbox (refine auto f D A T k B) (x s).
  Proof. revert B. induction k as [|k IH]; intros B HB; auto. cbn [refine]. apply IH. apply refinement_flow; auto. Qed.
End Flow.

(** ** The search *)
Lemma search_cases auto f (D A : cbox) t hmin fuel hprev h h' B : search auto f D A t hmin fuel hprev h = Found h' B ->
  let T := to_time_bounds t (Exact_Model.d_addx t h') in
  (exists Br, expand auto f D A T expansion_steps (formula auto f D A T D box_radius_widening initial_starting_widening) = Some Br
    /\ B = refine auto f D A T refinement_steps Br) /\ (h' = h \/ (exists x : fl, h' = of_float x) /\ tval hmin <= tval h').
Proof.
  revert hprev h. induction fuel as [|fuel IH]; intros hprev h E; [discriminate|]. cbn [search] in E.
  destruct expand as [Br|] eqn:Ex.
  - injection E as <- <-. split; [exists Br; auto|auto].
  - destruct t_lt eqn:Lt; [discriminate|]. apply IH in E as [E1 E2]. split; auto.
    destruct E2 as [->|E2]; auto. right. split; [eexists; reflexivity|].
    apply Rnot_lt_le. intros L. apply t_lt_iff in L. congruence.
Qed.
Lemma search_small auto f (D A : cbox) t hmin fuel hprev h h' B c : 0 <= tval h <= c -> 0 <= tval hprev <= 2 * c ->
  search auto f D A t hmin fuel hprev h = Found h' B -> 0 <= tval h' <= c.
Proof.
  revert hprev h. induction fuel as [|fuel IH]; intros hprev h Hh Hp' E; [discriminate|]. cbn [search] in E.
  destruct expand as [Br|] eqn:Ex; [injection E as <- <-; auto|].
  destruct t_lt eqn:Lt; [discriminate|]. apply IH in E; auto; [|lra].
  pose proof (next_step_val hprev ltac:(lra)). lra.
Qed.
Lemma search_step auto f (D A : cbox) t hmin fuel hprev h :
  tval (next_step (prec := prec) (emax := emax) (Hprec := Hprec) (Hemax := Hemax) hprev) < tval hmin \/
  search auto f D A t hmin fuel h (next_step (prec := prec) (emax := emax) (Hprec := Hprec) (Hemax := Hemax) hprev) <> Searching ->
  search auto f D A t hmin (S fuel) hprev h <> Searching.
Proof.
  intros H. cbn [search]. destruct expand; [discriminate|]. destruct t_lt eqn:Lt; [discriminate|].
  destruct H as [H|H]; auto. apply t_lt_iff in H. congruence.
Qed.
Lemma search_ends auto f (D A : cbox) t hmin : 0 < tval hmin ->
  forall k fuel hprev h c, (2 * k + 3 <= fuel)%nat -> 0 <= tval h <= c -> 0 <= tval hprev <= c -> c < tval hmin * 2 ^ k ->
  search auto f D A t hmin fuel hprev h <> Searching.
Proof.
  intros Hm. induction k as [|k IH]; intros fuel hprev h c Hf Hh Hp' Hc.
  - destruct fuel as [|fuel]; [lia|]. apply search_step. left. pose proof (next_step_val hprev ltac:(lra)). cbn in Hc. lra.
  - destruct fuel as [|[|fuel]]; [lia|lia|]. apply search_step. right. apply search_step. right.
    pose proof (next_step_val hprev ltac:(lra)). pose proof (next_step_val h ltac:(lra)).
    apply IH with (c := c / 2); try lia; try lra. cbn in Hc. lra.
Qed.
End Proofs.
