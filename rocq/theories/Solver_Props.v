(** Properties of the linear and nonlinear equation solvers. *)
From Coq Require Import ZArith Reals List Lra Lia Bool Arith.
From Flocq Require Import Core IEEE754.BinarySingleNaN.
From Verif Require Import Float_Model Float_Spec Float_Proofs Logical_Model Bounds_Model Bounds_Spec Bounds_Proofs.
From Verif Require Import Solver_Model Solver_Spec Solver_Float_Model Newton_Math Solver_LU_Proofs Solver_Proofs Solver_Loop_Proofs Solver_Float_Proofs.
Import ListNotations.
Local Open Scope R_scope.

(** Floats of any precision; [eps] is the machine epsilon, [me] the maximum error of the solver. *)
Section ANY.
  Context {prec emax : Z} {Hprec : Prec_gt_0 prec} {Hemax : Prec_lt_emax prec emax}.
  Notation fl := (binary_float prec emax).
  Variables (eps me : fl) (Fme : is_finite me = true).
  Notation P := (ck_ops eps me).
  Notation menc := (menc P fin_of). Notation venc := (venc P fin_of).
  Notation S0 := (ck_sound eps me Fme).

  (** ** C78: the inverse of an interval matrix *)
  Theorem C78_inverse : forall n A B, lu_inverse P n A = Some B ->
    forall a, menc n A a -> (exists b, inverses n a b) /\ (forall b, inverses n a b -> menc n B b).
  Proof using Fme.
    intros n A B H a Ha. split; [|intros b Hb; eapply (lu_inverse_all P fin_of _ S0); eassumption].
    destruct (lu_inverse_sound P fin_of _ S0 n A B a H Ha) as [b [_ Hb]]. exists b. exact Hb.
  Qed.

  (** ** C79: linear systems *)
  Theorem C79_linear_solve : forall n A b x, lu_solve P n A b = Some x ->
    forall a v, menc n A a -> venc n b v ->
      (exists y, veq n (mv n a y) v /\ forall y', veq n (mv n a y') v -> veq n y' y) /\
      (forall y, veq n (mv n a y) v -> venc n x y).
  Proof using Fme.
    intros n A b x H a v Ha Hv. split; [|intros y Hy; eapply (lu_solve_sound P fin_of _ S0); eassumption].
    unfold lu_solve in H. destruct (lu_inverse P n A) as [Ai|] eqn:E; [|discriminate].
    destruct (lu_inverse_sound P fin_of _ S0 n A Ai a E Ha) as [b' [_ Hb]]. exists (mv n b' v). split.
    - intros i Li. rewrite <- (mv_mm n a b' v i Li). destruct Hb as [Hb _]. apply (mv_id n (mm n a b') v Hb i Li).
    - intros y Hy i Li. apply (inverse_apply n a b' y v Hb Hy i Li).
  Qed.
  (** [J] is any preconditioning matrix, whether or not it is close to an inverse. *)
  Theorem C79_gauss_seidel : forall n J A b x, gs_solve P n J A b = Some x ->
    forall j a v, menc n J j -> menc n A a -> venc n b v ->
      (exists y, veq n (mv n a y) v /\ forall y', veq n (mv n a y') v -> veq n y' y) /\
      (forall y, veq n (mv n a y) v -> venc n x y).
  Proof using Fme.
    intros n J A b x H j a v Hj Ha Hv. split; [|intros y Hy; eapply (gs_solve_sound P fin_of _ S0); eassumption].
    unfold gs_solve in H. destruct (lu_solve P n A b) as [x0|] eqn:E; [|discriminate]. apply (C79_linear_solve n A b x0 E a v Ha Hv).
  Qed.

  Section FN.
    Variables (n : nat) (F : fn P) (f : vec -> vec) (D : vec -> mat).
    Hypotheses (HM : models P fin_of n F f D) (HS : smooth n f D).

    (** ** C80: one step of the interval Newton, Krawczyk and factored Krawczyk methods *)
    Theorem C80_step : forall s x x', step P s n F x = Some x' -> (exists v, venc n x v) ->
      (forall z, venc n x z -> is_zero n f z -> venc n x' z) /\
      (vrefines P n x' x = true -> exists z, venc n x z /\ venc n x' z /\ is_zero n f z) /\
      (vconsistent P n x' x = false -> forall z, venc n x z -> ~ is_zero n f z).
    Proof using Fme HM HS.
      intros s x x' H Hx. split; [intros; eapply (step_zero P fin_of _ S0); eassumption|]. split.
      - intros R. destruct (step_exists P fin_of _ S0 n F f D HM HS s x x' H Hx R) as [z [H1 H2]]. exists z. split; [exact H1|]. split; [|exact H2].
        eapply (step_zero P fin_of _ S0); eassumption.
      - intros C z Hz Zz. apply (vconsistent_false P fin_of _ S0 n _ _ z C); [eapply (step_zero P fin_of _ S0); eassumption|exact Hz].
    Qed.
    Theorem C80_unique : forall x z z', (exists B, lu_inverse P n (f_jac P F x) = Some B) ->
      venc n x z -> venc n x z' -> is_zero n f z -> is_zero n f z' -> veq n z z'.
    Proof using Fme HM HS. intros x z z' [B HB]. intros. eapply (jac_unique P fin_of _ S0); eassumption. Qed.

    (** ** C81: zero *)
    (** The box from which the last step starts may be larger than the box given: see
        [C81_outside_refuted]. *)
    Theorem C81_zero_partial : forall s steps bx, (exists v, venc n bx v) ->
      match zero P n s F steps bx with
      | Found x =>
          ((exists z, is_zero n f z /\ venc n x z /\ venc n bx z) /\ (forall i, (i < n)%nat -> exists l u, fin_of (x i) = Some (l, u) /\ (u - l) / 2 < B2R me) \/
           (exists r, (forall v, venc n r v -> venc n bx v) /\ exists z, is_zero n f z /\ venc n x z /\ venc n (fun i => nadd P (r i) (nwiden P n r)) z)) /\
          (forall z, is_zero n f z -> venc n bx z -> venc n x z)
      | NoSolution => forall z, is_zero n f z -> ~ venc n bx z
      | _ => True
      end.
    Proof using Fme HM HS. intros s steps bx Hb. apply (zero_loop_sound P fin_of _ S0 n F f D HM HS s steps false bx Hb). discriminate. Qed.
    Theorem C81_newton_unique : forall steps bx x, zero P n Newton F steps bx = Found P x ->
      forall z z', venc n bx z -> venc n bx z' -> is_zero n f z -> is_zero n f z' -> veq n z z'.
    Proof using Fme HM HS. intros steps bx x H z z' Hz Hz' Zz Zz'. eapply (zero_newton_unique P fin_of _ S0 n F f D HM HS); eassumption. Qed.

    (** ** C82: solve_all and solve *)
    Theorem C82_solve_all : forall fuel s steps bx ys gave_up, (exists v, venc n bx v) ->
      solve_all P fuel n s F steps bx = All P ys gave_up ->
      (forall y, In y ys -> exists z, is_zero n f z /\ venc n y z) /\
      (gave_up = false -> forall z, is_zero n f z -> venc n bx z -> exists y' y, venc n y' z /\ linked P fin_of n y' y /\ In y ys).
    Proof using Fme HM HS. intros. eapply (solve_all_sound P fin_of _ S0 n F f D HM HS); eassumption. Qed.
    Theorem C82_solve_partial : forall fuel s steps bx, (exists v, venc n bx v) ->
      (forall y, solve P fuel n s F steps bx = Solution P y -> exists z, is_zero n f z /\ venc n y z) /\
      (solve P fuel n s F steps bx = SNoSolution P -> solve_all P fuel n s F steps bx = All P [] false -> forall z, is_zero n f z -> ~ venc n bx z).
    Proof using Fme HM HS.
      intros fuel s steps bx Hb. unfold solve. split.
      - intros y H. destruct (solve_all P fuel n s F steps bx) as [[|y0 [|y1 ys]] g| |] eqn:E; try discriminate. injection H as <-.
        destruct (C82_solve_all _ _ _ _ _ _ Hb E) as [Q _]. apply Q. left. reflexivity.
      - intros _ H z Zz Hz. destruct (C82_solve_all _ _ _ _ _ _ Hb H) as [_ Q]. destruct (Q eq_refl z Zz Hz) as [_ [y [_ [_ []]]]].
    Qed.

    (** ** C83: fixed_point *)
    Theorem C83_fixed_point_partial : forall fuel s steps bx y, (exists v, venc n bx v) ->
      fixed_point P fuel n s F steps bx = Solution P y -> exists z, venc n y z /\ forall i, (i < n)%nat -> f z i = z i.
    Proof using Fme HM HS.
      intros fuel s steps bx y Hb H. unfold fixed_point, solve in H.
      destruct (solve_all P fuel n s (fn_minus_id P F) steps bx) as [[|y0 [|y1 ys]] g| |] eqn:E; try discriminate. injection H as <-.
      destruct (solve_all_sound P fin_of _ S0 n _ _ _ (fixed_models P fin_of _ S0 n F f D HM) (fixed_smooth n f D HS) fuel s steps bx [y0] g Hb E) as [Q _].
      destruct (Q y0 (or_introl eq_refl)) as [z [Z1 Z2]]. exists z. split; [exact Z2|]. intros i Li. specialize (Z1 i Li). cbn in Z1. lra.
    Qed.
  End FN.
End ANY.
Print Assumptions C78_inverse.
Print Assumptions C79_linear_solve.
Print Assumptions C79_gauss_seidel.
Print Assumptions C80_step.
Print Assumptions C80_unique.
Print Assumptions C81_zero_partial.
Print Assumptions C81_newton_unique.
Print Assumptions C82_solve_all.
Print Assumptions C82_solve_partial.
Print Assumptions C83_fixed_point_partial.

(** ** Examples and counterexamples in double precision *)
Definition feps : DP := dp 1 (-52).
Definition e4 : DP := dp 1 (-4).
Notation CK := (ck_ops feps e4).
Notation FL := (fl_ops feps e4).
Definition ivl (a ea b eb : Z) : bounds 53 1024 := mkB (dp a ea) (dp b eb).
Definition pt (a ea : Z) : bounds 53 1024 := b_of (dp a ea).
Lemma Fe4 : is_finite e4 = true. Proof. reflexivity. Qed.
Notation ven := (venc CK fin_of). Notation men := (menc CK fin_of).
Notation K := (ck_sound feps e4 Fe4).

(** The matrices ((1,2),(3,4)) with entries known up to 1/16. *)
Definition A2 : nat -> nat -> bounds 53 1024 := fun i j =>
  match i, j with 0%nat, 0%nat => ivl 15 (-4) 17 (-4) | 0%nat, _ => ivl 31 (-4) 33 (-4) | _, 0%nat => ivl 47 (-4) 49 (-4) | _, _ => ivl 63 (-4) 65 (-4) end.
Definition b2 : nat -> bounds 53 1024 := fun i => match i with 0%nat => pt 5 0 | _ => pt 11 0 end.
Example C78_nonvacuous :
  match lu_inverse CK 2 A2 with
  | Some B => fin_b (B 0%nat 0%nat) && b_refines (B 1%nat 1%nat) (ivl (-8) 0 8 0) && negb (b_refines (ivl (-1) 0 1 0) (B 1%nat 1%nat))
  | None => false
  end = true.
Proof. vm_compute. reflexivity. Qed.
Example C79_nonvacuous :
  match lu_solve CK 2 A2 b2, gs_solve CK 2 (nid CK) A2 b2 with
  | Some x, Some x' => b_refines (x 0%nat) (ivl (-20) 0 20 0) && b_refines (x' 1%nat) (x 1%nat)
  | _, _ => false
  end = true.
Proof. vm_compute. reflexivity. Qed.

(** Functions of one variable given by an interval evaluation and an interval derivative. *)
Definition fn1 (me : DP) (ev dv : bounds 53 1024 -> bounds 53 1024) : fn (ck_ops feps me) := mkFn (ck_ops feps me) (fun x _ => ev (x O)) (fun x _ _ => dv (x O)).
Notation en := (enc CK fin_of).
Lemma models1 : forall me ev dv (g dg : R -> R), (forall x v, en x v -> en (ev x) (g v) /\ en (dv x) (dg v)) ->
  models (ck_ops feps me) fin_of 1 (fn1 me ev dv) (fun x _ => g (x O)) (fun x _ _ => dg (x O)).
Proof. intros me ev dv g dg H x v Hx. destruct (H (x O) (v O) (Hx O (Nat.lt_0_succ 0))) as [H1 H2]. split; intros ? ?; intros; assumption. Qed.
Lemma smooth1 : forall g dg : R -> R, (forall x, derivable_pt_lim g x (dg x)) -> (forall x, derivable_pt dg x) -> smooth 1 (fun x _ => g (x O)) (fun x _ _ => dg (x O)).
Proof.
  intros g dg H Hd. split.
  - intros i y x t _ _. cbn [sum]. replace (0 + dg (seg y x t O) * (x O - y O)) with (dg (seg y x t O) * (0 + (1 * (x O - y O) + t * 0))) by ring.
    apply (derivable_pt_lim_comp (fun s => seg y x s O) g); [|apply H]. unfold seg.
    apply (derivable_pt_lim_plus (fun _ => y O) (fun s => s * (x O - y O))); [apply derivable_pt_lim_const|].
    apply (derivable_pt_lim_mult (fun s => s) (fun _ => x O - y O)); [apply derivable_pt_lim_id|apply derivable_pt_lim_const].
  - intros xl xu. destruct (Rle_or_lt (xl O) (xu O)) as [L|L].
    + assert (C : forall c, xl O <= c <= xu O -> continuity_pt dg c) by (intros; apply derivable_continuous_pt, Hd).
      destruct (continuity_ab_maj dg _ _ L C) as [M [HM _]]. destruct (continuity_ab_min dg _ _ L C) as [m [Hm _]].
      exists (Rmax (Rabs (dg M)) (Rabs (dg m))). intros v Hv i j _ _. specialize (Hv O (Nat.lt_0_succ 0)). specialize (HM _ Hv). specialize (Hm _ Hv).
      apply Rabs_le. pose proof (Rmax_l (Rabs (dg M)) (Rabs (dg m))). pose proof (Rmax_r (Rabs (dg M)) (Rabs (dg m))).
      pose proof (Rle_abs (dg M)). pose proof (Rle_abs (- dg m)). rewrite Rabs_Ropp in *. lra.
    + exists 0. intros v Hv. exfalso. specialize (Hv O (Nat.lt_0_succ 0)). lra.
Qed.
Lemma inhabited1 : forall X v, contains X v -> exists w, ven 1 (fun _ => X) w.
Proof. intros X v H. exists (fun _ => v). intros i _. apply (contains_en feps e4). exact H. Qed.
Lemma dp_contains : forall m e, is_finite (dp m e) = true -> contains (pt m e) (B2R (dp m e)).
Proof. intros. apply b_of_contains. assumption. Qed.
Lemma dpv : forall m e, (Z.abs m < 2^53)%Z -> (-1074 <= e <= 900)%Z -> B2R (dp m e) = IZR m * bpow radix2 e /\ is_finite (dp m e) = true.
Proof.
  intros m e Hm He. unfold dp. pose proof (binary_normalize_correct 53 1024 dp_prec dp_emax mode_NE m e false) as H.
  assert (FX : F2R (Float radix2 m e) = IZR m * bpow radix2 e) by reflexivity.
  assert (GF : generic_format radix2 (SpecFloat.fexp 53 1024) (F2R (Float radix2 m e))).
  { apply generic_format_FLT. exists (Float radix2 m e); [reflexivity|cbn; exact Hm|cbn; unfold SpecFloat.emin; lia]. }
  cbv zeta in H. rewrite round_generic in H; [|auto with typeclass_instances|exact GF].
  rewrite Rlt_bool_true in H.
  - destruct H as [H1 [H2 _]]. rewrite H1, FX. auto.
  - rewrite FX, Rabs_mult. rewrite (Rabs_pos_eq (bpow radix2 e)) by apply bpow_ge_0. rewrite <- abs_IZR.
    apply Rlt_le_trans with (bpow radix2 53 * bpow radix2 e).
    + apply Rmult_lt_compat_r; [apply bpow_gt_0|]. change (bpow radix2 53) with (IZR (2^53)). apply IZR_lt. exact Hm.
    + rewrite <- bpow_plus. apply bpow_le. lia.
Qed.
Lemma pt_en : forall m e, (Z.abs m < 2^53)%Z -> (-1074 <= e <= 900)%Z -> en (pt m e) (IZR m * bpow radix2 e).
Proof. intros m e Hm He. destruct (dpv m e Hm He) as [V F]. rewrite <- V. apply (contains_en feps e4). apply b_of_contains. exact F. Qed.
Lemma ivl_en : forall a b ea eb v, (Z.abs a < 2^53)%Z -> (Z.abs b < 2^53)%Z -> (-1074 <= ea <= 900)%Z -> (-1074 <= eb <= 900)%Z ->
  (en (ivl a ea b eb) v <-> IZR a * bpow radix2 ea <= v <= IZR b * bpow radix2 eb).
Proof.
  intros a b ea eb v Ha Hb Hea Heb. destruct (dpv a ea Ha Hea) as [V1 F1]. destruct (dpv b eb Hb Heb) as [V2 F2].
  unfold enc, fin_of, fin_b, ivl. cbn [b_l b_u]. rewrite F1, F2. cbn [andb]. rewrite V1, V2. reflexivity.
Qed.

(** x^2 - c on [1,2] and other polynomials.  Their interval evaluations use only the operations of the arithmetic. *)
Notation mul := (nmul CK). Notation sub := (nsub CK). Notation add := (nadd CK).
Definition quad (me : DP) (c : Z) : fn (ck_ops feps me) := fn1 me (fun x => sub (mul x x) (pt c 0)) (fun x => mul (pt 2 0) x).
Lemma quad_models : forall me c, (Z.abs c < 2^53)%Z -> models (ck_ops feps me) fin_of 1 (quad me c) (fun x _ => x O * x O - IZR c) (fun x _ _ => 2 * x O).
Proof.
  intros me c Hc. apply (models1 me _ _ (fun t => t * t - IZR c) (fun t => 2 * t)). intros x v Hx. split.
  - apply (s_sub _ _ _ K); [apply (s_mul _ _ _ K); assumption|]. replace (IZR c) with (IZR c * bpow radix2 0) by (cbn; ring). apply pt_en; lia.
  - apply (s_mul _ _ _ K); [|exact Hx]. replace 2 with (IZR 2 * bpow radix2 0) by (cbn; ring). apply pt_en; lia.
Qed.
Lemma quad_smooth : forall c, smooth 1 (fun x _ => x O * x O - c) (fun x _ _ => 2 * x O).
Proof.
  intros c. apply (smooth1 (fun t => t * t - c) (fun t => 2 * t)).
  - intros x. replace (2 * x) with ((1 * x + x * 1) - 0) by ring.
    apply (derivable_pt_lim_minus (fun t => t * t) (fun _ => c)); [|apply derivable_pt_lim_const].
    apply (derivable_pt_lim_mult (fun t => t) (fun t => t)); apply derivable_pt_lim_id.
  - intros x. exists (0 * x + 2 * 1). apply (derivable_pt_lim_mult (fun _ => 2) (fun t => t)); [apply derivable_pt_lim_const|apply derivable_pt_lim_id].
Qed.
Definition box (a ea b eb : Z) : nat -> bounds 53 1024 := fun _ => ivl a ea b eb.

(** x^2-2 on [1,2]: all three steps keep the box around the root of two, and the solvers find it. *)
Example C80_nonvacuous :
  forallb (fun s => match step CK s 1 (quad e4 2) (box 1 0 2 0) with Some x => vrefines CK 1 x (box 1 0 2 0) && negb (vsmall CK 1 (box 1 0 2 0)) | None => false end) [Newton; Krawczyk; Factored] = true /\
  models CK fin_of 1 (quad e4 2) (fun x _ => x O * x O - 2) (fun x _ _ => 2 * x O) /\ smooth 1 (fun x _ => x O * x O - 2) (fun x _ _ => 2 * x O) /\
  (exists v, ven 1 (box 1 0 2 0) v).
Proof.
  split; [vm_compute; reflexivity|]. split; [apply (quad_models e4 2); lia|]. split; [apply quad_smooth|].
  exists (fun _ => 1). intros i _. apply ivl_en; try lia. cbn. lra.
Qed.
Example C81_nonvacuous :
  forallb (fun s => match zero CK 1 s (quad e4 2) 8 (box 1 0 2 0) with Found x => vsmall CK 1 x && negb (vsmall CK 1 (box 1 0 2 0)) | _ => false end) [Newton; Krawczyk; Factored] = true /\
  forallb (fun s => match zero CK 1 s (quad e4 2) 8 (box 2 0 3 0) with NoSolution => true | _ => false end) [Newton; Krawczyk; Factored] = true.
Proof. split; vm_compute; reflexivity. Qed.
Example C82_nonvacuous :
  match solve_all CK 20 1 Newton (quad e4 2) 8 (box (-3) 0 4 0) with All ys g => Nat.eqb (length ys) 2 && negb g | _ => false end = true /\
  match solve CK 20 1 Newton (quad e4 2) 8 (box 0 0 4 0) with Solution y => b_refines (y O) (ivl 5 (-2) 6 (-2)) | _ => false end = true /\
  match solve CK 20 1 Newton (quad e4 2) 8 (box 2 0 4 0) with SNoSolution => true | _ => false end = true.
Proof. split; [vm_compute; reflexivity|]. split; vm_compute; reflexivity. Qed.
Example C83_nonvacuous :
  match fixed_point CK 20 1 Krawczyk (quad e4 1) 8 (box 1 0 2 0) with Solution y => b_refines (y O) (ivl 3 (-1) 2 0) | _ => false end = true.
Proof. vm_compute. reflexivity. Qed.

(** *** The solution promised inside the box may lie outside it *)
(** x + 2^-110, evaluated as 3x - 2x + 2^-110, on [0,1-2^-53]: after one step the box is
    widened beyond zero, and the zero proved to exist is the one at -2^-110. *)
Definition shifted (me : DP) : fn (ck_ops feps me) := fn1 me (fun x => add (sub (mul (pt 3 0) x) (mul (pt 2 0) x)) (pt 1 (-110))) (fun x => sub (pt 3 0) (pt 2 0)).
Definition tiny : R := bpow radix2 (-110).
Lemma shifted_models : forall me, models (ck_ops feps me) fin_of 1 (shifted me) (fun x _ => x O + tiny) (fun x _ _ => 1).
Proof.
  intros me. apply (models1 me _ _ (fun t => t + tiny) (fun _ => 1)). intros x v Hx.
  assert (E3 : en (pt 3 0) 3) by (replace 3 with (IZR 3 * bpow radix2 0) by (cbn; ring); apply pt_en; lia).
  assert (E2 : en (pt 2 0) 2) by (replace 2 with (IZR 2 * bpow radix2 0) by (cbn; ring); apply pt_en; lia).
  split.
  - replace (v + tiny) with ((3 * v - 2 * v) + 1 * bpow radix2 (-110)) by (unfold tiny; ring).
    apply (s_add _ _ _ K); [apply (s_sub _ _ _ K); apply (s_mul _ _ _ K); assumption|apply pt_en; lia].
  - replace 1 with (3 - 2) by ring. apply (s_sub _ _ _ K); assumption.
Qed.
Lemma shifted_smooth : smooth 1 (fun x _ => x O + tiny) (fun x _ _ => 1).
Proof.
  apply (smooth1 (fun t => t + tiny) (fun _ => 1)).
  - intros x. rewrite <- (Rplus_0_r 1). apply (derivable_pt_lim_plus (fun t => t) (fun _ => tiny)); [apply derivable_pt_lim_id|apply derivable_pt_lim_const].
  - intros x. exists 0. apply derivable_pt_lim_const.
Qed.
Definition unit_box : nat -> bounds 53 1024 := box 0 0 (2^53 - 1) (-53).
Lemma shifted_no_zero : forall z, is_zero 1 (fun x _ => x O + tiny) z -> ~ ven 1 unit_box z.
Proof.
  intros z Z H. specialize (Z O (Nat.lt_0_succ 0)). specialize (H O (Nat.lt_0_succ 0)). cbn beta in Z. unfold unit_box, box in H.
  apply ivl_en in H; try (cbn; lia). destruct H as [H _]. cbn [Z.abs] in H. rewrite Rmult_0_l in H. pose proof (bpow_gt_0 radix2 (-110)) as B. fold tiny in B. lra.
Qed.
Theorem C81_outside_refuted : exists F f D bx x,
  models CK fin_of 1 F f D /\ smooth 1 f D /\ (exists v, ven 1 bx v) /\
  zero CK 1 Newton F 1 bx = Found CK x /\ (forall z, is_zero 1 f z -> ~ ven 1 bx z).
Proof.
  exists (shifted e4), (fun x _ => x O + tiny), (fun x _ _ => 1), unit_box.
  assert (Q : match zero CK 1 Newton (shifted e4) 1 unit_box with Found _ => true | _ => false end = true) by (vm_compute; reflexivity).
  destruct (zero CK 1 Newton (shifted e4) 1 unit_box) as [x| | |] eqn:E; try discriminate Q. exists x.
  split; [apply shifted_models|]. split; [apply shifted_smooth|]. split; [|split; [reflexivity|apply shifted_no_zero]].
  exists (fun _ => 0). intros i _. unfold unit_box, box. apply ivl_en; try (cbn; lia). cbn. lra.
Qed.
Print Assumptions C81_outside_refuted.

(** *** The result may be wider than the maximum error *)
Definition e200 : DP := dp 1 (-200).
Theorem C81_precision_refuted : exists F f D bx x l u,
  models (ck_ops feps e200) fin_of 1 F f D /\ smooth 1 f D /\ (exists v, ven 1 bx v) /\
  zero (ck_ops feps e200) 1 Newton F 1 bx = Found (ck_ops feps e200) x /\ fin_of (x O) = Some (l, u) /\ B2R e200 < (u - l) / 2.
Proof.
  assert (Q : match zero (ck_ops feps e200) 1 Newton (shifted e200) 1 unit_box with
              | Found x => fin_b (x O) && flt_le (b_l (x O)) (dp (-1) (-150)) && flt_le (dp 0 0) (b_u (x O)) | _ => false end = true) by (vm_compute; reflexivity).
  destruct (zero (ck_ops feps e200) 1 Newton (shifted e200) 1 unit_box) as [x| | |] eqn:E; try discriminate Q.
  apply andb_prop in Q. destruct Q as [Q Q3]. apply andb_prop in Q. destruct Q as [Q1 Q2].
  exists (shifted e200), (fun x _ => x O + tiny), (fun x _ _ => 1), unit_box, x, (B2R (b_l (x O))), (B2R (b_u (x O))).
  split; [apply shifted_models|]. split; [apply shifted_smooth|]. split; [exists (fun _ => 0); intros i _; unfold unit_box, box; apply ivl_en; try (cbn; lia); cbn; lra|].
  split; [exact E|]. split; [unfold fin_of; rewrite Q1; reflexivity|].
  destruct (fin_bE _ Q1) as [F G]. destruct (dpv (-1) (-150)) as [V1 F1]; [lia|lia|]. destruct (dpv 0 0) as [V2 F2]; [lia|lia|]. destruct (dpv 1 (-200)) as [V3 F3]; [lia|lia|].
  apply (flt_le_finite _ _ F F1) in Q2. apply (flt_le_finite _ _ F2 G) in Q3. rewrite V1 in Q2. rewrite V2 in Q3. unfold e200. rewrite V3.
  assert (L : bpow radix2 (-200) < bpow radix2 (-151)) by (apply bpow_lt; lia).
  assert (L2 : bpow radix2 (-150) = 2 * bpow radix2 (-151)) by (change (-150)%Z with (-151 + 1)%Z; rewrite bpow_plus; cbn; ring).
  lra.
Qed.
Print Assumptions C81_precision_refuted.

(** *** With the arithmetic the code runs, a NaN is taken for a proof that there is no solution *)
(** 2^-1074 x on [-1,1], which vanishes at zero: the reciprocal of the derivative overflows. *)
Definition slight : fn FL := mkFn FL (fun x _ => b_mul (pt 1 (-1074)) (x O)) (fun x _ _ => pt 1 (-1074)).
Theorem C81_nan_refuted :
  (forall x v, (forall i, finite_bounds (x i)) -> contains (x O) v ->
     contains (f_ev FL slight x O) (bpow radix2 (-1074) * v) /\ contains (f_jac FL slight x O O) (bpow radix2 (-1074))) /\
  (bpow radix2 (-1074) * 0 = 0 /\ contains (box (-1) 0 1 0 O) 0) /\
  (forall s, zero FL 1 s slight 8 (box (-1) 0 1 0) = NoSolution FL).
Proof.
  assert (C : contains (pt 1 (-1074)) (bpow radix2 (-1074))).
  { destruct (dpv 1 (-1074)) as [V F]; [lia|lia|]. rewrite Rmult_1_l in V. rewrite <- V. apply b_of_contains. exact F. }
  split; [|split].
  - intros x v Fx Hv. split; [|exact C]. cbn [f_ev slight]. apply b_mul_contains; [exact C|exact Hv|]. eapply b_mul_no_nan; [exact C|exact Hv| |apply Fx]. split; vm_compute; reflexivity.
  - split; [ring|]. apply (en_contains feps e4); [vm_compute; reflexivity|]. unfold box. apply ivl_en; try lia. cbn. lra.
  - assert (Q : forall s, match zero FL 1 s slight 8 (box (-1) 0 1 0) with NoSolution => true | _ => false end = true) by (intros []; vm_compute; reflexivity).
    intros s. specialize (Q s). destruct (zero FL 1 s slight 8 (box (-1) 0 1 0)); try discriminate Q. reflexivity.
Qed.
Print Assumptions C81_nan_refuted.

(** *** solve: a box given up counts as having no solution *)
Lemma sym_inhabited : forall k, (-1074 <= k <= 900)%Z -> ven 1 (box (-1) k 1 k) (fun _ => 0).
Proof. intros k Hk i _. unfold box. apply ivl_en; try lia. pose proof (bpow_gt_0 radix2 k). lra. Qed.
(** NoSolutionException for x^2 on [-1,1], although x = 0 is a solution. *)
Theorem C82_no_solution_refuted : exists F f D bx z,
  models CK fin_of 1 F f D /\ smooth 1 f D /\ is_zero 1 f z /\ ven 1 bx z /\ solve CK 20 1 Newton F 8 bx = SNoSolution CK.
Proof.
  exists (quad e4 0), (fun x _ => x O * x O - 0), (fun x _ _ => 2 * x O), (box (-1) 0 1 0), (fun _ => 0).
  split; [apply (quad_models e4 0); lia|]. split; [apply quad_smooth|]. split; [intros i _; cbn; ring|]. split; [apply sym_inhabited; lia|].
  assert (Q : match solve CK 20 1 Newton (quad e4 0) 8 (box (-1) 0 1 0) with SNoSolution => true | _ => false end = true) by (vm_compute; reflexivity).
  destruct (solve CK 20 1 Newton (quad e4 0) 8 (box (-1) 0 1 0)); try discriminate Q. reflexivity.
Qed.
Print Assumptions C82_no_solution_refuted.
(** A SingularMatrixException, which is not a SolverException, for x^2 on [-1/32,1/32]. *)
Theorem C82_singular_refuted : exists F f D bx z,
  models CK fin_of 1 F f D /\ smooth 1 f D /\ is_zero 1 f z /\ ven 1 bx z /\ solve CK 20 1 Newton F 8 bx = SSingular CK.
Proof.
  exists (quad e4 0), (fun x _ => x O * x O - 0), (fun x _ _ => 2 * x O), (box (-1) (-5) 1 (-5)), (fun _ => 0).
  split; [apply (quad_models e4 0); lia|]. split; [apply quad_smooth|]. split; [intros i _; cbn; ring|]. split; [apply sym_inhabited; lia|].
  assert (Q : match solve CK 20 1 Newton (quad e4 0) 8 (box (-1) (-5) 1 (-5)) with SSingular => true | _ => false end = true) by (vm_compute; reflexivity).
  destruct (solve CK 20 1 Newton (quad e4 0) 8 (box (-1) (-5) 1 (-5))); try discriminate Q. reflexivity.
Qed.
Print Assumptions C82_singular_refuted.

(** A single solution is returned for x^2 (x-3) on [-1,4], which has the solutions 0 and 3. *)
Definition cubic : fn CK := fn1 e4 (fun x => mul (mul x x) (sub x (pt 3 0))) (fun x => mul (mul (pt 3 0) x) (sub x (pt 2 0))).
Theorem C82_unique_refuted : exists F f D bx y z z',
  models CK fin_of 1 F f D /\ smooth 1 f D /\ solve CK 20 1 Newton F 8 bx = Solution CK y /\
  is_zero 1 f z /\ ven 1 bx z /\ is_zero 1 f z' /\ ven 1 bx z' /\ ~ veq 1 z z' /\ ~ ven 1 y z.
Proof.
  set (g := fun t => t * t * (t - 3)). set (dg := fun t => 3 * t * (t - 2)).
  assert (Q : match solve CK 20 1 Newton cubic 8 (box (-1) 0 4 0) with Solution y => fin_b (y O) && gt0 (b_l (y O)) | _ => false end = true) by (vm_compute; reflexivity).
  destruct (solve CK 20 1 Newton cubic 8 (box (-1) 0 4 0)) as [y| | | |] eqn:E; try discriminate Q. apply andb_prop in Q. destruct Q as [Q1 Q2].
  exists cubic, (fun x _ => g (x O)), (fun x _ _ => dg (x O)), (box (-1) 0 4 0), y, (fun _ => 0), (fun _ => 3).
  split; [|split; [|split; [exact E|]]].
  - apply (models1 e4 _ _ g dg). intros x v Hx.
    assert (E3 : en (pt 3 0) 3) by (replace 3 with (IZR 3 * bpow radix2 0) by (cbn; ring); apply pt_en; lia).
    assert (E2 : en (pt 2 0) 2) by (replace 2 with (IZR 2 * bpow radix2 0) by (cbn; ring); apply pt_en; lia).
    split; unfold g, dg; apply (s_mul _ _ _ K); try (apply (s_mul _ _ _ K); assumption); apply (s_sub _ _ _ K); assumption.
  - apply (smooth1 g dg).
    + intros x. unfold g, dg. replace (3 * x * (x - 2)) with ((1 * x + x * 1) * (x - 3) + x * x * (1 - 0)) by ring.
      apply (derivable_pt_lim_mult (fun t => t * t) (fun t => t - 3)); [apply (derivable_pt_lim_mult (fun t => t) (fun t => t)); apply derivable_pt_lim_id|].
      apply (derivable_pt_lim_minus (fun t => t) (fun _ => 3)); [apply derivable_pt_lim_id|apply derivable_pt_lim_const].
    + intros x. exists ((0 * x + 3 * 1) * (x - 2) + 3 * x * (1 - 0)). unfold dg.
      apply (derivable_pt_lim_mult (fun t => 3 * t) (fun t => t - 2)); [apply (derivable_pt_lim_mult (fun _ => 3) (fun t => t)); [apply derivable_pt_lim_const|apply derivable_pt_lim_id]|].
      apply (derivable_pt_lim_minus (fun t => t) (fun _ => 2)); [apply derivable_pt_lim_id|apply derivable_pt_lim_const].
  - split; [intros i _; unfold g; ring|]. split; [intros i _; unfold box; apply ivl_en; try lia; cbn; lra|].
    split; [intros i _; unfold g; ring|]. split; [intros i _; unfold box; apply ivl_en; try lia; cbn; lra|].
    split; [intros H; specialize (H O (Nat.lt_0_succ 0)); cbn in H; lra|].
    intros H. specialize (H O (Nat.lt_0_succ 0)). apply (en_contains feps e4 _ _ Q1) in H. destruct H as [H _]. destruct (fin_bE _ Q1) as [F _].
    apply (below_finite _ _ F) in H. apply (flt_lt_finite (fzero : DP) _ eq_refl F) in Q2. cbn in Q2. lra.
Qed.
Print Assumptions C82_unique_refuted.

(** The order used for sets of solutions is not a strict weak order: not being less either
    way is not transitive, as std::set requires. *)
Theorem C82_order_refuted : exists x y z : nat -> bounds 53 1024,
  equivalent FL 1 x y = true /\ equivalent FL 1 y z = true /\ equivalent FL 1 x z = false.
Proof. exists (box 0 0 2 0), (box 1 0 3 0), (box 5 (-1) 4 0). split; [|split]; vm_compute; reflexivity. Qed.
Print Assumptions C82_order_refuted.

(** fixed_point inherits the failures of solve: x^2 + x has the fixed point 0 in [-1,1]. *)
Definition parabola : fn CK := fn1 e4 (fun x => add (mul x x) x) (fun x => add (mul (pt 2 0) x) (pt 1 0)).
Theorem C83_fixed_point_refuted : exists F f D bx z,
  models CK fin_of 1 F f D /\ smooth 1 f D /\ f z O = z O /\ ven 1 bx z /\ fixed_point CK 20 1 Newton F 8 bx = SNoSolution CK.
Proof.
  exists parabola, (fun x _ => x O * x O + x O), (fun x _ _ => 2 * x O + 1), (box (-1) 0 1 0), (fun _ => 0).
  split; [|split; [|split; [|split]]].
  - apply (models1 e4 _ _ (fun t => t * t + t) (fun t => 2 * t + 1)). intros x v Hx. split.
    + apply (s_add _ _ _ K); [apply (s_mul _ _ _ K)|]; assumption.
    + apply (s_add _ _ _ K); [apply (s_mul _ _ _ K); [|exact Hx]|].
      * replace 2 with (IZR 2 * bpow radix2 0) by (cbn; ring). apply pt_en; lia.
      * replace 1 with (IZR 1 * bpow radix2 0) by (cbn; ring). apply pt_en; lia.
  - apply (smooth1 (fun t => t * t + t) (fun t => 2 * t + 1)).
    + intros x. replace (2 * x + 1) with ((1 * x + x * 1) + 1) by ring.
      apply (derivable_pt_lim_plus (fun t => t * t) (fun t => t)); [|apply derivable_pt_lim_id]. apply (derivable_pt_lim_mult (fun t => t) (fun t => t)); apply derivable_pt_lim_id.
    + intros x. exists ((0 * x + 2 * 1) + 0). apply (derivable_pt_lim_plus (fun t => 2 * t) (fun _ => 1)); [|apply derivable_pt_lim_const].
      apply (derivable_pt_lim_mult (fun _ => 2) (fun t => t)); [apply derivable_pt_lim_const|apply derivable_pt_lim_id].
  - ring.
  - apply sym_inhabited; lia.
  - assert (Q : match fixed_point CK 20 1 Newton parabola 8 (box (-1) 0 1 0) with SNoSolution => true | _ => false end = true) by (vm_compute; reflexivity).
    destruct (fixed_point CK 20 1 Newton parabola 8 (box (-1) 0 1 0)); try discriminate Q. reflexivity.
Qed.
Print Assumptions C83_fixed_point_refuted.
