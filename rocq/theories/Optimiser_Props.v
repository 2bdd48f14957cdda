(** Properties of the feasibility tests of the nonlinear optimisers. *)
From Coq Require Import ZArith Reals List Lra Lia Bool Arith FunctionalExtensionality.
From Flocq Require Import Core IEEE754.BinarySingleNaN.
From Verif Require Import Float_Model Float_Spec Float_Proofs Logical_Model Bounds_Model Bounds_Spec Bounds_Proofs.
From Verif Require Import Solver_Model Solver_Spec Solver_Float_Model Newton_Math Solver_LU_Proofs Solver_Proofs Solver_Float_Proofs.
From Verif Require Import Optimiser_Model Optimiser_Spec Optimiser_Proofs Optimiser_Float_Model Optimiser_Float_Proofs.
From Verif Require Solver_Props.
Import ListNotations.
Local Open Scope R_scope.

(** Floats of any precision; [g] is any interval extension of a differentiable function
    [f : R^n -> R^m] with Jacobian [Df]. *)
Section ANY.
  Context {prec emax : Z} {Hprec : Prec_gt_0 prec} {Hemax : Prec_lt_emax prec emax}.
  Notation fl := (binary_float prec emax).
  Variables (eps me : fl) (Fme : is_finite me = true).
  Notation P := (ck_ops eps me). Notation X := (fl_x eps me).
  Notation venc := (venc P fin_of).
  Notation feasible_point := (feasible_for P X in_ivl). Notation infeasible := (infeasible_problem P X in_ivl). Notation in_box := (in_box P X in_ivl).
  Variables (n m : nat) (g : gfn P X) (f : vec -> vec) (Df : vec -> mat).
  Hypotheses (HE : encloses P X fin_of (@B2R prec emax) in_ivl contains n m g f Df) (HS : smooth_map n m f Df).
  Variables (D C : nat -> fl * fl).
  Notation S0 := (ck_sound eps me Fme). Notation SX := (fl_x_sound eps me).

  (** ** C134: is_feasible_point *)
  Theorem C134_feasible_point : forall x, is_feasible_point P X n m D g C x = true -> feasible_point n m D f C (fun j => B2R (x j)).
  Proof using HE. exact (is_feasible_point_sound P fin_of X _ _ _ SX n m g f Df HE D C). Qed.

  (** ** C135: contains_feasible_point *)
  Theorem C135_no_feasible_point : forall L x, contains_feasible_point P X n m D g C L x = Answer FALSE -> forall v, venc n x v -> ~ feasible_point n m D f C v.
  Proof using HE. exact (contains_false_sound P fin_of X _ _ _ SX n m g f Df HE D C). Qed.
  (** The answer true is right if the box is inside [D] and satisfies the inequality constraints:
      see [C135_contains_refuted]. *)
  Theorem C135_contains_partial : forall L x, contains_feasible_point P X n m D g C L x = Answer TRUE -> (exists v, venc n x v) ->
    (forall v, venc n x v -> in_box n D v) ->
    (forall v i, venc n x v -> (i < m)%nat -> (exists a b, in_ivl (C i) a /\ in_ivl (C i) b /\ a < b) -> in_ivl (C i) (f v i)) ->
    (forall i, (i < m)%nat -> exists a, in_ivl (C i) a) -> (forall i, (i < m)%nat -> is_finite (fst (C i)) = true /\ is_finite (snd (C i)) = true) ->
    exists v, venc n x v /\ feasible_point n m D f C v.
  Proof using HE HS Fme.
    intros L x H Hx HD HC HN HF. apply (contains_true_sound P fin_of _ S0 X _ _ _ SX n m g f Df HE D C HS L x H Hx HD).
    intros v i Hv Li Ns. apply HC; [exact Hv|exact Li|]. destruct (HN i Li) as [a [A1 A2]]. destruct (HF i Li) as [F1 F2]. cbn [b_l b_u] in *.
    apply (below_finite _ _ F1) in A1. apply (above_finite _ _ F2) in A2.
    cbn [x_single fl_x] in Ns. unfold fx_single in Ns. rewrite F1, F2 in Ns. cbn [andb] in Ns.
    assert (Q : B2R (fst (C i)) <> B2R (snd (C i))).
    { intros E. apply (flt_eq_finite _ _ F1 F2) in E. unfold Box_Model.i_is_singleton in Ns. cbn in Ns. rewrite E in Ns. discriminate. }
    exists (B2R (fst (C i))), (B2R (snd (C i))). split; [|split].
    - split; cbn [b_l b_u]; [apply below_finite; [exact F1|lra]|apply above_finite; [exact F2|lra]].
    - split; cbn [b_l b_u]; [apply below_finite; [exact F1|lra]|apply above_finite; [exact F2|lra]].
    - lra.
  Qed.

  (** ** C136: validate_feasibility *)
  (** Missing: the point need not be in [D], see [C136_validate_refuted]. *)
  Theorem C136_validate_partial : forall x0, validate_feasibility P X n m D g C x0 = Answer TRUE -> exists v, in_box m C (f v).
  Proof using HE HS Fme. exact (validate_sound P fin_of _ S0 X _ _ _ SX n m g f Df HE D C HS). Qed.

  (** ** C137: certificates of infeasibility *)
  Theorem C137_certificate : forall ny y, is_infeasibility_certificate P X n m ny D g C y = true -> infeasible n m D f C.
  Proof using HE. exact (certificate_sound P fin_of X _ _ _ SX n m g f Df HE D C). Qed.
  Theorem C137_validate_infeasibility_partial : forall x y, in_box n D (fun j => B2R (x j)) -> validate_infeasibility P X n m D g C x y = true -> infeasible n m D f C.
  Proof using HE HS. exact (validate_infeasibility_sound P fin_of X _ _ _ SX n m g f Df HE D C HS). Qed.

  (** ** C138: the interior-point optimiser, whatever its iterates *)
  Theorem C138_feasible_partial : forall its,
    (feasible P X n m D g C its = Answer FALSE -> infeasible n m D f C) /\
    (feasible P X n m D g C its = Answer TRUE -> exists v, in_box m C (f v)).
  Proof using HE HS Fme. intros its. apply (feasible_loop_sound P fin_of _ S0 X _ _ _ SX n m g f Df HE D C HS). Qed.
  Theorem C138_minimise_partial : forall its x0,
    (minimise P X n m D g C its x0 = Infeasible P -> infeasible n m D f C) /\
    (forall x, minimise P X n m D g C its x0 = Point P x -> exists v, in_box m C (f v)).
  Proof using HE HS Fme. exact (minimise_sound P fin_of _ S0 X _ _ _ SX n m g f Df HE D C HS). Qed.

  (** ** C139: almost_feasible_point *)
  (** The error makes no difference, see [C139_almost_refuted]. *)
  Theorem C139_almost_partial : forall x e, almost_feasible_point P X n m D g C x e = true ->
    in_box n D (fun j => B2R (x j)) /\ in_box m C (fun i => B2R (g_approx P X g x i)).
  Proof using.
    intros x e H. unfold almost_feasible_point in H. destruct (box_has P X n D x) eqn:B; [|discriminate]. cbn [negb] in H.
    split; [apply (box_has_in P fin_of X _ _ _ SX); exact B|]. intros i Li. apply (x_has_ok _ _ _ _ _ _ SX). apply (all_below_true m _ H i Li).
  Qed.
End ANY.
Print Assumptions C134_feasible_point.
Print Assumptions C135_no_feasible_point.
Print Assumptions C135_contains_partial.
Print Assumptions C136_validate_partial.
Print Assumptions C137_certificate.
Print Assumptions C137_validate_infeasibility_partial.
Print Assumptions C138_feasible_partial.
Print Assumptions C138_minimise_partial.
Print Assumptions C139_almost_partial.

(** ** Examples and counterexamples in double precision: quadratic constraints in one unknown,
    f_i(x) = a_i + b_i x + c_i x^2 *)
Definition feps : DP := dp 1 (-52).
Definition fme : DP := dp 1 (-4).
Notation OP := (ck_ops feps fme). Notation OX := (fl_x feps fme).
Lemma Ffme : is_finite fme = true. Proof. reflexivity. Qed.
Notation K := (ck_sound feps fme Ffme). Notation KX := (fl_x_sound feps fme).

Definition coef := (DP * DP * DP)%type.
Definition qf (c : nat -> coef) (v : vec) : vec := fun i => let '(a0, a1, a2) := c i in B2R a0 + B2R a1 * v O + B2R a2 * (v O * v O).
Definition qD (c : nat -> coef) (v : vec) : mat := fun i j => let '(a0, a1, a2) := c i in B2R a1 + B2R a2 * (v O + v O).
Definition q_ev (c : nat -> coef) (x : nat -> num OP) (i : nat) : num OP :=
  let '(a0, a1, a2) := c i in nadd OP (nadd OP (x_num OX a0) (nmul OP (x_num OX a1) (x O))) (nmul OP (x_num OX a2) (nmul OP (x O) (x O))).
Definition quad (m : nat) (c : nat -> coef) : gfn OP OX := mkG OP OX
  (q_ev c)
  (fun x i _ => let '(a0, a1, a2) := c i in nadd OP (x_num OX a1) (nmul OP (x_num OX a2) (nadd OP (x O) (x O))))
  (fun x i => let '(a0, a1, a2) := c i in u_add OX (u_add OX (u_pt OX a0) (u_mul OX (u_pt OX a1) (x O))) (u_mul OX (u_pt OX a2) (u_mul OX (x O) (x O))))
  (fun x i _ => let '(a0, a1, a2) := c i in u_add OX (u_pt OX a1) (u_mul OX (u_pt OX a2) (u_add OX (x O) (x O))))
  (fun y D => nsum OP m (fun i => nmul OP (x_num OX (y i)) (q_ev c (fun j => x_cast OX (D j)) i)))
  (fun x i => let '(a0, a1, a2) := c i in fadd near (fadd near a0 (fmul near a1 (x O))) (fmul near a2 (fmul near (x O) (x O)))).
Notation inI := (@in_ivl 53 1024).
Lemma q_ev_enc : forall c x v i, venc OP fin_of 1 x v -> enc OP fin_of (q_ev c x i) (qf c v i).
Proof.
  intros c x v i Hx. specialize (Hx O ltac:(lia)). unfold q_ev, qf. destruct (c i) as [[a0 a1] a2].
  apply (s_add _ _ _ K); [apply (s_add _ _ _ K); [apply (x_num_ok _ _ _ _ _ _ KX)|]|]; apply (s_mul _ _ _ K); try apply (x_num_ok _ _ _ _ _ _ KX); [exact Hx|apply (s_mul _ _ _ K); exact Hx].
Qed.
Lemma quad_encloses : forall m c, encloses OP OX fin_of (@B2R 53 1024) inI contains 1 m (quad m c) (qf c) (qD c).
Proof.
  intros m c. constructor.
  - intros x v i Hx _. apply q_ev_enc. exact Hx.
  - intros x v i j Hx _ Lj. specialize (Hx O ltac:(lia)). cbn [quad g_jac]. unfold qD. destruct (c i) as [[a0 a1] a2].
    apply (s_add _ _ _ K); [apply (x_num_ok _ _ _ _ _ _ KX)|]. apply (s_mul _ _ _ K); [apply (x_num_ok _ _ _ _ _ _ KX)|apply (s_add _ _ _ K); exact Hx].
  - intros x v i Hx _. specialize (Hx O ltac:(lia)). cbn [quad g_apply]. unfold qf. destruct (c i) as [[a0 a1] a2].
    apply (u_add_ok _ _ _ _ _ _ KX); [apply (u_add_ok _ _ _ _ _ _ KX); [apply (u_pt_ok _ _ _ _ _ _ KX)|]|]; apply (u_mul_ok _ _ _ _ _ _ KX); try apply (u_pt_ok _ _ _ _ _ _ KX); [exact Hx|apply (u_mul_ok _ _ _ _ _ _ KX); exact Hx].
  - intros x v i j Hx _ Lj. specialize (Hx O ltac:(lia)). cbn [quad g_jrange]. unfold qD. destruct (c i) as [[a0 a1] a2].
    apply (u_add_ok _ _ _ _ _ _ KX); [apply (u_pt_ok _ _ _ _ _ _ KX)|]. apply (u_mul_ok _ _ _ _ _ _ KX); [apply (u_pt_ok _ _ _ _ _ _ KX)|apply (u_add_ok _ _ _ _ _ _ KX); exact Hx].
  - intros y D v Hv. cbn [quad g_taylor]. apply (nsum_enc OP fin_of _ K). intros i _. apply (s_mul _ _ _ K); [apply (x_num_ok _ _ _ _ _ _ KX)|].
    apply q_ev_enc. intros j Lj. apply (x_cast_ok _ _ _ _ _ _ KX). apply Hv. exact Lj.
Qed.
Lemma quad_smooth : forall m c, smooth_map 1 m (qf c) (qD c).
Proof.
  intros m c. split.
  - intros i y x t Li _. unfold qf, qD. destruct (c i) as [[a0 a1] a2]. cbn [sum]. unfold seg.
    set (A := B2R a0). set (B := B2R a1). set (E := B2R a2). set (d := x O - y O).
    replace (0 + (B + E * (y O + t * d + (y O + t * d))) * d) with (0 + B * d + E * (d * (y O + t * d) + (y O + t * d) * d)) by ring.
    assert (Q : derivable_pt_lim (fun s => y O + s * d) t d).
    { clearbody d. enough (G : derivable_pt_lim (fun s => y O + s * d) t (0 + (1 * d + t * 0))) by (replace (0 + (1 * d + t * 0)) with d in G by ring; exact G).
      apply (derivable_pt_lim_plus (fun _ => y O) (fun s => s * d)); [apply derivable_pt_lim_const|].
      apply (derivable_pt_lim_mult (fun s => s) (fun _ => d)); [apply derivable_pt_lim_id|apply derivable_pt_lim_const]. }
    apply (derivable_pt_lim_plus (fun s => A + B * (y O + s * d)) (fun s => E * ((y O + s * d) * (y O + s * d)))).
    + apply (derivable_pt_lim_plus (fun _ => A) (fun s => B * (y O + s * d))); [apply derivable_pt_lim_const|apply (derivable_pt_lim_scal (fun s => y O + s * d)); exact Q].
    + apply (derivable_pt_lim_scal (fun s => (y O + s * d) * (y O + s * d))). apply (derivable_pt_lim_mult (fun s => y O + s * d) (fun s => y O + s * d)); exact Q.
  - intros xl xu.
    set (b := fun i => let '(a0, a1, a2) := c i in Rabs (B2R a1) + Rabs (B2R a2) * (2 * (Rabs (xl O) + Rabs (xu O)))).
    assert (Hb : forall i, 0 <= b i) by (intros i; unfold b; destruct (c i) as [[a0 a1] a2]; pose proof (Rabs_pos (B2R a1)); pose proof (Rabs_pos (B2R a2)); pose proof (Rabs_pos (xl O)); pose proof (Rabs_pos (xu O)); nra).
    exists (sum m b). intros v Hv i j Li Lj. apply Rle_trans with (b i); [|apply sum_term; auto].
    specialize (Hv O ltac:(lia)). unfold qD, b. destruct (c i) as [[a0 a1] a2]. eapply Rle_trans; [apply Rabs_triang|]. apply Rplus_le_compat_l. rewrite Rabs_mult. apply Rmult_le_compat_l; [apply Rabs_pos|].
    pose proof (Rle_abs (xu O)). pose proof (Rle_abs (- xl O)). rewrite Rabs_Ropp in *. pose proof (Rabs_pos (xl O)). pose proof (Rabs_pos (xu O)). apply Rabs_le. lra.
Qed.

Definition z_ (a : Z) : DP := dp a 0.
Definition hf_ (a : Z) : DP := dp a (-1).
Definition qu_ (a : Z) : DP := dp a (-2).
Definition lin : nat -> coef := fun _ => (z_ 0, z_ 1, z_ 0).
Definition sqr : nat -> coef := fun _ => (z_ 0, z_ 0, z_ 1).
Definition one_i (l u : DP) : nat -> DP * DP := fun _ => (l, u).
Lemma inI_iff : forall a ea b eb v, (Z.abs a < 2^53)%Z -> (Z.abs b < 2^53)%Z -> (-1074 <= ea <= 900)%Z -> (-1074 <= eb <= 900)%Z ->
  (inI (dp a ea, dp b eb) v <-> IZR a * bpow radix2 ea <= v <= IZR b * bpow radix2 eb).
Proof.
  intros a ea b eb v Ha Hb Hea Heb. destruct (Solver_Props.dpv a ea Ha Hea) as [V1 F1]. destruct (Solver_Props.dpv b eb Hb Heb) as [V2 F2].
  unfold in_ivl, contains. cbn [b_l b_u fst snd]. rewrite (below_finite _ _ F1), (above_finite _ _ F2), V1, V2. reflexivity.
Qed.
Lemma dpR : forall a e, (Z.abs a < 2^53)%Z -> (-1074 <= e <= 900)%Z -> B2R (dp a e) = IZR a * bpow radix2 e.
Proof. intros a e Ha He. apply (Solver_Props.dpv a e Ha He). Qed.
Ltac ii := apply inI_iff; [cbn; lia|cbn; lia|lia|lia|cbn; try lra].
Ltac ei H := rewrite inI_iff in H by (cbn; lia); cbn in H.
Lemma lin_at : forall v i, qf lin v i = v O.
Proof. intros v i. unfold qf, lin, z_. rewrite !dpR by (cbn; lia). cbn. lra. Qed.
Lemma sqr_at : forall v i, qf sqr v i = v O * v O.
Proof. intros v i. unfold qf, sqr, z_. rewrite !dpR by (cbn; lia). cbn. lra. Qed.
Notation feas := (feasible_for OP OX inI). Notation infeas := (infeasible_problem OP OX inI).
Definition ivb (l u : DP) : nat -> num OP := fun _ => mkB l u.
Lemma ivb_en : forall a ea b eb v, (Z.abs a < 2^53)%Z -> (Z.abs b < 2^53)%Z -> (-1074 <= ea <= 900)%Z -> (-1074 <= eb <= 900)%Z ->
  (venc OP fin_of 1 (ivb (dp a ea) (dp b eb)) v <-> IZR a * bpow radix2 ea <= v O <= IZR b * bpow radix2 eb).
Proof.
  intros a ea b eb v Ha Hb Hea Heb. destruct (Solver_Props.dpv a ea Ha Hea) as [V1 F1]. destruct (Solver_Props.dpv b eb Hb Heb) as [V2 F2]. split.
  - intros H. specialize (H O ltac:(lia)). unfold enc, fin_of, fin_b, ivb in H. cbn [b_l b_u] in H. rewrite F1, F2 in H. cbn [andb] in H. rewrite V1, V2 in H. exact H.
  - intros H j Lj. replace j with O by lia. unfold enc, fin_of, fin_b, ivb. cbn [b_l b_u]. rewrite F1, F2. cbn [andb]. rewrite V1, V2. exact H.
Qed.

(** x = 3/2 in [0,2] has x^2 in [2,3], and x = 1 has not. *)
Example C134_nonvacuous :
  is_feasible_point OP OX 1 1 (one_i (z_ 0) (z_ 2)) (quad 1 sqr) (one_i (z_ 2) (z_ 3)) (fun _ => hf_ 3) = true /\
  is_feasible_point OP OX 1 1 (one_i (z_ 0) (z_ 2)) (quad 1 sqr) (one_i (z_ 2) (z_ 3)) (fun _ => z_ 1) = false /\
  is_feasible_point OP OX 1 1 (one_i (z_ 0) (z_ 1)) (quad 1 sqr) (one_i (z_ 2) (z_ 3)) (fun _ => hf_ 3) = false.
Proof. repeat split; vm_compute; reflexivity. Qed.

(** x^2 = 2 has a solution in [5/4,3/2], and none in [0,1]. *)
Definition two_ : nat -> DP * DP := one_i (z_ 2) (z_ 2).
Example C135_nonvacuous :
  contains_feasible_point OP OX 1 1 (one_i (z_ 1) (z_ 2)) (quad 1 sqr) two_ (fun _ _ => z_ 1) (ivb (qu_ 5) (qu_ 6)) = Answer TRUE /\
  contains_feasible_point OP OX 1 1 (one_i (z_ 0) (z_ 2)) (quad 1 sqr) two_ (fun _ _ => z_ 1) (ivb (z_ 0) (z_ 1)) = Answer FALSE /\
  exists v, venc OP fin_of 1 (ivb (qu_ 5) (qu_ 6)) v /\ feas 1 1 (one_i (z_ 1) (z_ 2)) (qf sqr) two_ v.
Proof.
  assert (A : contains_feasible_point OP OX 1 1 (one_i (z_ 1) (z_ 2)) (quad 1 sqr) two_ (fun _ _ => z_ 1) (ivb (qu_ 5) (qu_ 6)) = Answer TRUE) by (vm_compute; reflexivity).
  split; [exact A|]. split; [vm_compute; reflexivity|].
  apply (C135_contains_partial feps fme Ffme 1 1 (quad 1 sqr) (qf sqr) (qD sqr) (quad_encloses 1 sqr) (quad_smooth 1 sqr) _ _ _ _ A).
  - exists (fun _ => 5/4). apply ivb_en; cbn; try lia. lra.
  - intros v Hv j Lj. unfold qu_ in Hv. rewrite ivb_en in Hv by (cbn; lia). cbn in Hv. replace j with O by lia. unfold one_i, z_. ii.
  - intros u i Q1 Q2 [a [b [Ha [Hb L]]]]. exfalso. unfold two_, one_i, z_ in *. ei Ha. ei Hb. lra.
  - intros i _. exists 2. unfold two_, one_i, z_. ii.
  - intros i _. split; reflexivity.
Qed.
(** The equality x = 1/2 has a solution in [0,1], but the inequality x >= 3/4 is not tested; and
    the equality x = 2 has a solution in [0,4], but it is not tested that [0,4] is a part of the
    domain [0,1].  In both cases there is no feasible point at all.  (The tests on lines 504 and
    515 are [definitely(not subset(...))] of an upper interval, which is never true.) *)
Definition C2 : nat -> DP * DP := fun i => match i with O => (hf_ 1, hf_ 1) | _ => (qu_ 3, z_ 2) end.
Theorem C135_contains_refuted :
  (contains_feasible_point OP OX 1 2 (one_i (z_ 0) (z_ 1)) (quad 2 lin) C2 (fun _ _ => z_ 1) (ivb (z_ 0) (z_ 1)) = Answer TRUE /\
   infeas 1 2 (one_i (z_ 0) (z_ 1)) (qf lin) C2) /\
  (contains_feasible_point OP OX 1 1 (one_i (z_ 0) (z_ 1)) (quad 1 lin) two_ (fun _ _ => z_ 1) (ivb (z_ 0) (z_ 4)) = Answer TRUE /\
   infeas 1 1 (one_i (z_ 0) (z_ 1)) (qf lin) two_).
Proof.
  split; split; [vm_compute; reflexivity| |vm_compute; reflexivity|].
  - intros v [_ H]. pose proof (H 0%nat ltac:(lia)) as H0. pose proof (H 1%nat ltac:(lia)) as H1. rewrite lin_at in *. unfold C2, hf_, qu_, z_ in *. ei H0. ei H1. lra.
  - intros v [H1 H2]. specialize (H1 0%nat ltac:(lia)). specialize (H2 0%nat ltac:(lia)). rewrite lin_at in *. unfold two_, one_i, z_ in *. ei H1. ei H2. lra.
Qed.
(** Constraints with a singular Jacobian: the exception leaves the function, since the first of the
    two calls of [inverse] is outside the try block. *)
Theorem C135_exception_refuted :
  contains_feasible_point OP OX 1 1 (one_i (z_ (-1)) (z_ 1)) (quad 1 sqr) (one_i (qu_ 1) (qu_ 1)) (fun _ _ => z_ 1) (ivb (z_ (-1)) (z_ 1)) = Singular.
Proof. vm_compute. reflexivity. Qed.

(** x^2 = 2, from 3/2. *)
Example C136_nonvacuous :
  validate_feasibility OP OX 1 1 (one_i (z_ 1) (z_ 2)) (quad 1 sqr) two_ (fun _ => hf_ 3) = Answer TRUE /\
  validate_feasibility OP OX 1 1 (one_i (z_ 1) (z_ 2)) (quad 1 sqr) (one_i (z_ 2) (z_ 3)) (fun _ => z_ 1) = Answer FALSE.
Proof. split; vm_compute; reflexivity. Qed.
(** The domain is not used: x in [0,1] with x in [2,3] is declared feasible, from 5/2; and so is
    x in [0,1] with x = 2, from 1. *)
Theorem C136_validate_refuted :
  (validate_feasibility OP OX 1 1 (one_i (z_ 0) (z_ 1)) (quad 1 lin) (one_i (z_ 2) (z_ 3)) (fun _ => hf_ 5) = Answer TRUE /\
   infeas 1 1 (one_i (z_ 0) (z_ 1)) (qf lin) (one_i (z_ 2) (z_ 3))) /\
  (validate_feasibility OP OX 1 1 (one_i (z_ 0) (z_ 1)) (quad 1 lin) two_ (fun _ => z_ 1) = Answer TRUE /\
   infeas 1 1 (one_i (z_ 0) (z_ 1)) (qf lin) two_).
Proof.
  split; split; [vm_compute; reflexivity| |vm_compute; reflexivity|].
  - intros v [H1 H2]. specialize (H1 0%nat ltac:(lia)). specialize (H2 0%nat ltac:(lia)). rewrite lin_at in *. unfold one_i, z_ in *. ei H1. ei H2. lra.
  - intros v [H1 H2]. specialize (H1 0%nat ltac:(lia)). specialize (H2 0%nat ltac:(lia)). rewrite lin_at in *. unfold two_, one_i, z_ in *. ei H1. ei H2. lra.
Qed.

(** x in [0,1] with x^2 in [2,3] is infeasible. *)
Example C137_nonvacuous :
  is_infeasibility_certificate OP OX 1 1 1 (one_i (z_ 0) (z_ 1)) (quad 1 sqr) (one_i (z_ 2) (z_ 3)) (fun _ => z_ 1) = true /\
  is_infeasibility_certificate OP OX 1 1 1 (one_i (z_ 0) (z_ 2)) (quad 1 sqr) (one_i (z_ 2) (z_ 3)) (fun _ => z_ 1) = false /\
  validate_infeasibility OP OX 1 1 (one_i (z_ 0) (z_ 1)) (quad 1 sqr) (one_i (z_ 2) (z_ 3)) (fun _ => hf_ 1) (fun _ => z_ 1) = true.
Proof. repeat split; vm_compute; reflexivity. Qed.
(** Every x in [0,1] has x^2 in [0,1], but at the point 10 outside the domain the problem is
    declared infeasible: the mean value form uses the derivative on [0,1] only. *)
Theorem C137_validate_infeasibility_refuted :
  validate_infeasibility OP OX 1 1 (one_i (z_ 0) (z_ 1)) (quad 1 sqr) (one_i (z_ 0) (z_ 1)) (fun _ => z_ 10) (fun _ => z_ 1) = true /\
  forall v, 0 <= v O <= 1 -> feas 1 1 (one_i (z_ 0) (z_ 1)) (qf sqr) (one_i (z_ 0) (z_ 1)) v.
Proof.
  split; [vm_compute; reflexivity|]. intros v Hv. split; intros j Lj; replace j with O by lia; [|rewrite sqr_at]; unfold one_i, z_; ii. nra.
Qed.

(** No float has the square 2. *)
Lemma no_root_Z : forall k m, (m * m <> 2 * 4 ^ Z.of_nat k)%Z.
Proof.
  induction k as [|k IH]; intros m H.
  - cbn in H. assert (m = 0 \/ m = 1 \/ m = -1 \/ 2 <= m \/ m <= -2)%Z by lia. nia.
  - assert (E : (m mod 2 = 0)%Z).
    { destruct (Z.mod_pos_bound m 2 ltac:(lia)) as [A B]. assert (Q : (m mod 2 = 0 \/ m mod 2 = 1)%Z) by lia. destruct Q as [Q|Q]; [exact Q|exfalso].
      pose proof (Z.div_mod m 2 ltac:(lia)) as E. rewrite Q in E. set (q := (m / 2)%Z) in *. clearbody q.
      rewrite E in H. set (p := (4 ^ Z.of_nat (S k))%Z) in *. clearbody p. lia. }
    pose proof (Z.div_mod m 2 ltac:(lia)) as E2. rewrite E in E2. apply (IH (m / 2)%Z). set (q := (m / 2)%Z) in *. clearbody q.
    rewrite Nat2Z.inj_succ, Z.pow_succ_r in H by lia. rewrite E2 in H. lia.
Qed.
Lemma no_root : forall x : DP, B2R x * B2R x <> 2.
Proof.
  intros x H. destruct x as [s|s| |s mx e B]; cbn [B2R] in H; try lra. unfold F2R in H. cbn [Fnum Fexp] in H. set (m := cond_Zopp s (Zpos mx)) in *.
  replace (IZR m * bpow radix2 e * (IZR m * bpow radix2 e)) with (IZR (m * m) * bpow radix2 (2 * e)) in H by (rewrite mult_IZR; replace (2 * e)%Z with (e + e)%Z by lia; rewrite bpow_plus; ring).
  assert (M : (m * m > 0)%Z) by (subst m; destruct s; cbn [cond_Zopp]; nia). clearbody m.
  destruct (Z_lt_le_dec e 0) as [L|L].
  - apply (no_root_Z (Z.to_nat (- e)) m). rewrite Z2Nat.id by lia. apply eq_IZR. rewrite mult_IZR with (n := 2%Z).
    assert (E : IZR (4 ^ (- e)) = bpow radix2 (- (2 * e))).
    { rewrite <- (IZR_Zpower radix2) by lia. f_equal. replace (- (2 * e))%Z with (2 * - e)%Z by lia. rewrite Z.pow_mul_r by lia. reflexivity. }
    rewrite E. rewrite <- H. rewrite Rmult_assoc, <- bpow_plus. replace (2 * e + - (2 * e))%Z with 0%Z by lia. cbn. ring.
  - rewrite <- (IZR_Zpower radix2) in H by lia. rewrite <- mult_IZR in H. apply eq_IZR in H. rewrite Z.pow_mul_r in H by lia. change (radix2 ^ 2)%Z with 4%Z in H.
    destruct (Z.eq_dec e 0) as [->|N]; [apply (no_root_Z O m); cbn in *; lia|].
    replace e with (Z.succ (e - 1)) in H by lia. rewrite Z.pow_succ_r in H by lia. assert (0 < 4 ^ (e - 1))%Z by (apply Z.pow_pos_nonneg; lia). nia.
Qed.
(** x in [1,2] with x^2 = 2: some runs return a point, and no run ever returns a feasible one. *)
Theorem C138_minimise_refuted :
  (exists its x, minimise OP OX 1 1 (one_i (z_ 1) (z_ 2)) (quad 1 sqr) two_ its (fun _ => hf_ 3) = Point OP x) /\
  (forall its x0 x, minimise OP OX 1 1 (one_i (z_ 1) (z_ 2)) (quad 1 sqr) two_ its x0 = Point OP x ->
     forall v, contains (x O) (v O) -> ~ feas 1 1 (one_i (z_ 1) (z_ 2)) (qf sqr) two_ v).
Proof.
  split.
  - exists [], (fun _ => b_of (hf_ 3)). unfold minimise. cbn [firstn minimise_loop]. unfold min_end.
    replace (validate_feasibility OP OX 1 1 (one_i (z_ 1) (z_ 2)) (quad 1 sqr) (cut OP OX (one_i (z_ 1) (z_ 2)) (quad 1 sqr) two_) (fun _ => hf_ 3)) with (Answer TRUE) by (vm_compute; reflexivity).
    reflexivity.
  - intros its x0 x H.
    assert (Q : exists l : nat -> DP, x = fun j => b_of (l j)).
    { unfold minimise in H. revert x0 H. generalize (cut OP OX (one_i (z_ 1) (z_ 2)) (quad 1 sqr) two_) as C'. intros C'.
      assert (EN : forall l, min_end OP OX 1 1 (one_i (z_ 1) (z_ 2)) (quad 1 sqr) C' l = Point OP x -> exists l : nat -> DP, x = fun j => b_of (l j)).
      { intros l E. unfold min_end in E. destruct (validate_feasibility _ _ _ _ _ _ _ _) as [w| |]; try discriminate. destruct (definitely w); [|discriminate]. injection E as <-. exists l. reflexivity. }
      induction (firstn 24 its) as [|it its' IH]; intros x0 H; cbn [minimise_loop] in H; [apply (EN _ H)|].
      destruct (is_infeasibility_certificate _ _ _ _ _ _ _ _ _); [discriminate|]. destruct (it_stop _ _ it); [apply (EN _ H)|apply (IH _ H)]. }
    clear H. destruct Q as [l ->]. intros v [V1 V2] [F1 F2]. cbn [b_of b_l b_u] in *. specialize (F1 O ltac:(lia)). specialize (F2 O ltac:(lia)). rewrite sqr_at in F2. unfold two_, one_i, z_ in *. ei F1. ei F2.
    destruct (is_finite (l O)) eqn:F.
    + apply (below_finite _ _ F) in V1. apply (above_finite _ _ F) in V2. apply (no_root (l O)). replace (B2R (l O)) with (v O) by lra. lra.
    + clear F1 F2. destruct (l O) as [s|[]| |s mx e B]; cbn in V1, V2, F; congruence.
Qed.
Example C138_nonvacuous :
  feasible OP OX 1 1 (one_i (z_ 1) (z_ 2)) (quad 1 sqr) two_ [mkIt OP OX (fun _ => hf_ 3) (fun _ => z_ 1) false] = Answer TRUE /\
  feasible OP OX 1 1 (one_i (z_ 0) (z_ 1)) (quad 1 sqr) two_ [mkIt OP OX (fun _ => z_ 0) (fun _ => z_ 0) false; mkIt OP OX (fun _ => hf_ 1) (fun _ => z_ 1) false] = Singular /\
  feasible OP OX 1 1 (one_i (z_ 0) (z_ 1)) (quad 1 sqr) (one_i (z_ 2) (z_ 3)) [mkIt OP OX (fun _ => z_ 0) (fun _ => z_ 0) false; mkIt OP OX (fun _ => hf_ 1) (fun _ => z_ 1) false] = Answer FALSE /\
  minimise OP OX 1 1 (one_i (z_ 0) (z_ 1)) (quad 1 sqr) (one_i (z_ 2) (z_ 3)) [mkIt OP OX (fun _ => hf_ 1) (fun _ => z_ 1) false] (fun _ => hf_ 1) = Infeasible OP.
Proof. repeat split; vm_compute; reflexivity. Qed.

(** x = 1 in [0,1] misses the constraint x in [5/4,2] by 1/4, and is refused although the allowed
    error is 1/2. *)
Theorem C139_almost_refuted :
  almost_feasible_point OP OX 1 1 (one_i (z_ 0) (z_ 1)) (quad 1 lin) (one_i (qu_ 5) (z_ 2)) (fun _ => z_ 1) (hf_ 1) = false /\
  forall e, almost_feasible_point OP OX 1 1 (one_i (z_ 0) (z_ 1)) (quad 1 lin) (one_i (qu_ 5) (z_ 2)) (fun _ => z_ 1) e = false.
Proof. split; [vm_compute; reflexivity|]. intros e. vm_compute. reflexivity. Qed.
Example C139_nonvacuous : almost_feasible_point OP OX 1 1 (one_i (z_ 0) (z_ 2)) (quad 1 sqr) (one_i (z_ 2) (z_ 3)) (fun _ => hf_ 3) (hf_ 1) = true.
Proof. vm_compute. reflexivity. Qed.
Print Assumptions C135_contains_refuted.
Print Assumptions C135_exception_refuted.
Print Assumptions C136_validate_refuted.
Print Assumptions C137_validate_infeasibility_refuted.
Print Assumptions C138_minimise_refuted.
Print Assumptions C139_almost_refuted.
