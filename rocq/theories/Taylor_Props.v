(** * Properties C36-C41, C53, C54: Taylor models

    A model is a polynomial with floating-point coefficients and an error; it
    encloses the functions within the error of the polynomial on the unit box
    ([encloses] in Taylor_Spec).  Every positive theorem holds in every
    precision and exponent range, for every number of variables, every number
    of terms and every sweeper. *)

From Coq Require Import ZArith NArith Reals List Bool Lia Lra Psatz.
From Flocq Require Import Core IEEE754.BinarySingleNaN.
From Verif Require Import Float_Model Float_Spec Float_Proofs Bounds_Model Bounds_Spec Bounds_Proofs Bounds_Props
  Ball_Model Ball_Spec Ball_Proofs Ball_Props ErrBound_Model LRU_Model
  Poly_Model Poly_Spec Poly_Proofs Taylor_Model Taylor_Spec Taylor_Proofs Taylor_Arith_Proofs Taylor_Range_Proofs.
Import ListNotations.
Local Open Scope R_scope.

(** ** Reading a model off its digits *)
Definition digits (t : tm 53 1024) := (map (fun m => (fst m, B2SF (snd m))) (t_exp t), B2SF (t_err t)).
Definition dpoly (p : list (mi * SpecFloat.spec_float)) (x : list R) : R :=
  poly 0 1 Rplus Rmult (map (fun m => (fst m, SF2R radix2 (snd m))) p) x.
Lemma peval_digits (p : list (mi * DP)) x : peval p x = dpoly (map (fun m => (fst m, B2SF (snd m))) p) x.
Proof.
  unfold peval, dpoly. rewrite map_map. f_equal. apply map_ext. intros m. cbn [fst snd]. f_equal. symmetry. apply SF2R_B2SF.
Qed.
Lemma encl_at k n t f p e x : encl k n t f -> digits t = (p, e) -> is_finite_SF e = true -> in_box n x ->
  Rabs (f x - dpoly p x) <= k * SF2R radix2 e.
Proof.
  intros E D F X. unfold digits in D. injection D as D1 D2. assert (is_finite (t_err t) = true) as Ft.
  { rewrite <- is_finite_SF_B2SF, D2. auto. }
  destruct (E Ft) as [_ H]. specialize (H x X). rewrite peval_digits, D1 in H. rewrite <- (SF2R_B2SF 53 1024 (t_err t)), D2 in H. auto.
Qed.
Lemma encl_intro k n t f p e : digits t = (p, e) -> forallb (fun m => is_finite_SF (snd m)) p = true ->
  (forall x, in_box n x -> Rabs (f x - dpoly p x) <= k * SF2R radix2 e) -> encl k n t f.
Proof.
  intros D A H F. unfold digits in D. injection D as D1 D2. split.
  - rewrite <- D1 in A. apply Forall_forall. intros m I. rewrite forallb_forall in A.
    specialize (A (fst m, B2SF (snd m))). cbn [snd] in A. rewrite is_finite_SF_B2SF in A. apply A. apply (in_map (fun m => (fst m, B2SF (snd m)))). auto.
  - intros x X. specialize (H x X). rewrite peval_digits, D1. rewrite <- (SF2R_B2SF 53 1024 (t_err t)), D2. auto.
Qed.
Ltac dpexpand :=
  unfold dpoly; cbn [map fst snd poly monom power]; cbn [N.to_nat]; change (Pos.to_nat 1) with 1%nat; change (Pos.to_nat 2) with 2%nat; cbn [power];
  unfold SF2R, F2R; cbn [Fnum Fexp cond_Zopp]; cbn [bpow radix2 radix_val Z.pow_pos Pos.iter Z.mul Pos.mul Z.opp].
Definition keep_all : policy 53 1024 := fun _ _ _ _ => false.
Definition sweep_all : policy 53 1024 := fun _ _ _ _ => true.
Definition dz : DP := fzero.
Lemma box1 t : -1 <= t <= 1 -> in_box 1 [t]. Proof. intros H. split; auto. Qed.
Lemma in_box1 x : in_box 1 x -> exists t, x = [t] /\ -1 <= t <= 1.
Proof. intros [L F]. destruct x as [|t [|]]; try discriminate. exists t. inversion_clear F. auto. Qed.

(** ** C36: addition, subtraction, negation, scaling *)
Theorem C36_add_sub : forall prec emax (Hp : Prec_gt_0 prec) (He : Prec_lt_emax prec emax) (n : nat) (swp : policy prec emax) (x y : tm prec emax) f g,
  well_formed n x -> well_formed n y -> encloses n x f -> encloses n y g ->
  (encloses n (tm_add swp x y) (fun z => f z + g z) /\ well_formed n (tm_add swp x y)) /\
  (encloses n (tm_sub swp x y) (fun z => f z - g z) /\ well_formed n (tm_sub swp x y)).
Proof.
  intros prec emax Hp He n swp x y f g X Y F G. pose proof X as [Zx Sx]. pose proof Y as [Zy Sy]. split; split.
  - apply add_encl; auto.
  - apply merge_wf; auto.
  - apply sub_encl; auto.
  - apply merge_wf; auto.
Qed.
Print Assumptions C36_add_sub.
Theorem C36_neg_scal : forall prec emax (Hp : Prec_gt_0 prec) (He : Prec_lt_emax prec emax) (n : nat) (t : tm prec emax) (c : binary_float prec emax) f,
  well_formed n t -> encloses n t f ->
  (encloses n (tm_neg t) (fun z => - f z) /\ well_formed n (tm_neg t)) /\
  (encloses n (tm_scal t c) (fun z => B2R c * f z) /\ well_formed n (tm_scal t c)).
Proof.
  intros prec emax Hp He n t c f W F. split; split.
  - apply neg_encl; auto.
  - apply (apply_wf n (fun v e => (fneg v, e)) t (t_err t)); auto.
  - apply scal_encl; auto.
  - apply apply_wf; auto.
Qed.
Print Assumptions C36_neg_scal.

(** Adding or multiplying by a constant given by bounds.  The stored error is
    half the width of the result, although the stored coefficient is not the
    exact midpoint: the true distance can reach twice the error.  With bounds
    that are a single float below half the overflow threshold the result
    encloses. *)
Theorem C36_bounds_partial : forall prec emax (Hp : Prec_gt_0 prec) (He : Prec_lt_emax prec emax) (n : nat) (t : tm prec emax) (c : bounds prec emax) v f,
  well_formed n t -> small_degrees (t_exp t) -> is_finite (b_value c) = true -> contains c v -> encloses n t f ->
  encl 2 n (tm_scal_b t c) (fun z => v * f z) /\
  encl 2 n (tm_acc n t c) (fun z => f z + v) /\ well_formed n (tm_acc n t c).
Proof.
  intros prec emax Hp He n t c v f W D Fc C F. split; [|split].
  - apply scal_b_encl; auto.
  - apply acc_b_encl; auto; [apply W|]. intros Ft. destruct (F Ft) as [A B]. split; auto. intros x X. specialize (B x X).
    pose proof (Rabs_pos (f x - peval (t_exp t) x)). lra.
  - apply acc_wf; auto.
Qed.
Print Assumptions C36_bounds_partial.
Theorem C36_point_partial : forall prec emax (Hp : Prec_gt_0 prec) (He : Prec_lt_emax prec emax) (n : nat) (t : tm prec emax) (q : binary_float prec emax) f,
  well_formed n t -> small_degrees (t_exp t) -> is_finite q = true -> 2 * Rabs (B2R q) < bpow radix2 emax -> encloses n t f ->
  encloses n (tm_scal_b t (b_of q)) (fun z => B2R q * f z) /\
  encloses n (tm_acc n t (b_of q)) (fun z => f z + B2R q).
Proof.
  intros prec emax Hp He n t q f W D Fq Q F. split.
  - apply scal_point_encl; auto.
  - apply acc_point_encl; auto. apply W.
Qed.
Print Assumptions C36_point_partial.

(** The model of the identity function. *)
Definition tm_id : tm 53 1024 := mkTM [([1%N], dp 1 0)] dz.
Lemma id_encloses : encloses 1 tm_id (fun z => nth 0 z 0).
Proof.
  eapply encl_intro; [vm_compute; reflexivity|reflexivity|]. intros x X. destruct (in_box1 x X) as (t & -> & T). cbn [nth]. dpexpand.
  match goal with |- Rabs ?u <= ?v => replace u with 0 by lra; replace v with 0 by lra end. rewrite Rabs_R0. lra.
Qed.
Lemma id_wf : well_formed 1 tm_id.
Proof. split; repeat constructor. Qed.

(** Multiplying [z] by [1, 1+2^-52] gives [z] with error [2^-53], which does
    not enclose [(1+2^-52) z]; adding these bounds to the constant [2^-60]
    gives [1] with error [2^-52]. *)
Definition wide : bounds 53 1024 := mkB (dp 1 0) (dp (2^52+1) (-52)).
Definition tm_tiny : tm 53 1024 := mkTM [([0%N], dp 1 (-60))] dz.
Lemma exact_encloses (t : tm 53 1024) : B2SF (t_err t) = SpecFloat.S754_zero false -> Forall (fun m => is_finite (snd m) = true) (t_exp t) ->
  forall n, encloses n t (peval (t_exp t)).
Proof.
  intros E A n F. split; auto. intros x X. rewrite Rminus_eq_0, Rabs_R0, <- (SF2R_B2SF 53 1024 (t_err t)), E. cbn. lra.
Qed.
Theorem C36_bounds_refuted : exists (t s : tm 53 1024) (c : bounds 53 1024) v f g,
  well_formed 1 t /\ well_formed 1 s /\ contains c v /\ is_finite (b_value c) = true /\ encloses 1 t f /\ encloses 1 s g /\
  ~ encloses 1 (tm_scal_b t c) (fun z => v * f z) /\ ~ encloses 1 (tm_acc 1 s c) (fun z => g z + v).
Proof.
  exists tm_id, tm_tiny, wide, (B2R (dp (2^52+1) (-52))), (fun z => nth 0 z 0), (peval (t_exp tm_tiny)).
  split; [apply id_wf|]. split; [split; repeat constructor|]. split; [apply dp_in; dpfin|]. split; [dpfin|]. split; [apply id_encloses|].
  split; [apply exact_encloses; [reflexivity|repeat constructor]|]. split.
  - intros E. eapply encl_at with (x := [1]) in E; [|vm_compute; reflexivity|reflexivity|apply box1; lra]. cbn [nth] in E. revert E.
    dpval (dp (2^52+1) (-52)). dpexpand. intros E. apply Rabs_le_inv in E. lra.
  - intros E. eapply encl_at with (x := [1]) in E; [|vm_compute; reflexivity|reflexivity|apply box1; lra]. revert E.
    rewrite peval_digits. dpval (dp (2^52+1) (-52)). unfold tm_tiny; cbn [t_exp map fst snd].
    replace (B2SF (dp 1 (-60))) with (SpecFloat.S754_finite false 4503599627370496 (-112)) by (vm_compute; reflexivity).
    dpexpand. intros E. apply Rabs_le_inv in E. lra.
Qed.
Print Assumptions C36_bounds_refuted.
(** A finite float at half the overflow threshold gives an infinite
    coefficient with error zero. *)
Theorem C36_overflow_refuted : exists q : DP, is_finite q = true /\
  ~ encloses 1 (tm_scal_b tm_id (b_of q)) (fun z => B2R q * nth 0 z 0).
Proof.
  exists (dp 1 1023). split; [dpfin|]. intros E. destruct (E ltac:(vm_compute; reflexivity)) as [A _].
  apply Forall_inv in A. vm_compute in A. discriminate.
Qed.
Print Assumptions C36_overflow_refuted.

Example C36_nonvacuous :
  (* (z + 1/4) + z/3, where 1/3 is rounded; keeping all terms, or sweeping all *)
  let x := mkTM [([1%N], dp 1 0); ([0%N], dp 1 (-2))] dz in
  let y := tm_scal tm_id (fdiv near (dp 1 0) (dp 3 0)) in
  well_formed 1 x /\ well_formed 1 y /\ encloses 1 x (fun z => nth 0 z 0 + 1 / 4) /\
  digits (tm_add keep_all x y) = ([([1%N], SpecFloat.S754_finite false 6004799503160661 (-52)); ([0%N], SpecFloat.S754_finite false 4503599627370496 (-54))],
                                  SpecFloat.S754_finite false 4503599627370496 (-105)) /\
  digits (tm_add sweep_all x y) = ([], SpecFloat.S754_finite false 7130699410003286 (-52)).
Proof.
  cbv zeta. split; [split; repeat constructor|]. split; [split; repeat constructor|]. split.
  - eapply encl_intro; [vm_compute; reflexivity|reflexivity|]. intros x X. destruct (in_box1 x X) as (t & -> & T). cbn [nth]. dpexpand.
    match goal with |- Rabs ?u <= ?v => replace u with 0 by lra; replace v with 0 by lra end. rewrite Rabs_R0. lra.
  - split; vm_compute; reflexivity.
Qed.

(** ** C37: multiplication *)
(** Every fused step rounds twice, and its stored error is half the distance
    between twice-rounded bounds: the true distance can reach twice the error.
    When the left factor has at most one term no step adds to an existing
    coefficient and the product encloses. *)
Theorem C37_mul_partial : forall prec emax (Hp : Prec_gt_0 prec) (He : Prec_lt_emax prec emax) (n : nat) (swp : policy prec emax) (x y : tm prec emax) f g,
  well_formed n x -> well_formed n y -> no_index_overflow (t_exp x) (t_exp y) -> encloses n x f -> encloses n y g ->
  encl 2 n (tm_mul swp x y) (fun z => f z * g z) /\ well_formed n (tm_mul swp x y) /\
  ((length (t_exp x) <= 1)%nat -> encloses n (tm_mul swp x y) (fun z => f z * g z)).
Proof.
  intros prec emax Hp He n swp x y f g [Zx Sx] [Zy Sy] O F G. split; [|split].
  - apply mul_encl; auto. lra.
  - apply mul_wf; auto. split; auto.
  - intros L. apply mul_encl; auto. lra.
Qed.
Print Assumptions C37_mul_partial.
(** The same for the accumulating product [r + x*y]. *)
Theorem C37_ifma_partial : forall prec emax (Hp : Prec_gt_0 prec) (He : Prec_lt_emax prec emax) (n : nat) (swp : policy prec emax) (r x y : tm prec emax) h f g,
  well_formed n r -> well_formed n x -> well_formed n y -> no_index_overflow (t_exp x) (t_exp y) ->
  encl 2 n r h -> encloses n x f -> encloses n y g ->
  encl 2 n (tm_ifma swp r x y) (fun z => h z + f z * g z) /\ well_formed n (tm_ifma swp r x y).
Proof.
  intros prec emax Hp He n swp r x y h f g Wr [Zx Sx] [Zy Sy] O H F G. split.
  - apply ifma_encl; auto. lra.
  - apply ifma_wf; auto. split; auto.
Qed.
Print Assumptions C37_ifma_partial.

(** [(z + b)(c z + 1)] with [b = 1+2^-26], [c = 2^-53 (1-2^-26+2^-52)]: the
    exact coefficient of [z] is [1 + b c = 1 + 2^-53 (1 + 2^-78)]; the result
    has coefficient 1 and total error [2^-53]. *)
Definition mul_x : tm 53 1024 := mkTM [([1%N], dp 1 0); ([0%N], dp (2^26+1) (-26))] dz.
Definition mul_y : tm 53 1024 := mkTM [([1%N], dp (2^52-2^26+1) (-105)); ([0%N], dp 1 0)] dz.
Theorem C37_mul_refuted : exists (x y : tm 53 1024) f g, well_formed 1 x /\ well_formed 1 y /\ no_index_overflow (t_exp x) (t_exp y) /\
  encloses 1 x f /\ encloses 1 y g /\ ~ encloses 1 (tm_mul keep_all x y) (fun z => f z * g z).
Proof.
  exists mul_x, mul_y, (peval (t_exp mul_x)), (peval (t_exp mul_y)).
  split; [split; repeat constructor|]. split; [split; repeat constructor|]. split; [repeat constructor|].
  split; [apply exact_encloses; [reflexivity|repeat constructor]|]. split; [apply exact_encloses; [reflexivity|repeat constructor]|].
  intros E. eapply encl_at with (x := [1]) in E; [|vm_compute; reflexivity|reflexivity|apply box1; lra]. revert E.
  rewrite !peval_digits. unfold mul_x, mul_y; cbn [t_exp map fst snd].
  let s := eval vm_compute in (B2SF (dp 1 0)) in replace (B2SF (dp 1 0)) with s by (vm_compute; reflexivity).
  let s := eval vm_compute in (B2SF (dp (2^26+1) (-26))) in replace (B2SF (dp (2^26+1) (-26))) with s by (vm_compute; reflexivity).
  let s := eval vm_compute in (B2SF (dp (2^52-2^26+1) (-105))) in replace (B2SF (dp (2^52-2^26+1) (-105))) with s by (vm_compute; reflexivity).
  dpexpand. intros E. apply Rabs_le_inv in E. lra.
Qed.
Print Assumptions C37_mul_refuted.
Example C37_nonvacuous :
  no_index_overflow (t_exp mul_x) (t_exp mul_y) /\ (length (t_exp tm_id) <= 1)%nat /\
  digits (tm_mul keep_all tm_id mul_x) =
    ([([2%N], SpecFloat.S754_finite false 4503599627370496 (-52)); ([1%N], SpecFloat.S754_finite false 4503599694479360 (-52))], SpecFloat.S754_zero false).
Proof. split; [repeat constructor|]. split; [cbn; lia|]. vm_compute. reflexivity. Qed.

(** ** C38: sweeping *)
Theorem C38_sweep : forall prec emax (Hp : Prec_gt_0 prec) (He : Prec_lt_emax prec emax) (n : nat) (swp : policy prec emax) (t : tm prec emax) f,
  encloses n t f -> encloses n (sweep swp t) f /\ (well_formed n t -> well_formed n (sweep swp t)).
Proof. intros. split; [apply sweep_encl; auto; lra|apply sweep_wf]. Qed.
Print Assumptions C38_sweep.
(** Removing repeated indices by adding the coefficients. *)
Theorem C38_unique : forall prec emax (Hp : Prec_gt_0 prec) (He : Prec_lt_emax prec emax) (n : nat) (t : tm prec emax) f,
  encloses n t f -> encloses n (tm_unique t) f.
Proof. intros. apply unique_encl; auto. Qed.
Print Assumptions C38_unique.
(** Coefficients that are bounds: the relative sweepers. *)
Theorem C38_relative_bounds_partial : forall prec emax (Hp : Prec_gt_0 prec) (He : Prec_lt_emax prec emax) (n : nat)
  (d : mi -> binary_float prec emax -> bool) p (e : binary_float prec emax) f,
  encl_bounds n p e f -> encl_bounds n (fst (sweep_rel d p e)) (snd (sweep_rel d p e)) f.
Proof. intros. apply sweep_rel_sound; auto. Qed.
Print Assumptions C38_relative_bounds_partial.
(** The other sweepers drop the terms without accumulating their magnitude:
    sweeping the constant 1 leaves nothing, with error zero. *)
Theorem C38_bounds_refuted : exists (d : mi -> DP -> bool) (p : list (mi * bounds 53 1024)) (e : DP) f,
  encl_bounds 1 p e f /\ ~ encl_bounds 1 (fst (sweep_abs d p e)) (snd (sweep_abs d p e)) f.
Proof.
  exists (fun _ _ => true), [([0%N], b_of (dp 1 0))], dz, (fun _ => 1). split.
  - intros _. exists [B2R (dp 1 0)]. split; [repeat constructor; cbn [snd]; apply b_of_contains; dpfin|].
    intros x X. destruct (in_box1 x X) as (t & -> & T). cbn [map fst combine]. dpval (dp 1 0). dpexpand. cbn [dz fzero B2R].
    match goal with |- Rabs ?u <= _ => replace u with 0 by lra end. rewrite Rabs_R0. lra.
  - intros E. destruct (E ltac:(vm_compute; reflexivity)) as (c & C & H). specialize (H [0] (box1 0 ltac:(lra))). revert H C.
    intros H _. rewrite (dp_zero (snd (sweep_abs _ _ dz))) in H by (vm_compute; reflexivity).
    change (map fst (fst (sweep_abs (fun _ _ => true) [([0%N], b_of (dp 1 0))] dz))) with (@nil mi) in H. cbn [combine poly] in H.
    rewrite Rminus_0_r, Rabs_R1 in H. lra.
Qed.
Print Assumptions C38_bounds_refuted.
Example C38_nonvacuous :
  digits (sweep (fun _ _ a _ => (degree a =? 1)%N) mul_x) =
    ([([0%N], SpecFloat.S754_finite false 4503599694479360 (-52))], SpecFloat.S754_finite false 4503599627370496 (-52)).
Proof. vm_compute. reflexivity. Qed.

(** ** C39: norm, radius, range, refines, inconsistent *)
Theorem C39_norm_radius : forall prec emax (Hp : Prec_gt_0 prec) (He : Prec_lt_emax prec emax) (n : nat) (t : tm prec emax) f z,
  well_formed n t -> small_degrees (t_exp t) -> encloses n t f -> in_box n z ->
  (is_finite (tm_norm t) = true -> Rabs (f z) <= B2R (tm_norm t)) /\
  (is_finite (tm_radius t) = true -> Rabs (f z - B2R (tm_value n t)) <= B2R (tm_radius t)).
Proof. intros. split; intros; [eapply norm_sound; eauto|apply radius_sound; auto]. Qed.
Print Assumptions C39_norm_radius.
Theorem C39_range_partial : forall prec emax (Hp : Prec_gt_0 prec) (He : Prec_lt_emax prec emax) (n : nat) (t : tm prec emax) f z,
  (2 < emax)%Z -> well_formed n t -> small_degrees (t_exp t) -> is_finite (t_err t) = true -> encloses n t f -> in_box n z ->
  contains (tm_range n t) (f z).
Proof. intros. apply range_sound; auto. Qed.
Print Assumptions C39_range_partial.
Theorem C39_refines : forall prec emax (Hp : Prec_gt_0 prec) (He : Prec_lt_emax prec emax) (n : nat) (swp : policy prec emax) (t1 t2 : tm prec emax) f,
  well_formed n t1 -> well_formed n t2 -> ge0 (t_err t1) = true -> Forall (fun m => is_finite (snd m) = true) (t_exp t2) ->
  tm_refines swp t1 t2 = true -> encloses n t1 f -> encloses n t2 f.
Proof. intros prec emax Hp He n swp t1 t2 f [? ?] [? ?]. intros. eapply refines_sound; eauto. Qed.
Print Assumptions C39_refines.
Theorem C39_inconsistent : forall prec emax (Hp : Prec_gt_0 prec) (He : Prec_lt_emax prec emax) (n : nat) (t1 t2 : tm prec emax) f,
  well_formed n t1 -> well_formed n t2 -> is_finite (t_err t1) = true -> is_finite (t_err t2) = true ->
  tm_inconsistent n t1 t2 = true -> encloses n t1 f -> ~ encloses n t2 f.
Proof. intros prec emax Hp He n t1 t2 f W1 W2 F1 F2 I E1 E2. exact (inconsistent_sound n t1 t2 f W1 W2 F1 F2 I E1 E2). Qed.
Print Assumptions C39_inconsistent.

(** The degree is computed in 16 bits: the term [z0^65535 z1] counts as a
    constant, and the computed range of a function with value 0 is [1,1]. *)
Definition wrap : tm 53 1024 := mkTM [([65535%N; 1%N], dp 1 0)] dz.
Theorem C39_range_refuted : exists (t : tm 53 1024) f z, well_formed 2 t /\ is_finite (t_err t) = true /\ encloses 2 t f /\ in_box 2 z /\
  ~ contains (tm_range 2 t) (f z).
Proof.
  exists wrap, (peval (t_exp wrap)), [0; 0]. split; [split; repeat constructor|]. split; [reflexivity|].
  split; [apply exact_encloses; [reflexivity|repeat constructor]|]. split; [split; [reflexivity|repeat constructor; lra]|].
  replace (peval (t_exp wrap) [0; 0]) with (B2R dz); [apply dp_out; dpfin|].
  unfold peval, wrap; cbn [t_exp map fst snd poly monom]. change (N.to_nat 1) with 1%nat. cbn [power dz fzero B2R]. ring.
Qed.
Print Assumptions C39_range_refuted.
(** [consistent] adds the errors with upward rounding before comparing, so it
    can accept models without a common function. *)
Theorem C39_consistent_refuted : exists t1 t2 : tm 53 1024, well_formed 1 t1 /\ well_formed 1 t2 /\
  is_finite (t_err t1) = true /\ is_finite (t_err t2) = true /\ tm_consistent keep_all t1 t2 = true /\
  forall f, ~ (encloses 1 t1 f /\ encloses 1 t2 f).
Proof.
  exists (mkTM [([0%N], dp (2^52+1) (-52))] (dp 1 0)), (mkTM [] (dp 1 (-60))).
  split; [split; repeat constructor|]. split; [split; constructor|]. split; [dpfin|]. split; [dpfin|]. split; [dpfin|].
  intros f [E1 E2]. eapply encl_at with (x := [0]) in E1; [|vm_compute; reflexivity|reflexivity|apply box1; lra].
  eapply encl_at with (x := [0]) in E2; [|vm_compute; reflexivity|reflexivity|apply box1; lra]. revert E1 E2. dpexpand.
  intros E1 E2. apply Rabs_le_inv in E1. apply Rabs_le_inv in E2. lra.
Qed.
Print Assumptions C39_consistent_refuted.
Example C39_nonvacuous :
  let t := mkTM [([1%N; 1%N], dp 1 (-2)); ([2%N; 0%N], dp 1 0); ([1%N; 0%N], dp 1 0); ([0%N; 0%N], dp 3 0)] (dp 1 (-4)) in
  (* z0^2 + z0 z1 / 4 + z0 + 3, error 1/16: within [2.4375, 5.3125] *)
  well_formed 2 t /\ small_degrees (t_exp t) /\
  flt_eq (tm_norm t) (dp (16 * 5 + 5) (-4)) = true /\ flt_eq (tm_radius t) (dp 37 (-4)) = true /\
  flt_eq (b_l (tm_range 2 t)) (dp 39 (-4)) = true /\ flt_eq (b_u (tm_range 2 t)) (dp 85 (-4)) = true /\
  tm_refines keep_all t (mkTM [([0%N; 0%N], dp 3 0)] (dp 5 (-1))) = true /\
  tm_inconsistent 2 t (mkTM [([0%N; 0%N], dp 4 0)] (dp 1 (-1))) = true.
Proof.
  cbv zeta. split; [split; repeat constructor|]. split; [repeat constructor|]. vm_compute. repeat split; reflexivity.
Qed.

(** ** C40: antiderivative and derivative *)
(** [g] vanishes where variable [k] is zero and its derivative in variable [k]
    is [f]: it is the integral of [f] from 0 in variable [k]. *)
Theorem C40_antiderivative : forall prec emax (Hp : Prec_gt_0 prec) (He : Prec_lt_emax prec emax) (k n : nat) (t : tm prec emax) f g,
  (16 <= prec)%Z -> (k < n)%nat -> well_formed n t -> Forall (fun m => Forall (fun d => (d < 65536)%N) (fst m)) (t_exp t) ->
  encloses n t f ->
  (forall x, in_box n x -> g (set_nth k 0 x) = 0) ->
  (forall x, in_box n x -> derivable_pt_lim (fun s => g (set_nth k s x)) (nth k x 0) (f x)) ->
  encloses n (tm_antidiff k t) g.
Proof. intros prec emax Hp He k n t f g P K [? ?] S E G0 GD. eapply antidiff_encl; eauto. Qed.
Print Assumptions C40_antiderivative.
(** The derivative model encloses the derivative of the polynomial only. *)
Theorem C40_derivative_partial : forall prec emax (Hp : Prec_gt_0 prec) (He : Prec_lt_emax prec emax) (k n : nat) (t : tm prec emax) g,
  (16 <= prec)%Z -> (k < n)%nat -> well_formed n t -> Forall (fun m => Forall (fun d => (d < 65536)%N) (fst m)) (t_exp t) ->
  (forall x, in_box n x -> derivable_pt_lim (fun s => peval (t_exp t) (set_nth k s x)) (nth k x 0) (g x)) ->
  encloses n (tm_diff k t) g.
Proof. intros prec emax Hp He k n t g P K [? ?] S D. eapply diff_encl; eauto. Qed.
Print Assumptions C40_derivative_partial.
(** A differentiable function enclosed by a model need not have its derivative
    enclosed by the derivative of the model: its error is cleared. *)
Theorem C40_derivative_refuted : exists (t : tm 53 1024) f f', well_formed 1 t /\ encloses 1 t f /\
  (forall x, in_box 1 x -> derivable_pt_lim (fun s => f (set_nth 0 s x)) (nth 0 x 0) (f' x)) /\ ~ encloses 1 (tm_diff 0 t) f'.
Proof.
  exists (mkTM [] (dp 1 0)), (fun z => nth 0 z 0), (fun _ => 1). split; [split; constructor|]. split; [|split].
  - eapply encl_intro; [vm_compute; reflexivity|reflexivity|]. intros x X. destruct (in_box1 x X) as (t & -> & T). cbn [nth]. dpexpand. apply Rabs_le. lra.
  - intros x _. apply (derivable_pt_lim_id).
  - intros E. eapply encl_at with (x := [0]) in E; [|vm_compute; reflexivity|reflexivity|apply box1; lra]. revert E. dpexpand.
    rewrite Rminus_0_r, Rabs_R1. lra.
Qed.
Print Assumptions C40_derivative_refuted.
Example C40_nonvacuous :
  (* the integral of z^2 is z^3/3 with 1/3 rounded *)
  digits (tm_antidiff 0 (mkTM [([2%N], dp 1 0)] dz)) =
    ([([3%N], SpecFloat.S754_finite false 6004799503160661 (-54))], SpecFloat.S754_finite false 4503599627370496 (-107)) /\
  digits (tm_diff 0 (mkTM [([3%N], dp 1 0); ([0%N], dp 1 0)] dz)) =
    ([([2%N], SpecFloat.S754_finite false 6755399441055744 (-51))], SpecFloat.S754_zero false) /\
  forall x, in_box 1 x -> derivable_pt_lim (fun s => (nth 0 (set_nth 0 s x) 0) ^ 3) (nth 0 x 0) (3 * (nth 0 x 0 * nth 0 x 0)).
Proof.
  split; [vm_compute; reflexivity|]. split; [vm_compute; reflexivity|]. intros x X. destruct (in_box1 x X) as (t & -> & T). cbn [nth].
  replace (3 * (t * t)) with (INR 3 * t ^ Nat.pred 3) by (cbn; ring). apply (derivable_pt_lim_pow t 3).
Qed.

(** ** C41: refinement *)
Theorem C41_refinement_partial : forall prec emax (Hp : Prec_gt_0 prec) (He : Prec_lt_emax prec emax) (n : nat) (x y : tm prec emax) f,
  constant_only n (t_exp x) -> constant_only n (t_exp y) -> t_exp x <> [] \/ t_exp y <> [] ->
  is_finite (t_err x) = true -> is_finite (t_err y) = true ->
  finite_bounds (b_pm (b_of (coef (t_exp x))) (t_err x)) -> finite_bounds (b_pm (b_of (coef (t_exp y))) (t_err y)) ->
  encloses n x f -> encloses n y f -> exists r, tm_refinement x y = Some r /\ encloses n r f.
Proof. intros. apply refine_const; auto. Qed.
Print Assumptions C41_refinement_partial.
(** [0 ± 1] and [z ± 1] both enclose [1-|z|]; their refinement is
    [z/2 ± 1/2], which does not. *)
Definition ref_x : tm 53 1024 := mkTM [] (dp 1 0).
Definition ref_y : tm 53 1024 := mkTM [([1%N], dp 1 0)] (dp 1 0).
Theorem C41_refinement_refuted : exists (x y : tm 53 1024) f r, well_formed 1 x /\ well_formed 1 y /\ encloses 1 x f /\ encloses 1 y f /\
  tm_refinement x y = Some r /\ ~ encloses 1 r f.
Proof.
  assert (option_map digits (tm_refinement ref_x ref_y) =
    Some ([([1%N], SpecFloat.S754_finite false 4503599627370496 (-53))], SpecFloat.S754_finite false 4503599627370496 (-53))) as D by (vm_compute; reflexivity).
  destruct (tm_refinement ref_x ref_y) as [r|] eqn:E; [|discriminate].
  exists ref_x, ref_y, (fun z => 1 - Rabs (nth 0 z 0)), r. split; [split; constructor|]. split; [split; repeat constructor|]. split; [|split; [|split; [exact E|]]].
  - eapply encl_intro; [vm_compute; reflexivity|reflexivity|]. intros x Bx. destruct (in_box1 x Bx) as (t & -> & T). cbn [nth]. dpexpand.
    apply Rabs_le. unfold Rabs; destruct (Rcase_abs t); lra.
  - eapply encl_intro; [vm_compute; reflexivity|reflexivity|]. intros x Bx. destruct (in_box1 x Bx) as (t & -> & T). cbn [nth]. dpexpand.
    apply Rabs_le. unfold Rabs; destruct (Rcase_abs t); lra.
  - intros H. cbn [option_map] in D. injection D as D1 D2. eapply encl_at with (x := [0]) in H; [|unfold digits; rewrite D1, D2; reflexivity|reflexivity|apply box1; lra].
    revert H. cbn [nth]. rewrite Rabs_R0. dpexpand. intros H. apply Rabs_le_inv in H. lra.
Qed.
Print Assumptions C41_refinement_refuted.
(** With two models without terms the error is lost. *)
Theorem C41_empty_refuted : exists (x y : tm 53 1024) f, encloses 1 x f /\ encloses 1 y f /\
  forall r, tm_refinement x y = Some r -> ~ encloses 1 r f.
Proof.
  exists (mkTM [] (dp 1 0)), (mkTM [] (dp 1 0)), (fun _ => 1).
  assert (encloses 1 (mkTM [] (dp 1 0)) (fun _ => 1)) as E.
  { eapply encl_intro; [vm_compute; reflexivity|reflexivity|]. intros x _. dpexpand. apply Rabs_le. lra. }
  split; auto. split; auto. intros r H F. injection H as <-. eapply encl_at with (x := [0]) in F; [|vm_compute; reflexivity|reflexivity|apply box1; lra].
  revert F. dpexpand. rewrite Rminus_0_r, Rabs_R1. lra.
Qed.
Print Assumptions C41_empty_refuted.
Example C41_nonvacuous :
  (* 1 ± 1 and 2 ± 1/2 *)
  let x := mkTM [([0%N], dp 1 0)] (dp 1 0) in let y := mkTM [([0%N], dp 2 0)] (dp 1 (-1)) in
  constant_only 1 (t_exp x) /\ constant_only 1 (t_exp y) /\ finite_bounds (b_pm (b_of (coef (t_exp x))) (t_err x)) /\
  option_map digits (tm_refinement x y) = Some ([([0%N], SpecFloat.S754_finite false 7881299347898368 (-52))], SpecFloat.S754_finite false 4503599627370496 (-54)).
Proof.
  cbv zeta. split; [right; eexists; reflexivity|]. split; [right; eexists; reflexivity|]. split; [split; vm_compute; reflexivity|]. vm_compute. reflexivity.
Qed.

(** ** C53: evaluation *)
Theorem C53_evaluate_partial : forall prec emax (Hp : Prec_gt_0 prec) (He : Prec_lt_emax prec emax) (n : nat) (t : tm prec emax) f (x : list (bounds prec emax)) v,
  well_formed n t -> encloses n t f -> is_finite (t_err t) = true -> in_box n v -> Forall2 contains x v -> nan_free n t x ->
  exists r, tm_evaluate n t x = Ret r /\ contains r (f v).
Proof. intros. eapply evaluate_sound; eauto. Qed.
Print Assumptions C53_evaluate_partial.
Lemma nan_free_intro n (t : tm 53 1024) x :
  match horner_evaluate (Some (b_of fzero)) (lift2 b_add) (fun a b => trap (lift2 b_mul a b)) n
    (map (fun m => (fst m, Some (b_of (snd m)))) (t_exp t)) (map Some x) with Ret (Some _) => true | _ => false end = true -> nan_free n t x.
Proof. unfold nan_free. intros H. destruct (horner_evaluate _ _ _ _ _ _) as [[r|]| |]; try discriminate. exists r. reflexivity. Qed.
Example C53_nonvacuous :
  let t := mkTM [([1%N; 1%N], dp 1 (-2)); ([2%N; 0%N], dp 1 0); ([1%N; 0%N], dp 1 0); ([0%N; 0%N], dp 3 0)] (dp 1 (-4)) in
  let x := [mkB (dp 1 (-2)) (dp 1 (-1)); mkB (dp 0 0) (dp 1 0)] in
  nan_free 2 t x /\ Forall2 contains x [/ 4; 1] /\
  match tm_evaluate 2 t x with Ret r => flt_eq (b_l r) (dp 52 (-4)) && flt_eq (b_u r) (dp 63 (-4)) | _ => false end = true.
Proof.
  cbv zeta. split; [apply nan_free_intro; vm_compute; reflexivity|]. split.
  - constructor; [|constructor; [|constructor]].
    + split; cbn [b_l b_u]; [apply below_finite; [dpfin|]|apply above_finite; [dpfin|]]; [dpval (dp 1 (-2))|dpval (dp 1 (-1))]; lra.
    + split; cbn [b_l b_u]; [apply below_finite; [dpfin|]|apply above_finite; [dpfin|]].
      * rewrite (dp_zero (dp 0 0)) by (vm_compute; reflexivity). lra.
      * dpval (dp 1 0). lra.
  - vm_compute. reflexivity.
Qed.

(** ** C54: turning the error into a variable, discarding variables *)
Theorem C54_embed_error : forall prec emax (Hp : Prec_gt_0 prec) (He : Prec_lt_emax prec emax) (n : nat) (t : tm prec emax),
  well_formed n t -> is_finite (t_err t) = true ->
  well_formed (S n) (tm_embed_error n t) /\ B2R (t_err (tm_embed_error n t)) = 0 /\
  (forall f, encloses n t f -> forall x, in_box n x -> exists s, -1 <= s <= 1 /\ peval (t_exp (tm_embed_error n t)) (x ++ [s]) = f x) /\
  (forall x s, in_box n x -> -1 <= s <= 1 -> Rabs (peval (t_exp (tm_embed_error n t)) (x ++ [s]) - peval (t_exp t) x) <= Rabs (B2R (t_err t))).
Proof.
  intros prec emax Hp He n t W F. split; [apply embed_error_wf; auto|]. split; [reflexivity|]. destruct W as [Z S]. split.
  - intros f E x X. destruct (E F) as [_ B]. specialize (B x X). rewrite Rmult_1_l in B.
    destruct (Req_dec (B2R (t_err t)) 0) as [Q|Q].
    + exists 0. split; [lra|]. rewrite (embed_error_ok n) by (auto; apply X). rewrite Q in *. apply Rabs_le_inv in B. lra.
    + exists ((f x - peval (t_exp t) x) / B2R (t_err t)). pose proof (Rabs_pos (f x - peval (t_exp t) x)).
      split; [|rewrite (embed_error_ok n) by (auto; apply X); field; auto].
      apply Rabs_le_inv. unfold Rdiv. rewrite Rabs_mult, Rabs_inv, (Rabs_pos_eq (B2R (t_err t))) by lra.
      apply Rmult_le_reg_r with (B2R (t_err t)); [lra|]. rewrite Rmult_assoc, Rinv_l by auto. lra.
  - intros x s X Hs. rewrite (embed_error_ok n) by (auto; apply X).
    match goal with |- Rabs ?u <= _ => replace u with (B2R (t_err t) * s) by ring end. rewrite Rabs_mult.
    assert (Rabs s <= 1) by (apply Rabs_le; lra). pose proof (Rabs_pos (B2R (t_err t))). nra.
Qed.
Print Assumptions C54_embed_error.
Theorem C54_discard : forall prec emax (Hp : Prec_gt_0 prec) (He : Prec_lt_emax prec emax) (keep : list bool) (t : tm prec emax) f,
  well_formed (length keep) t -> encloses (length keep) t f ->
  well_formed (length (filter (fun b : bool => b) keep)) (tm_discard keep t) /\
  (is_finite (t_err (tm_discard keep t)) = true ->
   forall x, in_box (length keep) x ->
     Rabs (f x - peval (t_exp (tm_discard keep t)) (select keep x)) <= B2R (t_err (tm_discard keep t))).
Proof.
  intros prec emax Hp He keep t f W E. split.
  - replace (filter (fun b : bool => b) keep) with (select keep keep); [apply discard_wf; auto|]. clear. induction keep as [|[] l IH]; cbn; congruence.
  - intros F. eapply discard_encl; eauto. apply W.
Qed.
Print Assumptions C54_discard.
Example C54_nonvacuous :
  let t := mkTM [([1%N; 1%N], dp 1 (-2)); ([1%N; 0%N], dp 1 0); ([0%N; 0%N], dp 3 0)] (dp 1 (-4)) in
  digits (tm_embed_error 2 t) =
    ([([0%N; 0%N; 1%N], SpecFloat.S754_finite false 4503599627370496 (-56)); ([1%N; 1%N; 0%N], SpecFloat.S754_finite false 4503599627370496 (-54));
      ([1%N; 0%N; 0%N], SpecFloat.S754_finite false 4503599627370496 (-52)); ([0%N; 0%N; 0%N], SpecFloat.S754_finite false 6755399441055744 (-51))], SpecFloat.S754_zero false) /\
  digits (tm_discard [true; false] t) =
    ([([1%N], SpecFloat.S754_finite false 4503599627370496 (-52)); ([0%N], SpecFloat.S754_finite false 6755399441055744 (-51))], SpecFloat.S754_finite false 5629499534213120 (-54)).
Proof. cbv zeta. split; vm_compute; reflexivity. Qed.
