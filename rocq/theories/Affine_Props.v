(** * Properties C181-C186: affine models

    An affine model is a value, a gradient and an error; it represents the
    functions within the error of the affine function on the unit box
    ([represents] in Affine_Spec).  The positive theorems hold in every
    precision and exponent range and for every number of variables. *)

From Coq Require Import ZArith NArith Reals List Bool Lia Lra.
From Flocq Require Import Core IEEE754.BinarySingleNaN.
From Verif Require Import Float_Model Float_Spec Float_Proofs Bounds_Model Bounds_Spec Bounds_Proofs Bounds_Props
  Ball_Model Ball_Spec Ball_Proofs Ball_Props ErrBound_Model LRU_Model
  Poly_Model Poly_Spec Poly_Proofs Taylor_Model Taylor_Spec Taylor_Proofs Taylor_Arith_Proofs
  Affine_Model Affine_Spec Affine_Proofs.
Import ListNotations.
Local Open Scope R_scope.

(** ** Reading a model off its digits *)
Definition adigits (a : am 53 1024) := (B2SF (a_v a), map (@B2SF 53 1024) (a_g a), B2SF (a_e a)).
Definition dcentre (v : SpecFloat.spec_float) (g : list SpecFloat.spec_float) (x : list R) : R :=
  SF2R radix2 v + linear (map (SF2R radix2) g) x.
Lemma centre_digits (a : am 53 1024) x : centre a x = dcentre (B2SF (a_v a)) (map (@B2SF 53 1024) (a_g a)) x.
Proof.
  unfold centre, dcentre. rewrite SF2R_B2SF, map_map. f_equal. f_equal. apply map_ext. intros. symmetry. apply SF2R_B2SF.
Qed.
Lemma close_at k a f v g e x : close k a f -> adigits a = (v, g, e) -> is_finite_SF e = true -> in_box (length g) x ->
  Rabs (f x - dcentre v g x) <= k * SF2R radix2 e.
Proof.
  intros C D F X. unfold adigits in D. injection D as D1 D2 D3. assert (is_finite (a_e a) = true) as Fa.
  { rewrite <- is_finite_SF_B2SF, D3. auto. }
  destruct (C Fa) as (_ & _ & H). rewrite <- D2, map_length in X. specialize (H x X).
  rewrite centre_digits, D1, D2, <- (SF2R_B2SF 53 1024 (a_e a)), D3 in H. auto.
Qed.
Lemma close_intro k a f v g e : adigits a = (v, g, e) -> is_finite_SF v = true -> forallb is_finite_SF g = true ->
  (forall x, in_box (length g) x -> Rabs (f x - dcentre v g x) <= k * SF2R radix2 e) -> close k a f.
Proof.
  intros D Fv Fg H F. unfold adigits in D. injection D as D1 D2 D3. split; [rewrite <- is_finite_SF_B2SF, D1; auto|]. split.
  - apply Forall_forall. intros c I. rewrite forallb_forall in Fg. rewrite <- is_finite_SF_B2SF. apply Fg. rewrite <- D2. apply in_map. auto.
  - intros x X. rewrite centre_digits, D1, D2, <- (SF2R_B2SF 53 1024 (a_e a)), D3. apply H. rewrite <- D2, map_length. auto.
Qed.
Ltac aexpand :=
  unfold dcentre; cbn [map linear];
  unfold SF2R, F2R; cbn [Fnum Fexp cond_Zopp]; cbn [bpow radix2 radix_val Z.pow_pos Pos.iter Z.mul Pos.mul Z.opp].
Definition z0 : DP := fzero.
Lemma one_var x : in_box 1 x -> exists t, x = [t] /\ -1 <= t <= 1.
Proof. intros [L F]. destruct x as [|t [|]]; try discriminate. exists t. inversion_clear F. auto. Qed.
Lemma one_box t : -1 <= t <= 1 -> in_box 1 [t]. Proof. intros H. split; auto. Qed.

(** The identity of one variable, without error. *)
Definition am_id : am 53 1024 := mkAM z0 [dp 1 0] z0.
Lemma id_represents : represents am_id (fun x => nth 0 x 0).
Proof.
  eapply close_intro; [vm_compute; reflexivity|reflexivity|reflexivity|]. intros x X. destruct (one_var x X) as (t & -> & T). cbn [nth]. aexpand.
  match goal with |- Rabs ?u <= ?v => replace u with 0 by lra; replace v with 0 by lra end. rewrite Rabs_R0. lra.
Qed.
(** The constant 3 up to 1/4. *)
Definition am_three : am 53 1024 := mkAM (dp 3 0) [z0] (dp 1 (-2)).
Lemma three_represents : represents am_three (fun _ => 25 / 8).
Proof.
  eapply close_intro; [vm_compute; reflexivity|reflexivity|reflexivity|]. intros x X. destruct (one_var x X) as (t & -> & T). aexpand.
  apply Rabs_le. lra.
Qed.

(** ** C181: negation and sum *)
Theorem C181_neg_add : forall prec emax (Hp : Prec_gt_0 prec) (He : Prec_lt_emax prec emax) (a1 a2 : am prec emax) f1 f2,
  represents a1 f1 -> represents a2 f2 ->
  (represents (am_neg a1) (fun x => - f1 x) /\ length (a_g (am_neg a1)) = length (a_g a1)) /\
  (length (a_g a1) <> length (a_g a2) -> am_add a1 a2 = None) /\
  (length (a_g a1) = length (a_g a2) -> exists r, am_add a1 a2 = Some r /\ length (a_g r) = length (a_g a1) /\ represents r (fun x => f1 x + f2 x)).
Proof.
  intros prec emax Hp He a1 a2 f1 f2 C1 C2. split; [|split].
  - split; [apply neg_close; auto|]. apply map_length.
  - intros N. unfold am_add. destruct (Nat.eqb_spec (length (a_g a1)) (length (a_g a2))); auto. contradiction.
  - intros L. destruct (am_add a1 a2) as [r|] eqn:E.
    + exists r. split; auto. split; [|eapply add_close; eauto]. unfold am_add in E. rewrite L, Nat.eqb_refl in E.
      destruct (add_err (a_v a1) (a_v a2) fzero) as [v e0].
      pose proof (thread_length (fun p e => add_err (fst p) (snd p) e) (combine (a_g a1) (a_g a2)) e0) as TL.
      destruct (thread _ (combine (a_g a1) (a_g a2)) e0) as [g e1]. injection E as <-. cbn [a_g fst] in *. rewrite combine_length in TL. lia.
    + exfalso. unfold am_add in E. rewrite L, Nat.eqb_refl in E. destruct (add_err (a_v a1) (a_v a2) fzero).
      destruct (thread _ _ _). discriminate.
Qed.
Print Assumptions C181_neg_add.
Example C181_nonvacuous : represents am_id (fun x => nth 0 x 0) /\ represents am_three (fun _ => 25 / 8) /\
  option_map adigits (am_add am_id am_three) = Some (B2SF (dp 3 0), [B2SF (dp 1 0)], B2SF (dp 1 (-2))) /\
  adigits (am_neg am_three) = (B2SF (dp (-3) 0), [SpecFloat.S754_zero true], B2SF (dp 1 (-2))).
Proof. split; [apply id_represents|]. split; [apply three_represents|]. split; vm_compute; reflexivity. Qed.

(** ** C182: scaling by a constant *)
(** The constant is given by bounds; the error covers half of the width of the
    products, although the stored coefficient need not be their midpoint. *)
Theorem C182_bounds_partial : forall prec emax (Hp : Prec_gt_0 prec) (He : Prec_lt_emax prec emax) (a : am prec emax) (c : bounds prec emax) v f,
  is_finite (b_value c) = true -> contains c v -> represents a f -> close 2 (am_mulc c a) (fun x => v * f x).
Proof. intros. apply mulc_close; auto; [lra|]. intros. apply mul_err_b_ok; auto. Qed.
Print Assumptions C182_bounds_partial.
Theorem C182_point_partial : forall prec emax (Hp : Prec_gt_0 prec) (He : Prec_lt_emax prec emax) (a : am prec emax) (q : binary_float prec emax) f,
  is_finite q = true -> 2 * Rabs (B2R q) < bpow radix2 emax -> represents a f -> represents (am_mulc (b_of q) a) (fun x => B2R q * f x).
Proof.
  intros prec emax Hp He a q f Fq Q C. apply mulc_close; auto; [lra| |apply b_of_contains; auto]. intros. apply mul_err_b_point; auto.
Qed.
Print Assumptions C182_point_partial.
Definition awide : bounds 53 1024 := mkB (dp 1 0) (dp (2^52+1) (-52)).
Theorem C182_refuted : exists (a : am 53 1024) (c : bounds 53 1024) v f,
  contains c v /\ is_finite (b_value c) = true /\ represents a f /\ ~ represents (am_mulc c a) (fun x => v * f x).
Proof.
  exists am_id, awide, (B2R (dp (2^52+1) (-52))), (fun x => nth 0 x 0).
  split; [apply dp_in; dpfin|]. split; [dpfin|]. split; [apply id_represents|].
  intros E. eapply close_at with (x := [1]) in E; [|vm_compute; reflexivity|reflexivity|apply one_box; lra]. cbn [nth] in E. revert E.
  dpval (dp (2^52+1) (-52)). aexpand. intros E. apply Rabs_le_inv in E. lra.
Qed.
Print Assumptions C182_refuted.
Example C182_nonvacuous : represents am_three (fun _ => 25 / 8) /\
  2 * Rabs (B2R (dp (-2) 0)) < bpow radix2 1024 /\
  adigits (am_mulc (b_of (dp (-2) 0)) am_three) = (B2SF (dp (-6) 0), [SpecFloat.S754_zero true], B2SF (dp 1 (-1))).
Proof.
  split; [apply three_represents|]. split; [|vm_compute; reflexivity].
  assert (B2R (dp (-2) 0) = -2) as -> by (dpval (dp (-2) 0); lra). rewrite Rabs_left by lra.
  replace (2 * - -2) with (bpow radix2 2) by (cbn; lra). apply bpow_lt. lia.
Qed.

(** ** C183: adding a constant *)
(** The error grows by the constant itself instead of by the rounding error of
    the sum.  For a negative constant it shrinks, and can become negative: then
    the model represents no function, and its range is empty. *)
Theorem C183_refuted : exists (a : am 53 1024) (q : DP) f, is_finite q = true /\ represents a f /\
  flt_lt (a_e (am_addc (b_of q) a)) fzero = true /\
  flt_lt (b_u (am_range (am_addc (b_of q) a))) (b_l (am_range (am_addc (b_of q) a))) = true /\
  forall g, ~ represents (am_addc (b_of q) a) g.
Proof.
  exists am_three, (dp (-4) 0), (fun _ => 25 / 8). split; [dpfin|]. split; [apply three_represents|]. split; [dpfin|]. split; [dpfin|].
  intros g E. eapply close_at with (x := [1]) in E; [|vm_compute; reflexivity|reflexivity|apply one_box; lra]. revert E. aexpand. intros E.
  match type of E with Rabs ?u <= _ => pose proof (Rabs_pos u) end. lra.
Qed.
Print Assumptions C183_refuted.
(** Nonnegative floats: the error is larger than needed, and sound. *)
Theorem C183_nonnegative_partial : forall prec emax (Hp : Prec_gt_0 prec) (He : Prec_lt_emax prec emax) (a : am prec emax) (q : binary_float prec emax) f,
  is_finite q = true -> 0 <= B2R q -> 2 * Rabs (B2R q) < bpow radix2 emax -> represents a f ->
  represents (am_addc (b_of q) a) (fun x => f x + B2R q).
Proof. intros. apply addc_close; auto. Qed.
Print Assumptions C183_nonnegative_partial.
Example C183_nonvacuous : represents am_three (fun _ => 25 / 8) /\
  adigits (am_addc (b_of (dp 2 0)) am_three) = (B2SF (dp 5 0), [B2SF z0], B2SF (dp 9 (-2))).
Proof. split; [apply three_represents|vm_compute; reflexivity]. Qed.

(** ** C184: product *)
(** The magnitude of the first value is added to the error instead of being
    multiplied by the error of the second factor. *)
Theorem C184_refuted : exists (a1 a2 r : am 53 1024) f1 f2, represents a1 f1 /\ represents a2 f2 /\ am_mul a1 a2 = Some r /\
  ~ represents r (fun x => f1 x * f2 x) /\ ~ close 2 r (fun x => f1 x * f2 x).
Proof.
  exists (mkAM (dp 1 0) [z0] z0), (mkAM z0 [z0] (dp 8 0)).
  destruct (am_mul (mkAM (dp 1 0) [z0] z0) (mkAM z0 [z0] (dp 8 0))) as [r|] eqn:E; [|exfalso].
  2:{ unfold am_mul in E. cbn [a_g length Nat.eqb] in E. destruct (mul_err _ _ _). destruct (thread _ _ _). discriminate. }
  assert (adigits r = (B2SF z0, [B2SF z0], B2SF (dp 1 0))) as D.
  { assert (option_map adigits (am_mul (mkAM (dp 1 0) [z0] z0) (mkAM z0 [z0] (dp 8 0))) = Some (B2SF z0, [B2SF z0], B2SF (dp 1 0))) as D
      by (vm_compute; reflexivity).
    rewrite E in D. cbn [option_map] in D. injection D as D1 D2 D3. unfold adigits. rewrite D1, D2, D3. auto. }
  exists r, (fun _ => 1), (fun _ => 8). split; [|split; [|split; auto]].
  - eapply close_intro; [vm_compute; reflexivity|reflexivity|reflexivity|]. intros x X. destruct (one_var x X) as (t & -> & T). aexpand.
    apply Rabs_le. lra.
  - eapply close_intro; [vm_compute; reflexivity|reflexivity|reflexivity|]. intros x X. destruct (one_var x X) as (t & -> & T). aexpand.
    apply Rabs_le. lra.
  - assert (forall k, k <= 2 -> ~ close k r (fun _ => 1 * 8)) as N.
    { intros k K C. eapply close_at with (x := [1]) in C; [|exact D|vm_compute; reflexivity|apply one_box; lra]. revert C.
      let s := eval vm_compute in (B2SF (dp 1 0)) in replace (B2SF (dp 1 0)) with s by (vm_compute; reflexivity).
      cbn [z0 fzero B2SF]. aexpand. intros C. apply Rabs_le_inv in C. lra. }
    split; apply N; lra.
Qed.
Print Assumptions C184_refuted.
(** When the error of the second factor is at most 1, the product is within
    twice the error (each product of the gradient is rounded twice). *)
Theorem C184_partial : forall prec emax (Hp : Prec_gt_0 prec) (He : Prec_lt_emax prec emax) (a1 a2 : am prec emax) f1 f2,
  represents a1 f1 -> represents a2 f2 -> (is_finite (a_e a2) = true -> B2R (a_e a2) <= 1) ->
  (length (a_g a1) <> length (a_g a2) -> am_mul a1 a2 = None) /\
  (length (a_g a1) = length (a_g a2) -> exists r, am_mul a1 a2 = Some r /\ length (a_g r) = length (a_g a1) /\ close 2 r (fun x => f1 x * f2 x)).
Proof.
  intros prec emax Hp He a1 a2 f1 f2 C1 C2 S. split.
  - intros N. unfold am_mul. destruct (Nat.eqb_spec (length (a_g a1)) (length (a_g a2))); auto. contradiction.
  - intros L. destruct (am_mul a1 a2) as [r|] eqn:E.
    + exists r. split; auto. split; [|eapply mul_close with (a1 := a1) (a2 := a2); eauto]. unfold am_mul in E. rewrite L, Nat.eqb_refl in E.
      destruct (mul_err (a_v a1) (a_v a2) fzero) as [v e0].
      pose proof (thread_length (fun p e => lin_err (a_v a1) (fst p) (a_v a2) (snd p) e) (combine (a_g a1) (a_g a2)) e0) as TL.
      destruct (thread _ (combine (a_g a1) (a_g a2)) e0) as [g e1]. injection E as <-. cbn [a_g fst] in *. rewrite combine_length in TL. lia.
    + exfalso. unfold am_mul in E. rewrite L, Nat.eqb_refl in E. destruct (mul_err (a_v a1) (a_v a2) fzero).
      destruct (thread _ _ _). discriminate.
Qed.
Print Assumptions C184_partial.
Example C184_nonvacuous : represents am_id (fun x => nth 0 x 0) /\ represents am_three (fun _ => 25 / 8) /\ B2R (a_e am_three) <= 1 /\
  option_map adigits (am_mul am_id am_three) = Some (B2SF z0, [B2SF (dp 3 0)], B2SF (dp 1 (-2))).
Proof.
  split; [apply id_represents|]. split; [apply three_represents|]. split; [|vm_compute; reflexivity].
  cbn [am_three a_e]. dpval (dp 1 (-2)). lra.
Qed.

(** ** C185: range and conversions *)
Theorem C185_range : forall prec emax (Hp : Prec_gt_0 prec) (He : Prec_lt_emax prec emax) (a : am prec emax) f x,
  represents a f -> in_box (length (a_g a)) x ->
  is_finite (b_l (am_range a)) = true -> is_finite (b_u (am_range a)) = true -> contains (am_range a) (f x).
Proof. intros. apply range_ok; auto. Qed.
Print Assumptions C185_range.
(** An affine function with coefficients given by finite bounds whose midpoints
    do not overflow: every choice of coefficients is represented. *)
Theorem C185_of_affine : forall prec emax (Hp : Prec_gt_0 prec) (He : Prec_lt_emax prec emax) (b : bounds prec emax) (g : list (bounds prec emax)) v w,
  Forall (fun c => finite_bounds c /\ is_finite (b_value c) = true) (b :: g) -> contains b v -> Forall2 contains g w ->
  length (a_g (am_of_affine b g)) = length g /\ represents (am_of_affine b g) (fun x => v + linear w x).
Proof.
  intros prec emax Hp He b g v w S Cv Cw. inversion_clear S as [|? ? Sb Sg]. split; [apply map_length|]. apply of_affine_ok; auto.
Qed.
Print Assumptions C185_of_affine.
Theorem C185_of_taylor : forall prec emax (Hp : Prec_gt_0 prec) (He : Prec_lt_emax prec emax) (n : nat) (t : tm prec emax) f,
  well_formed n t -> small_degrees (t_exp t) -> encloses n t f ->
  length (a_g (am_of_taylor n t)) = n /\ represents (am_of_taylor n t) f.
Proof.
  intros prec emax Hp He n t f [Z S] D E. apply of_taylor_ok; auto. exact (sorted_nodup n _ (reverse_order n) _ Z S).
Qed.
Print Assumptions C185_of_taylor.
Example C185_nonvacuous :
  let t := mkTM [([2%N; 0%N], dp 1 0); ([0%N; 1%N], dp 5 0); ([0%N; 0%N], dp 3 0)] (dp 1 (-1)) : tm 53 1024 in
  adigits (am_of_taylor 2 t) = (B2SF (dp 3 0), [B2SF z0; B2SF (dp 5 0)], B2SF (dp 3 (-1))) /\
  adigits (am_of_affine (b_of (dp 3 0)) [mkB (dp 1 0) (dp 3 0); b_of (dp 5 0)]) = (B2SF (dp 3 0), [B2SF (dp 2 0); B2SF (dp 5 0)], B2SF (dp 1 0)) /\
  B2SF (b_l (am_range (am_of_taylor 2 t))) = B2SF (dp (-7) (-1)) /\ B2SF (b_u (am_range (am_of_taylor 2 t))) = B2SF (dp 19 (-1)).
Proof. cbv zeta. repeat split; vm_compute; reflexivity. Qed.

(** ** C186: approximate affine models *)
(** The product adds the values and one of the products of the gradient: the
    product of the constants 2 and 3 is 5 with slope 3. *)
Theorem C186_product_refuted : exists (a1 a2 r : ap 53 1024), ap_mul a1 a2 = Some r /\
  B2R (fst a1) = 2 /\ B2R (fst a2) = 3 /\ map B2R (snd a1) = [0] /\ map B2R (snd a2) = [0] /\
  B2R (fst r) = 5 /\ map B2R (snd r) = [3].
Proof.
  exists (dp 2 0, [z0]), (dp 3 0, [z0]). eexists. split; [reflexivity|]. cbn [fst snd].
  split; [dpval (dp 2 0); lra|]. split; [dpval (dp 3 0); lra|]. split; [reflexivity|]. split; [reflexivity|]. split.
  - dpval (fadd near (dp 2 0) (dp 3 0)). lra.
  - unfold zip. cbn [combine map fst snd]. f_equal. dpval (fadd near (fadd near (fmul near (dp 2 0) z0) z0) (dp 3 0)). lra.
Qed.
Print Assumptions C186_product_refuted.
(** Negation is exact; a sum, a sum with a constant and a product by a constant
    with finite operands have every coefficient rounded to nearest. *)
Theorem C186_partial : forall prec emax (Hp : Prec_gt_0 prec) (He : Prec_lt_emax prec emax) (a1 a2 : ap prec emax) (c : binary_float prec emax),
  let fins a := is_finite (fst a) = true /\ Forall (fun x => is_finite x = true) (snd a) in
  fins a1 -> fins a2 -> is_finite c = true -> length (snd a1) = length (snd a2) ->
  (B2R (fst (ap_neg a1)) = - B2R (fst a1) /\ map B2R (snd (ap_neg a1)) = map (fun x => - B2R x) (snd a1)) /\
  (exists r, ap_add a1 a2 = Some r /\ rounded near (B2R (fst a1) + B2R (fst a2)) (fst r) /\
     Forall2 (fun p x => rounded near (B2R (fst p) + B2R (snd p)) x) (combine (snd a1) (snd a2)) (snd r)) /\
  (rounded near (B2R c + B2R (fst a1)) (fst (ap_addc c a1)) /\ snd (ap_addc c a1) = snd a1) /\
  (rounded near (B2R (fst a1) * B2R c) (fst (ap_mulc c a1)) /\
     Forall2 (fun g x => rounded near (B2R g * B2R c) x) (snd a1) (snd (ap_mulc c a1))).
Proof.
  intros prec emax Hp He [v1 g1] [v2 g2] c fins [V1 G1] [V2 G2] Fc L. cbn [fst snd] in *. split; [|split; [|split]].
  - split; [apply fneg_val|]. cbn [ap_neg snd]. rewrite map_map. apply map_ext. intros. apply fneg_val.
  - unfold ap_add. cbn [fst snd]. rewrite L, Nat.eqb_refl. eexists. split; [reflexivity|]. cbn [fst snd]. split; [apply fadd_rounded; auto|].
    unfold zip. clear -G1 G2. revert g2 G2. induction g1 as [|x g1 IH]; intros [|y g2] G2; cbn [combine map]; constructor; inversion_clear G1; inversion_clear G2.
    + apply fadd_rounded; auto.
    + apply IH; auto.
  - split; auto. cbn [ap_addc fst]. apply fadd_rounded; auto.
  - split; [cbn [ap_mulc fst]; apply fmul_rounded; auto|]. cbn [ap_mulc snd]. clear -G1 Fc.
    induction G1; cbn [map]; constructor; auto. apply fmul_rounded; auto.
Qed.
Print Assumptions C186_partial.
Example C186_nonvacuous :
  let a : ap 53 1024 := (dp 2 0, [dp 1 0]) in let b : ap 53 1024 := (dp 3 0, [dp 5 0]) in
  option_map (fun r => (B2SF (fst r), map B2SF (snd r))) (ap_add a b) = Some (B2SF (dp 5 0), [B2SF (dp 6 0)]) /\
  (B2SF (fst (ap_mulc (dp 3 0) a)), map B2SF (snd (ap_mulc (dp 3 0) a))) = (B2SF (dp 6 0), [B2SF (dp 3 0)]).
Proof. cbv zeta. split; vm_compute; reflexivity. Qed.
