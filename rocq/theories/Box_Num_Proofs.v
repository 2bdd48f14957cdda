(** The number types used as end points satisfy the requirements of Box_Spec; the float
    operations on intervals. *)
From Coq Require Import ZArith Reals List Lra Lia Bool.
From Coquelicot Require Import Rbar.
From Flocq Require Import Core IEEE754.BinarySingleNaN.
From Verif Require Import Logical_Model Float_Model Float_Spec Float_Proofs Bounds_Model Bounds_Proofs Ball_Model Ball_Proofs ErrBound_Proofs.
From Verif Require Import Box_Model Box_Spec Box_Proofs Box_Float_Model.
From Verif Require Exact_Model Exact_Spec Exact_Proofs Exact_Dyadic_Proofs.
Import ListNotations.
Local Open Scope R_scope.

(** ** Floats *)
(** The extended real denoted by a float (a NaN has none; the value here is not used). *)
Definition fval {prec emax} (x : binary_float prec emax) : Rbar :=
  match x with
  | B754_infinity false => p_infty
  | B754_infinity true => m_infty
  | _ => Finite (B2R x)
  end.
Definition num {prec emax} (x : binary_float prec emax) : Prop := is_nan x = false.

Section F.
Context {prec emax : Z} {Hprec : Prec_gt_0 prec} {Hemax : Prec_lt_emax prec emax}.
Notation fl := (binary_float prec emax).

Lemma fval_fin : forall x : fl, is_finite x = true -> fval x = Finite (B2R x).
Proof. intros [s|s| |s m e B] H; cbn in *; try discriminate; reflexivity. Qed.

Lemma Bltb_fval : forall x y : fl, num x -> num y -> (Bltb x y = true <-> Rbar_lt (fval x) (fval y)).
Proof.
  intros x y Nx Ny.
  destruct (is_finite x) eqn:Fx, (is_finite y) eqn:Fy.
  - rewrite (fval_fin x Fx), (fval_fin y Fy). apply flt_lt_finite; assumption.
  - clear - Nx Ny Fx Fy; destruct x as [s|s| |s m e B], y as [s'|[]| |s' m' e' B']; try discriminate; cbn; split; try discriminate; try tauto.
  - clear - Nx Ny Fx Fy; destruct x as [s|[]| |s m e B], y as [s'|s'| |s' m' e' B']; try discriminate; cbn; split; try discriminate; try tauto.
  - clear - Nx Ny Fx Fy; destruct x as [s|[]| |s m e B], y as [s'|[]| |s' m' e' B']; try discriminate; cbn; split; try discriminate; try tauto.
Qed.
Lemma Bleb_fval : forall x y : fl, num x -> num y -> (Bleb x y = true <-> Rbar_le (fval x) (fval y)).
Proof.
  intros x y Nx Ny.
  destruct (is_finite x) eqn:Fx, (is_finite y) eqn:Fy.
  - rewrite (fval_fin x Fx), (fval_fin y Fy). apply flt_le_finite; assumption.
  - clear - Nx Ny Fx Fy; destruct x as [s|s| |s m e B], y as [s'|[]| |s' m' e' B']; try discriminate; cbn; split; try discriminate; try tauto.
  - clear - Nx Ny Fx Fy; destruct x as [s|[]| |s m e B], y as [s'|s'| |s' m' e' B']; try discriminate; cbn; split; try discriminate; try tauto.
  - clear - Nx Ny Fx Fy; destruct x as [s|[]| |s m e B], y as [s'|[]| |s' m' e' B']; try discriminate; cbn; split; try discriminate; try tauto.
Qed.
Lemma Beqb_fval : forall x y : fl, num x -> num y -> (Beqb x y = true <-> fval x = fval y).
Proof.
  intros x y Nx Ny.
  destruct (is_finite x) eqn:Fx, (is_finite y) eqn:Fy.
  - rewrite (fval_fin x Fx), (fval_fin y Fy). rewrite (Beqb_correct _ _ x y Fx Fy).
    destruct (Req_bool_spec (B2R x) (B2R y)) as [H|H]; split; intros A; try congruence; try discriminate.
  - clear - Nx Ny Fx Fy; destruct x as [s|s| |s m e B], y as [s'|[]| |s' m' e' B']; try discriminate; cbn; split; try discriminate; try tauto.
  - clear - Nx Ny Fx Fy; destruct x as [s|[]| |s m e B], y as [s'|s'| |s' m' e' B']; try discriminate; cbn; split; try discriminate; try tauto.
  - clear - Nx Ny Fx Fy; destruct x as [s|[]| |s m e B], y as [s'|[]| |s' m' e' B']; try discriminate; cbn; split; try discriminate; try tauto.
Qed.
Theorem float_ok : num_ok (float_ops prec emax) num fval.
Proof.
  split; cbn [float_ops n_lt n_le n_eq n_max n_min n_pinf n_ninf].
  - exact Bltb_fval.
  - exact Bleb_fval.
  - exact Beqb_fval.
  - intros a b A B. unfold fmax. destruct (Bltb a b) eqn:L.
    + apply Bltb_fval in L; auto. repeat split; auto; [apply Rbar_lt_le; exact L|apply Rbar_le_refl].
    + repeat split; auto; [apply Rbar_le_refl|]. apply Rbar_le_iff. intro X. apply Bltb_fval in X; auto. congruence.
  - intros a b A B. unfold fmin. destruct (Bltb b a) eqn:L.
    + apply Bltb_fval in L; auto. repeat split; auto; [apply Rbar_lt_le; exact L|apply Rbar_le_refl].
    + repeat split; auto; [apply Rbar_le_refl|]. apply Rbar_le_iff. intro X. apply Bltb_fval in X; auto. congruence.
  - split; reflexivity.
  - split; reflexivity.
Qed.

(** Below and above, in terms of values. *)
Lemma below_fval : forall (x : fl) r, num x -> (below x r <-> Rbar_le (fval x) (Finite r)).
Proof. intros x r N. destruct (is_finite x) eqn:F; [rewrite (fval_fin _ F); apply below_finite; exact F|].
  destruct x as [s|[]| |s m e B]; try discriminate; cbn; split; try discriminate; try tauto; intros; exact I. Qed.
Lemma above_fval : forall (x : fl) r, num x -> (above x r <-> Rbar_le (Finite r) (fval x)).
Proof. intros x r N. destruct (is_finite x) eqn:F; [rewrite (fval_fin _ F); apply above_finite; exact F|].
  destruct x as [s|[]| |s m e B]; try discriminate; cbn; split; try discriminate; try tauto; intros; exact I. Qed.

(** *** The midpoint *)
Notation fexp := (SpecFloat.fexp prec emax).
Notation rnd m r := (round radix2 fexp (round_mode m) r).
Existing Instance valid_fexp.
Lemma double_format : forall x, generic_format radix2 fexp x -> generic_format radix2 fexp (2 * x).
Proof.
  intros x H. destruct (Req_dec x 0) as [->|Nx]; [rewrite Rmult_0_r; apply generic_format_0|].
  set (m := Ztrunc (scaled_mantissa radix2 fexp x)). set (e := cexp radix2 fexp x).
  assert (X : x = F2R (Float radix2 m e)) by exact H.
  assert (E : 2 * x = F2R (Float radix2 m (e + 1))).
  { rewrite X. unfold F2R; cbn [Fnum Fexp]. rewrite bpow_plus. change (bpow radix2 1) with 2. ring. }
  rewrite E. apply generic_format_F2R. intros _. rewrite <- E.
  unfold cexp. replace (2 * x) with (x * bpow radix2 1) by (change (bpow radix2 1) with 2; ring).
  rewrite mag_mult_bpow by exact Nx. unfold e, cexp. unfold SpecFloat.fexp. lia.
Qed.
(** Halving a finite float never overflows. *)
Lemma fhlf_rnd : forall m (f : fl), is_finite f = true -> is_finite (fhlf m f) = true -> B2R (fhlf m f) = rnd m (B2R f / 2).
Proof.
  intros m f F G. pose proof (fdiv_rounded m f (ftwo : fl) F ltac:(rewrite (proj1 ftwo_val); lra)) as R.
  rewrite (proj1 ftwo_val) in R. fold (fhlf m f) in R. destruct R as [[_ [_ E]]|[L _]]; [exact E|exfalso].
  apply Rle_not_lt in L. apply L. clear L G.
  pose proof (abs_B2R_lt_emax _ _ f) as B.
  assert (Rabs (rnd m (B2R f / 2)) <= Rabs (B2R f)) as H.
  { pose proof (generic_format_B2R _ _ f) as Gf.
    destruct (Rle_or_lt 0 (B2R f)) as [P|P].
    - rewrite !Rabs_pos_eq; auto; [|apply round_sign_pos; lra]. apply round_le_generic; auto with typeclass_instances; lra.
    - rewrite !Rabs_left1; [|lra|apply round_sign_neg; lra]. apply Ropp_le_contravar. apply round_ge_generic; auto with typeclass_instances; lra. }
  lra.
Qed.
Lemma fadd_near_rnd : forall (x y : fl), is_finite x = true -> is_finite y = true -> is_finite (fadd near x y) = true ->
  B2R (fadd near x y) = rnd near (B2R x + B2R y).
Proof.
  intros x y Fx Fy F. destruct (fadd_rounded near x y Fx Fy) as [[_ [_ E]]|[_ E]]; [exact E|]. exfalso.
  cbn in E. destruct (fadd near x y); cbn in *; discriminate.
Qed.
Theorem midpoint_between : forall m (l u : fl), B2R l <= B2R u -> is_finite (f_midpoint m l u) = true ->
  is_finite l = true /\ is_finite u = true /\ B2R l <= B2R (f_midpoint m l u) <= B2R u.
Proof.
  intros m l u Hlu F. unfold f_midpoint, b_value, fmed, b_hlf, ff_add in *. cbn [b_l b_u] in *.
  pose proof (fhlf_fin _ _ F) as Fs. destruct (fadd_fin _ _ _ Fs) as [Fd' Fe'].
  pose proof (fhlf_fin _ _ Fd') as Fd. pose proof (fhlf_fin _ _ Fe') as Fe. destruct (fadd_fin _ _ _ Fd) as [Fl Fu].
  split; [exact Fl|]. split; [exact Fu|].
  destruct (both_finite _ _ _ (fadd_rounded up l u Fl Fu) (fadd_rounded down l u Fl Fu) Fe Fd) as [_ [_ [Ee Ed]]].
  pose proof (generic_format_B2R _ _ l) as Gl. pose proof (generic_format_B2R _ _ u) as Gu.
  pose proof (double_format _ Gl) as Gl2. pose proof (double_format _ Gu) as Gu2.
  rewrite (fhlf_rnd _ _ Fs F), (fadd_near_rnd _ _ Fd' Fe' Fs), (fhlf_rnd _ _ Fd Fd'), (fhlf_rnd _ _ Fe Fe'), Ee, Ed.
  assert (D1 : 2 * B2R l <= rnd down (B2R l + B2R u)) by (apply round_ge_generic; auto with typeclass_instances; lra).
  assert (D2 : rnd down (B2R l + B2R u) <= 2 * B2R u) by (apply round_le_generic; auto with typeclass_instances; lra).
  assert (E1 : 2 * B2R l <= rnd up (B2R l + B2R u)) by (apply round_ge_generic; auto with typeclass_instances; lra).
  assert (E2 : rnd up (B2R l + B2R u) <= 2 * B2R u) by (apply round_le_generic; auto with typeclass_instances; lra).
  set (d := rnd down (B2R l + B2R u)) in *. set (e := rnd up (B2R l + B2R u)) in *.
  assert (D3 : B2R l <= rnd m (d / 2)) by (apply round_ge_generic; auto with typeclass_instances; lra).
  assert (D4 : rnd m (d / 2) <= B2R u) by (apply round_le_generic; auto with typeclass_instances; lra).
  assert (E3 : B2R l <= rnd m (e / 2)) by (apply round_ge_generic; auto with typeclass_instances; lra).
  assert (E4 : rnd m (e / 2) <= B2R u) by (apply round_le_generic; auto with typeclass_instances; lra).
  set (d' := rnd m (d / 2)) in *. set (e' := rnd m (e / 2)) in *.
  assert (S1 : 2 * B2R l <= rnd near (d' + e')) by (apply round_ge_generic; auto with typeclass_instances; lra).
  assert (S2 : rnd near (d' + e') <= 2 * B2R u) by (apply round_le_generic; auto with typeclass_instances; lra).
  split; [apply round_ge_generic|apply round_le_generic]; auto with typeclass_instances; lra.
Qed.

(** *** Widening and narrowing *)
Lemma sub_not_nan_above : forall m (x y : fl), num x -> is_finite y = true -> num (fsub m x y).
Proof. intros m x y N F. unfold num. destruct (is_finite x) eqn:Fx.
  - apply (rounded_not_nan m (B2R x - B2R y)). apply fsub_rounded; assumption.
  - destruct x as [s|s| |s mm e B]; try discriminate. destruct y as [s'|s'| |s' m' e' B']; try discriminate; reflexivity. Qed.
Lemma add_not_nan : forall m (x y : fl), num x -> is_finite y = true -> num (fadd m x y).
Proof. intros m x y N F. unfold num. destruct (is_finite x) eqn:Fx.
  - apply (rounded_not_nan m (B2R x + B2R y)). apply fadd_rounded; assumption.
  - destruct x as [s|s| |s mm e B]; try discriminate. destruct y as [s'|s'| |s' m' e' B']; try discriminate; reflexivity. Qed.

(** The widened interval contains everything within [e] of the interval. *)
Lemma widen_spec : forall (i : interval fl) e r s, num (raw_l i) -> num (raw_u i) -> is_finite e = true ->
  in_ivl fval i r -> Rabs (s - r) <= B2R e -> in_ivl fval (f_widen i e) s.
Proof.
  intros i e r s Nl Nu Fe [H1 H2] D. unfold raw_l, raw_u in *. cbn [set_of fst snd] in H1, H2. unfold raw_l, raw_u in *.
  apply (proj2 (below_fval _ r Nl)) in H1. apply (proj2 (above_fval _ r Nu)) in H2.
  apply Rabs_le_inv in D.
  split; cbn [set_of fst snd]; unfold raw_l, raw_u, f_widen; cbn [upper_ivl i_l i_u e_raw].
  - apply below_fval; [apply sub_not_nan_above; assumption|].
    eapply below_le; [apply (fsub_down_below _ e r (B2R e) H1); apply above_finite; auto; lra|lra].
  - apply above_fval; [apply add_not_nan; assumption|].
    eapply above_ge; [apply (fadd_up_above _ e r (B2R e) H2); apply above_finite; auto; lra|lra].
Qed.
Lemma narrow_spec : forall (i : interval fl) e r s, num (raw_l i) -> num (raw_u i) -> is_finite e = true ->
  in_ivl fval (f_narrow i e) s -> Rabs (r - s) <= B2R e -> in_ivl fval i r.
Proof.
  intros i e r s Nl Nu Fe [H1 H2] D. unfold raw_l, raw_u in *. cbn [set_of fst snd] in H1, H2. unfold raw_l, raw_u, f_narrow in *.
  cbn [lower_ivl i_l i_u e_raw] in H1, H2. apply Rabs_le_inv in D.
  split; cbn [set_of fst snd]; unfold raw_l, raw_u.
  - apply Rbar_le_iff. intro X. revert H1. apply Rbar_lt_not_le.
    destruct (real_between_strict _ _ X) as [q [Q1 Q2]].
    assert (above (fadd up (e_raw (i_l i)) e) (q + B2R e)) as A.
    { apply fadd_up_above; [|apply above_finite; auto; lra]. apply above_fval; [exact Nl|]. apply Rbar_lt_le; exact Q2. }
    apply above_fval in A; [|apply add_not_nan; assumption]. eapply Rbar_lt_le_trans; [|exact A]. cbn in *; lra.
  - apply Rbar_le_iff. intro X. revert H2. apply Rbar_lt_not_le.
    destruct (real_between_strict _ _ X) as [q [Q1 Q2]].
    assert (below (fsub down (e_raw (i_u i)) e) (q - B2R e)) as A.
    { apply fsub_down_below; [|apply above_finite; auto; lra]. apply below_fval; [exact Nu|]. apply Rbar_lt_le; exact Q1. }
    apply below_fval in A; [|apply sub_not_nan_above; assumption]. eapply Rbar_le_lt_trans; [exact A|]. cbn in *; lra.
Qed.
(** A positive amount puts the interval into the interior of the widened interval. *)
Lemma widen_interior : forall (i : interval fl) e r, num (raw_l i) -> num (raw_u i) -> is_finite e = true -> 0 < B2R e ->
  in_ivl fval i r -> in_inner (set_of fval (f_widen i e)) r.
Proof.
  intros i e r Nl Nu Fe Pe H.
  assert (A : in_ivl fval (f_widen i e) (r - B2R e)) by (apply (widen_spec i e r); auto; replace (r - B2R e - r) with (- B2R e) by ring; rewrite Rabs_Ropp, Rabs_pos_eq; lra).
  assert (B : in_ivl fval (f_widen i e) (r + B2R e)) by (apply (widen_spec i e r); auto; replace (r + B2R e - r) with (B2R e) by ring; rewrite Rabs_pos_eq; lra).
  destruct A as [A _], B as [_ B]. split.
  - eapply Rbar_le_lt_trans; [exact A|]. cbn. lra.
  - eapply Rbar_lt_le_trans; [|exact B]. cbn. lra.
Qed.
End F.

(** *** The domain with single-precision ends *)
Lemma to_double_val : forall x : SP, num x -> fval (to_double x) = fval x /\ num (to_double x).
Proof.
  intros x N. destruct (is_finite x) eqn:F.
  - assert (R : rounded mode_NE (B2R x) (to_double x)) by (apply fconv_rounded; exact F).
    pose proof (generic_format_B2R _ _ x) as G.
    assert (G2 : generic_format radix2 (SpecFloat.fexp 53 1024) (B2R x)).
    { eapply generic_inclusion_mag; [|exact G]. intros _. unfold SpecFloat.fexp, SpecFloat.emin. lia. }
    pose proof (abs_B2R_lt_emax _ _ x) as B.
    assert (B2 : Rabs (B2R x) < bpow radix2 1024) by (eapply Rlt_trans; [exact B|]; apply bpow_lt; lia).
    destruct R as [[_ [F' E]]|[L _]].
    + rewrite round_generic in E by auto with typeclass_instances. rewrite (fval_fin _ F), (fval_fin _ F'), E. split; [reflexivity|].
      destruct (to_double x); try discriminate; reflexivity.
    + rewrite round_generic in L by auto with typeclass_instances. lra.
  - destruct x as [s|s| |s m e B]; try discriminate; split; reflexivity.
Qed.
Lemma to_float_num : forall m x, num x -> num (to_float m x).
Proof.
  intros m x N. destruct (is_finite x) eqn:F.
  - apply (rounded_not_nan m (B2R x)). apply fconv_rounded. exact F.
  - destruct x as [s|s| |s mm e B]; try discriminate; reflexivity.
Qed.
Lemma to_float_up : forall x, num x -> Rbar_le (fval x) (fval (to_float up x)).
Proof.
  intros x N. pose proof (to_float_num up x N) as N'. destruct (is_finite x) eqn:F.
  - rewrite (fval_fin _ F). apply above_fval; [exact N'|]. apply fconv_up_above. apply above_finite; auto; lra.
  - destruct x as [s|[]| |s m e B]; try discriminate; cbn; auto.
Qed.
Lemma sp_min_fin : is_finite sp_min = true /\ 0 < B2R sp_min.
Proof. assert (F : is_finite sp_min = true) by (vm_compute; reflexivity). split; [exact F|]. apply gt0_finite; [exact F|]. vm_compute; reflexivity. Qed.

(** The upper end is an upper bound, and above the argument if this is a single point. *)
Theorem widen_domain_upper : forall i, num (raw_l i) -> num (raw_u i) -> Rbar_le (fval (raw_u i)) (fval (raw_u (widen_domain i))) /\ num (raw_u (widen_domain i)).
Proof.
  intros i Nl Nu. unfold widen_domain, raw_l, raw_u in *. set (l := e_raw (i_l i)) in *. set (u := e_raw (i_u i)) in *.
  pose proof (to_float_num up u Nu) as N1. pose proof (to_float_up u Nu) as U1.
  assert (G : forall x : SP, num x -> Rbar_le (fval u) (fval x) ->
    let ru := if flt_lt (to_double x) u then fadd up x sp_min else x in num (to_double ru) /\ Rbar_le (fval u) (fval (to_double ru))).
  { intros x Nx Ux. cbn zeta. destruct (to_double_val x Nx) as [V Nd].
    replace (flt_lt (to_double x) u) with false.
    - split; [exact Nd|rewrite V; exact Ux].
    - symmetry. apply not_true_is_false. intros L. apply Bltb_fval in L; auto. rewrite V in L. apply Rbar_lt_not_le in L. contradiction. }
  destruct (flt_eq (fneg (fneg l)) u); cbn [exact_ivl i_u e_raw].
  - destruct sp_min_fin as [Fm Pm]. destruct (G (fadd up (to_float up u) sp_min)) as [A B]; [apply add_not_nan; assumption| |split; [exact B|exact A]].
    eapply Rbar_le_trans; [exact U1|]. set (x := to_float up u) in *. destruct (is_finite x) eqn:F.
    + rewrite (fval_fin _ F). apply above_fval; [apply add_not_nan; assumption|].
      eapply above_ge; [apply (fadd_up_above x sp_min (B2R x) (B2R sp_min)); apply above_finite; auto; lra|lra].
    + destruct x as [s|[]| |s m e B]; try discriminate; cbn; auto.
  - destruct (G (to_float up u) N1 U1) as [A B]. split; [exact B|exact A].
Qed.
Lemma raw_l_widen : forall i, raw_l (widen_domain i) = to_double (to_float up (raw_l i)).
Proof. intros i. unfold widen_domain, raw_l. destruct (flt_eq _ _); cbn [exact_ivl i_l e_raw]; unfold fneg; rewrite ?Bopp_involutive; reflexivity. Qed.
(** The lower end is rounded upwards. *)
Theorem widen_domain_lower : forall i, num (raw_l i) -> Rbar_le (fval (raw_l i)) (fval (raw_l (widen_domain i))) /\ num (raw_l (widen_domain i)).
Proof. intros i N. rewrite raw_l_widen. destruct (to_double_val (to_float up (raw_l i)) (to_float_num up _ N)) as [V Nd]. rewrite V.
  split; [apply to_float_up; exact N|exact Nd]. Qed.
(** It is the lower end itself if this is a number of single precision. *)
Theorem widen_domain_exact : forall i (f : SP), num f -> fval (raw_l i) = fval f -> num (raw_l i) ->
  fval (raw_l (widen_domain i)) = fval (raw_l i).
Proof.
  intros i f Nf E N. rewrite raw_l_widen. rewrite (proj1 (to_double_val _ (to_float_num up _ N))).
  destruct (is_finite (raw_l i)) eqn:F.
  - assert (Ff : is_finite f = true). { rewrite (fval_fin _ F) in E. destruct f as [s|[]| |s m e B]; try discriminate; reflexivity. }
    rewrite (fval_fin _ F), (fval_fin _ Ff) in E. injection E as E.
    destruct (fconv_rounded up (p2:=24) (e2:=128) (raw_l i) F) as [[_ [F' V]]|[L _]].
    + rewrite E, round_generic in V by (auto with typeclass_instances; apply generic_format_B2R).
      unfold to_float. rewrite (fval_fin _ F'), (fval_fin _ F), V, E. reflexivity.
    + rewrite E, round_generic in L by (auto with typeclass_instances; apply generic_format_B2R).
      pose proof (abs_B2R_lt_emax _ _ f). lra.
  - destruct (raw_l i) as [s|s| |s m e B]; try discriminate; reflexivity.
Qed.

(** ** Rational and Dyadic *)
Definition value_of {F} (v : F -> R) (x : Exact_Model.ext F) : Rbar :=
  match Exact_Spec.meaning v x with Some r => r | None => Finite 0 end.
Definition rat_good (x : Exact_Model.rational) : Prop := x <> Exact_Model.NaN /\ Exact_Spec.canonical x.
Definition dyd_good (x : Exact_Model.dyadic) : Prop := x <> Exact_Model.NaN.
Lemma meaning_some : forall {F} (v : F -> R) x, x <> Exact_Model.NaN -> Exact_Spec.meaning v x = Some (value_of v x).
Proof. intros F v [f| | |] H; try reflexivity. congruence. Qed.
Theorem rational_ok : num_ok rational_ops rat_good (value_of Q2R).
Proof.
  split; cbn [rational_ops n_lt n_le n_eq n_max n_min n_pinf n_ninf].
  - intros a b [A _] [B _]. apply Exact_Proofs.lt_sound; apply meaning_some; assumption.
  - intros a b [A _] [B _]. apply Exact_Proofs.le_sound; apply meaning_some; assumption.
  - intros a b [A A'] [B B']. rewrite (Exact_Proofs.eq_sound a b A' B'). unfold Exact_Spec.rmean. rewrite (meaning_some _ _ A), (meaning_some _ _ B).
    split; [intros [H _]; congruence|intros ->; split; [reflexivity|discriminate]].
  - intros a b [A A'] [B B']. destruct (Exact_Proofs.max_sound _ _ _ Exact_Proofs.q_exact a b _ _ (meaning_some _ _ A) (meaning_some _ _ B)) as [c [C [D [D1 D2]]]].
    fold Exact_Model.r_max in C. assert (V : value_of Q2R (Exact_Model.r_max a b) = c) by (unfold value_of; rewrite C; reflexivity). rewrite V. repeat split; auto.
    + intros E. rewrite E in C. discriminate.
    + destruct a as [f| | |], b as [g| | |]; cbn; auto; try exact I. match goal with |- context [match ?c with _ => _ end] => destruct c end; assumption.
  - intros a b [A A'] [B B']. destruct (Exact_Proofs.min_sound _ _ _ Exact_Proofs.q_exact a b _ _ (meaning_some _ _ A) (meaning_some _ _ B)) as [c [C [D [D1 D2]]]].
    fold Exact_Model.r_min in C. assert (V : value_of Q2R (Exact_Model.r_min a b) = c) by (unfold value_of; rewrite C; reflexivity). rewrite V. repeat split; auto.
    + intros E. rewrite E in C. discriminate.
    + destruct a as [f| | |], b as [g| | |]; cbn; auto; try exact I. match goal with |- context [match ?c with _ => _ end] => destruct c end; assumption.
  - repeat split; discriminate.
  - repeat split; discriminate.
Qed.
Theorem dyadic_ok : num_ok dyadic_ops dyd_good (value_of Exact_Spec.dval).
Proof.
  split; cbn [dyadic_ops n_lt n_le n_eq n_max n_min n_pinf n_ninf].
  - intros a b A B. apply Exact_Dyadic_Proofs.d_lt_sound; apply meaning_some; assumption.
  - intros a b A B. apply Exact_Dyadic_Proofs.d_le_sound; apply meaning_some; assumption.
  - intros a b A B. apply Exact_Dyadic_Proofs.d_eq_sound; apply meaning_some; assumption.
  - intros a b A B. destruct (Exact_Proofs.max_sound _ _ _ Exact_Dyadic_Proofs.dops_exact_big a b _ _ (meaning_some _ _ A) (meaning_some _ _ B)) as [c [C [D [D1 D2]]]].
    fold Exact_Model.d_max in C. assert (V : value_of Exact_Spec.dval (Exact_Model.d_max a b) = c) by (unfold value_of; rewrite C; reflexivity). rewrite V. repeat split; auto.
    intros E. rewrite E in C. discriminate.
  - intros a b A B. destruct (Exact_Proofs.min_sound _ _ _ Exact_Dyadic_Proofs.dops_exact_big a b _ _ (meaning_some _ _ A) (meaning_some _ _ B)) as [c [C [D [D1 D2]]]].
    fold Exact_Model.d_min in C. assert (V : value_of Exact_Spec.dval (Exact_Model.d_min a b) = c) by (unfold value_of; rewrite C; reflexivity). rewrite V. repeat split; auto.
    intros E. rewrite E in C. discriminate.
  - repeat split; discriminate.
  - repeat split; discriminate.
Qed.
