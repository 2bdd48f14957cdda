(** * Properties C107-C109: bounds for the flow of a differential equation

    The positive theorems hold in every precision of at least 11 digits; double precision is 53, 1024.  The vector
    field is an arbitrary real function, given to the bounder by any evaluation on boxes which encloses it; the step
    allowed by the Lipschitz constant is arbitrary. *)
From Coq Require Import ZArith Bool List Reals Lia Lra Psatz.
From Flocq Require Import Core IEEE754.BinarySingleNaN.
From Verif Require Import Logical_Model Float_Model Float_Spec Float_Proofs Bounds_Model Bounds_Spec Bounds_Proofs Bounds_Props Ball_Props.
From Verif Require Import ConstraintSolver_Model ConstraintSolver_Spec ConstraintSolver_Proofs ConstraintSolver_Props.
From Verif Require Import Bounder_Model Bounder_Spec Bounder_Math Bounder_Proofs.
From Verif Require Exact_Model.
Import ListNotations.
Local Open Scope R_scope.
Local Notation dbnd := (bounds 53 1024).
Local Notation time := Exact_Model.dyadic_fin.
Local Notation mkD := Exact_Model.mkD.

Section General.
Context {prec emax : Z} {Hprec : Prec_gt_0 prec} {Hemax : Prec_lt_emax prec emax} {Hp : (11 <= prec)%Z}.
Local Notation fl := (binary_float prec emax).
Local Notation bnd := (bounds prec emax).

Lemma starting_bounds hlip hsug : 0 <= tval hsug -> (forall l, hlip = Some l -> 0 <= tval l) ->
  0 <= tval (starting_step hlip hsug) <= tval hsug /\ (starting_step hlip hsug = hsug \/ hlip = Some (starting_step hlip hsug)).
Proof.
  intros P Q. destruct hlip as [l|]; cbn; [|split; [lra|auto]]. specialize (Q l eq_refl).
  destruct t_lt eqn:E; [split; [lra|auto]|]. split; [|auto]. split; auto.
  apply Rnot_lt_le. intros L. apply t_lt_iff in L. congruence.
Qed.
Lemma one_and_half h : tval (Exact_Model.d_mulx h (mkD 3 (-1))) = tval h * (3 / 2).
Proof.
  unfold tval, Exact_Model.d_mulx; cbn [Exact_Model.mant Exact_Model.expo]. rewrite mult_IZR, bpow_plus.
  change (bpow radix2 (-1)) with (/ 2). field.
Qed.

(** C107, for a step starting and ending at times which are floating-point numbers: the flow stays in the box returned, and
    the step is not longer than suggested.  Missing: other times, for which the claim fails; boxes with coordinates
    beyond [2^(emax-4)]; fields which are not Lipschitz. *)
Theorem C107_bounder_partial auto F f (D A : list bnd) t hmin hlip fuel hsug h B :
  encloses_field auto F (length D) f -> moderate_box D ->
  float_time (prec := prec) (emax := emax) t -> float_time (prec := prec) (emax := emax) (Exact_Model.d_addx t h) ->
  locally_lipschitz F (length D) A (tval t) (tval t + tval h) ->
  compute auto f D A t hmin hlip fuel hsug = Found h B -> 0 < tval h ->
  bounds_flow F D A (tval t) (tval h) B.
Proof.
  intros HF MD Ft Fth Lip E P t1 x a Ht1 Sol.
  unfold compute in E. apply search_cases in E as [(Br & Ex & ->) _].
  set (T := to_time_bounds t (Exact_Model.d_addx t h)) in *.
  destruct (to_float_exact (Hp := Hp) mode_DN t Ft) as [E1 M1]. destruct (to_float_exact (Hp := Hp) mode_DN _ Fth) as [E2 M2].
  rewrite tval_add in E2.
  assert (moderate (b_l T) /\ moderate (b_u T) /\ B2R (b_l T) = tval t /\ t1 <= B2R (b_u T) /\ tval t < t1) as MT.
  { unfold T, to_time_bounds; cbn [b_l b_u]. repeat (split; auto). all: try lra. all: try apply M1; apply M2. }
  apply (refine_flow (Hp := Hp) auto F f D A T _ _ x a HF MD MT Sol).
  assert (locally_lipschitz F (length D) A (tval t) t1) as Lip1.
  { intros r. destruct (Lip r) as (L & H). exists L. intros y z s b e Hs. apply H. lra. }
  refine (expand_flow (Hp := Hp) auto F f D A T _ _ x a HF MD MT Sol Lip1 expansion_steps
            (formula auto f D A T D box_radius_widening initial_starting_widening) Br _ _ Ex).
  - apply (formula_start (Hp := Hp) auto F f D A T _ _ x a HF MD MT Sol); [apply (widening_2 (Hp := Hp) D)|apply Sol].
  - apply formula_length. eapply value_length with (y := x (tval t)) (s := tval t) (b := a (tval t)); eauto; try lra; apply Sol; lra.
Qed.

Theorem C107_step_bound auto f (D A : list bnd) t hmin hlip fuel hsug h B : 0 <= tval hsug -> (forall l, hlip = Some l -> 0 <= tval l) ->
  compute auto f D A t hmin hlip fuel hsug = Found h B -> 0 <= tval h <= tval hsug.
Proof.
  intros P Q E. destruct (starting_bounds hlip hsug P Q) as [S _].
  assert (0 <= tval h <= tval (starting_step hlip hsug)); [|lra].
  eapply search_small; [| |exact E]; [lra|]. rewrite one_and_half. lra.
Qed.

(** For autonomous systems the bounder takes the initial time to be zero; a suggestion which is a float is enough. *)
Theorem C107_autonomous_partial auto F f (D A : list bnd) hmin hlip fuel hsug h B :
  encloses_field auto F (length D) f -> moderate_box D ->
  float_time (prec := prec) (emax := emax) hsug -> 0 <= tval hsug ->
  (forall l, hlip = Some l -> float_time (prec := prec) (emax := emax) l /\ 0 <= tval l) ->
  locally_lipschitz F (length D) A 0 (tval h) ->
  compute auto f D A (mkD 0 0) hmin hlip fuel hsug = Found h B -> 0 < tval h ->
  bounds_flow F D A 0 (tval h) B.
Proof.
  intros HF MD Fs Ps Q Lip E P.
  assert (tval (mkD 0 0) = 0) as Z by (unfold tval; cbn; ring).
  assert (0 <= tval h <= tval hsug) as Hh by (eapply C107_step_bound; [exact Ps| |exact E]; intros l Hl; apply Q; auto).
  rewrite <- Z. apply (C107_bounder_partial auto F f D A (mkD 0 0) hmin hlip fuel hsug h B); auto.
  - exists (B754_zero false). split; [split; auto; cbn; rewrite Rabs_R0; left; apply bpow_gt_0|]. rewrite Z. reflexivity.
  - assert (float_time (prec := prec) (emax := emax) h) as (x & Mx & Ex).
    { pose proof E as E'. unfold compute in E'. apply search_cases in E' as [_ C].
      destruct (starting_bounds hlip hsug Ps (fun l Hl => proj2 (Q l Hl))) as [_ S].
      destruct C as [->|[(y & ->) _]].
      - destruct S as [->|S]; auto. apply Q; auto.
      - exists y. rewrite of_float_val in *. split; auto. destruct Fs as (z & (Fz & Mz) & Ez).
        split; [destruct y; auto; cbn in P; lra|]. rewrite Rabs_pos_eq by lra. rewrite <- Ez in Hh. pose proof (Rle_abs (B2R z)). lra. }
    exists x. split; auto. rewrite tval_add, Z, Rplus_0_l. auto.
  - rewrite Z, Rplus_0_l. auto.
Qed.

(** C108: with a positive minimum the search ends; the step returned is the first one tried or at least the minimum. *)
Theorem C108_search_ends auto f (D A : list bnd) t hmin hlip hsug : 0 < tval hmin -> 0 <= tval hsug -> (forall l, hlip = Some l -> 0 <= tval l) ->
  exists N, forall fuel, (N <= fuel)%nat -> compute auto f D A t hmin hlip fuel hsug <> Searching.
Proof.
  intros Pm Ps Q. destruct (starting_bounds hlip hsug Ps Q) as [S _].
  destruct (Pow_x_infinity 2 ltac:(rewrite Rabs_pos_eq; lra) (2 * tval hsug / tval hmin + 1)) as (k & Hk).
  exists (2 * k + 3)%nat. intros fuel Hf. unfold compute. eapply search_ends with (k := k) (c := 2 * tval hsug); auto; [lra| |].
  - rewrite one_and_half. lra.
  - specialize (Hk k (Nat.le_refl k)). rewrite Rabs_pos_eq in Hk by (apply pow_le; lra).
    apply Rlt_le_trans with (tval hmin * (2 * tval hsug / tval hmin + 1)); [field_simplify; lra|].
    apply Rmult_le_compat_l; lra.
Qed.
Theorem C108_step_size_partial auto f (D A : list bnd) t hmin hlip fuel hsug h B :
  compute auto f D A t hmin hlip fuel hsug = Found h B -> h = starting_step hlip hsug \/ tval hmin <= tval h.
Proof. intros E. apply search_cases in E as [_ [|[_ ]]]; auto. Qed.
End General.
Print Assumptions C107_bounder_partial.
Print Assumptions C107_step_bound.
Print Assumptions C107_autonomous_partial.
Print Assumptions C108_search_ends.
Print Assumptions C108_step_size_partial.

(** ** Examples *)
Lemma double_digits : (11 <= 53)%Z. Proof. lia. Qed.
Lemma tval_dyadic m e : tval (mkD m e) = IZR m * bpow radix2 e. Proof. reflexivity. Qed.
(** [x' = -x] *)
Definition decay : field := fun x _ _ => map Ropp x.
Definition ev_decay : list dbnd -> list dbnd := map b_neg.
Lemma decay_encloses : encloses_field true decay 1 (fun B => ev_decay (firstn 1 B)).
Proof.
  split; [intros x s a H; unfold decay; rewrite map_length; auto|].
  intros B A x s a HB HA L. pose proof (in_box_length _ _ HB) as LB. unfold ev_decay, decay.
  destruct HB as [|X r B x C HB]; [discriminate|]. destruct HB; [|discriminate]. cbn. constructor; [apply b_neg_contains; auto|constructor].
Qed.
Lemma decay_lipschitz (A : list dbnd) t0 t1 : locally_lipschitz decay 1 A t0 t1.
Proof.
  intros r. exists 1. intros x y s a e Hs HA Lx Ly H i Hi. destruct x as [|u [|]], y as [|v [|]]; try discriminate.
  assert (i = 0)%nat as -> by lia. specialize (H 0%nat ltac:(lia)). cbn in *. destruct H as (_ & _ & H).
  replace (- u - - v) with (- (u - v)) by ring. rewrite Rabs_Ropp. lra.
Qed.
Lemma decay_solves (X : dbnd) c h : contains X c -> solves decay [X] [] 0 h (fun s => [c * exp (- s)]) (fun _ => []).
Proof.
  intros C.
  assert (forall s, derivable_pt_lim (fun s => c * exp (- s)) s (- (c * exp (- s)))) as Dv.
  { intros s. replace (- (c * exp (- s))) with (c * (exp (- s) * -1)) by ring.
    apply (derivable_pt_lim_scal (fun s => exp (- s))). apply (derivable_pt_lim_comp Ropp exp).
    - apply (derivable_pt_lim_opp id). apply derivable_pt_lim_id.
    - apply derivable_pt_lim_exp. }
  split.
  - constructor; [|constructor]. rewrite Ropp_0, exp_0, Rmult_1_r. auto.
  - reflexivity.
  - constructor.
  - intros i s Hi Hs. cbn in Hi. assert (i = 0)%nat as -> by lia. cbn [nth]. apply derivable_continuous_pt. eexists. apply Dv.
  - intros i s Hi Hs. cbn in Hi. assert (i = 0)%nat as -> by lia. cbn. apply Dv.
Qed.
(** Starting in [1,2] with step 1/4: a box is found, and every solution [c*exp(-s)] is bounded by it. *)
Example C107_nonvacuous : exists B, compute true (fun B => ev_decay (firstn 1 B)) [iv (d_ 1) (d_ 2)] [] (mkD 0 0) (mkD 1 (-20)) (Some (mkD 1 (-1))) 20 (mkD 1 (-2))
    = Found (mkD 1 (-2)) B /\
  forall c s, 1 <= c <= 2 -> 0 <= s <= / 4 -> in_cbox B [c * exp (- s)].
Proof.
  set (r := compute _ _ _ _ _ _ _ _ _).
  assert (match r with Found h B => Z.eqb (Exact_Model.mant h) 1 && Z.eqb (Exact_Model.expo h) (-2) | _ => false end = true) as E by (vm_compute; reflexivity).
  destruct r as [h B| |] eqn:Er; try discriminate E. unfold r in Er. clear r. apply andb_prop in E as [E1 E2].
  apply Z.eqb_eq in E1, E2. destruct h as [m e]; cbn in E1, E2; subst. exists B. split; auto. intros c s Hc Hs.
  assert (tval (mkD 1 (-2)) = / 4) as V by (unfold tval; cbn; lra).
  assert (float_time (prec := 53) (emax := 1024) (mkD 1 (-2))) as F1.
  { exists (dp 1 (-2)). split; [apply moderate_dp; reflexivity|]. rewrite V. dpval (dp 1 (-2)). lra. }
  refine (C107_autonomous_partial (Hp := double_digits) true decay (fun B => ev_decay (firstn 1 B)) [iv (d_ 1) (d_ 2)] [] (mkD 1 (-20)) (Some (mkD 1 (-1))) 20 (mkD 1 (-2)) (mkD 1 (-2)) B
    decay_encloses _ F1 _ _ _ Er _ (/ 4) (fun s => [c * exp (- s)]) (fun _ => []) _ _ s _).
  - constructor; [|constructor]. split; apply moderate_dp; reflexivity.
  - rewrite V. lra.
  - intros l Hl. injection Hl as <-. split; [|unfold tval; cbn; lra].
    exists (dp 1 (-1)). split; [apply moderate_dp; reflexivity|]. unfold tval. cbn [Exact_Model.mant Exact_Model.expo]. dpval (dp 1 (-1)). cbn. lra.
  - apply decay_lipschitz.
  - rewrite V. lra.
  - rewrite V. lra.
  - apply decay_solves. split; [apply below_finite|apply above_finite]; auto; cbn [iv b_l b_u]; [dpval (d_ 1)|dpval (d_ 2)]; lra.
  - lra.
Qed.

(** [x' = 1], a system depending on time in the program *)
Definition unit_field : field := fun _ _ _ => [1].
Definition ev_unit : list dbnd -> list dbnd := fun _ => [b_of (d_ 1)].
Lemma unit_encloses : (forall x s a, length x = 1%nat -> length (unit_field x s a) = 1%nat) /\
  (forall B T A x s a, in_cbox B x -> contains T s -> in_cbox A a -> length x = 1%nat -> in_cbox (ev_unit (B ++ T :: A)) (unit_field x s a)).
Proof.
  split; [reflexivity|]. intros. constructor; [|constructor]. rewrite <- d1_val. apply b_of_contains. reflexivity.
Qed.
Definition tenth : time := mkD 3602879701896397 (-55).
(** C107 fails for other times: starting at 0 at time 1 with the step 0.1, the solution [s-1] leaves the box. *)
Theorem C107_time_refuted : exists F f (D : list dbnd) t hmin hsug h B x,
  encloses_field false F (length D) f /\ moderate_box D /\ float_time (prec := 53) (emax := 1024) t /\ float_time (prec := 53) (emax := 1024) hsug /\
  locally_lipschitz F (length D) ([] : list dbnd) (tval t) (tval t + tval h) /\
  compute false f D [] t hmin None 1 hsug = Found h B /\ h = hsug /\ 0 < tval hmin < tval h /\
  solves F D [] (tval t) (tval t + tval h) x (fun _ => []) /\ ~ in_cbox B (x (tval t + tval h)).
Proof.
  set (r := compute false ev_unit [b_of (d_ 0)] [] (mkD 1 0) (mkD 1 (-20)) None 1 tenth).
  assert (match r with Found h B => Z.eqb (Exact_Model.mant h) 3602879701896397 && Z.eqb (Exact_Model.expo h) (-55)
             && is_finite (b_u (coord B 0)) && flt_lt (b_u (coord B 0)) (dp 3602879701896397 (-55)) | _ => false end = true) as E by (vm_compute; reflexivity).
  destruct r as [h B| |] eqn:Er; try discriminate E. unfold r in Er. clear r.
  apply andb_prop in E as [E E4]. apply andb_prop in E as [E E3]. apply andb_prop in E as [E1 E2].
  apply Z.eqb_eq in E1, E2. destruct h as [m e]; cbn in E1, E2; subst. fold tenth in Er.
  assert (tval tenth = B2R (dp 3602879701896397 (-55))) as Vt by (dpval (dp 3602879701896397 (-55)); unfold tval, tenth; cbn; lra).
  assert (/ 16 < tval tenth) as Pt by (unfold tval, tenth; cbn; lra).
  assert (tval (mkD 1 0) = 1) as V1 by (unfold tval; cbn; lra).
  exists unit_field, ev_unit, [b_of (d_ 0)], (mkD 1 0), (mkD 1 (-20)), tenth, tenth, B, (fun s => [s - 1]).
  split; [exact unit_encloses|]. split.
  { constructor; [|constructor]. split; apply moderate_dp; reflexivity. }
  split. { exists (d_ 1). split; [apply moderate_dp; reflexivity|]. rewrite V1. apply d1_val. }
  split. { exists (dp 3602879701896397 (-55)). split; [apply moderate_dp; reflexivity|]. auto. }
  split. { intros q. exists 0. intros. unfold unit_field. rewrite Rminus_diag_eq, Rabs_R0 by auto. lra. }
  split; [exact Er|]. split; [reflexivity|]. split. { split; [|apply Rlt_trans with (/16); auto]; unfold tval; cbn; lra. }
  split.
  - assert (forall s, derivable_pt_lim (fun s => s - 1) s 1) as Dv.
    { intros s. assert (derivable_pt_lim (id - fct_cte 1)%F s (1 - 0)) as Q.
      { apply derivable_pt_lim_minus; [apply derivable_pt_lim_id|apply derivable_pt_lim_const]. }
      rewrite Rminus_0_r in Q. exact Q. }
    split.
    + constructor; [|constructor]. rewrite V1. split; [apply below_finite|apply above_finite]; auto; cbn [b_of b_l b_u]; dpval (d_ 0); lra.
    + reflexivity.
    + constructor.
    + intros i s Hi Hs. cbn in Hi. assert (i = 0)%nat as -> by lia. cbn [nth]. apply derivable_continuous_pt. eexists. apply Dv.
    + intros i s Hi Hs. cbn in Hi. assert (i = 0)%nat as -> by lia. cbn. apply Dv.
  - intros H. rewrite V1 in H. apply in_coord with (v := 0%nat) in H; [|apply in_box_length in H; rewrite H; cbn; lia].
    destruct H as [_ U]. cbn [nth] in U. apply above_finite in U; auto.
    apply flt_lt_finite in E4; auto. rewrite <- Vt in E4. lra.
Qed.
Print Assumptions C107_time_refuted.

(** C108: the minimum is only compared with reduced steps, so a shorter step, even zero, can be returned. *)
Theorem C108_minimum_refuted : exists F f (D : list dbnd) hmin hlip hsug h B,
  encloses_field true F (length D) f /\ moderate_box D /\ 0 < tval hmin < tval hsug /\ 0 <= tval hlip /\
  compute true f D [] (mkD 0 0) hmin (Some hlip) 1 hsug = Found h B /\ tval h = 0.
Proof.
  set (f := fun B => ev_decay (firstn 1 B)).
  set (r := compute true f [iv (d_ 1) (d_ 2)] [] (mkD 0 0) (mkD 1 (-20)) (Some (mkD 0 0)) 1 (mkD 1 (-2))).
  assert (match r with Found h B => Z.eqb (Exact_Model.mant h) 0 | _ => false end = true) as E by (vm_compute; reflexivity).
  destruct r as [h B| |] eqn:Er; try discriminate E. unfold r in Er. clear r. apply Z.eqb_eq in E.
  exists decay, f, [iv (d_ 1) (d_ 2)], (mkD 1 (-20)), (mkD 0 0), (mkD 1 (-2)), h, B.
  split; [exact decay_encloses|]. split. { constructor; [|constructor]. split; apply moderate_dp; reflexivity. }
  split. { unfold tval; cbn; lra. } split. { unfold tval; cbn; lra. } split; [exact Er|]. unfold tval. rewrite E. ring.
Qed.
Print Assumptions C108_minimum_refuted.
Example C108_nonvacuous : 0 < tval (mkD 1 (-20)) /\ 0 <= tval (mkD 1 (-2)) /\
  match compute true (fun B => ev_decay (firstn 1 B)) [iv (d_ 1) (d_ 2)] [] (mkD 0 0) (mkD 1 (-20)) None 20 (mkD 8 0) with
  | Found h B => t_lt h (mkD 8 0) | _ => false end = true.
Proof. repeat split; try (unfold tval; cbn; lra). Qed.

(** C109: the box is not tight: where nothing moves it is twice as wide as the initial box. *)
Definition rest : field := fun x _ _ => map (fun _ => 0) x.
Definition ev_rest : list dbnd -> list dbnd := fun B => map (fun _ => b_of (d_ 0)) (firstn 1 B).
Definition shown_box (B : list dbnd) := map (fun X : dbnd => (B2SF (b_l X), B2SF (b_u X))) B.
Theorem C109_tight_refuted : exists f (D : list dbnd) h B, encloses_field true rest (length D) f /\ moderate_box D /\ 0 < tval h /\
  compute true f D [] (mkD 0 0) (mkD 1 (-20)) None 1 h = Found h B /\
  shown_box D = shown_box [iv (d_ 0) (d_ 1)] /\ shown_box B = shown_box [iv (dp (-1) (-1)) (dp 3 (-1))].
Proof.
  set (r := compute true ev_rest [iv (d_ 0) (d_ 1)] [] (mkD 0 0) (mkD 1 (-20)) None 1 (mkD 1 (-2))).
  assert (match r with Found h B => Some (Exact_Model.mant h, Exact_Model.expo h, shown_box B) | _ => None end
     = Some (1%Z, (-2)%Z, shown_box [iv (dp (-1) (-1)) (dp 3 (-1))])) as E by (vm_compute; reflexivity).
  destruct r as [[m e] B| |] eqn:Er; try discriminate E. unfold r in Er. clear r. cbn [Exact_Model.mant Exact_Model.expo] in E. injection E as -> -> E.
  exists ev_rest, [iv (d_ 0) (d_ 1)], (mkD 1 (-2)), B. split; [|split; [|split; [|split; [exact Er|split; [reflexivity|exact E]]]]].
  - split; [intros x s a H; unfold rest; rewrite map_length; auto|].
    intros B' A x s a HB HA L. destruct HB as [|X q B'' x C HB]; [discriminate|]. destruct HB; [|discriminate]. cbn. constructor; [|constructor].
    assert (B2R (d_ 0) = 0) as <- by (dpval (d_ 0); lra). apply b_of_contains. reflexivity.
  - constructor; [|constructor]. split; apply moderate_dp; reflexivity.
  - unfold tval; cbn; lra.
Qed.
Print Assumptions C109_tight_refuted.
