(** * Properties C110-C113: integrators

    Function models are any type with operations which enclose the operations on functions ([sound_operations]); the
    vector field is any real function. *)
From Coq Require Import ZArith QArith Qreals Bool List Reals Lia Lra Psatz.
From Flocq Require Import Core IEEE754.BinarySingleNaN.
From Verif Require Import Logical_Model Float_Model Float_Spec Float_Proofs Bounds_Model Bounds_Spec Bounds_Proofs Bounds_Props Ball_Props.
From Verif Require Import ConstraintSolver_Model ConstraintSolver_Spec ConstraintSolver_Proofs ConstraintSolver_Props.
From Verif Require Import Bounder_Model Bounder_Spec Bounder_Math Bounder_Proofs Bounder_Props.
From Verif Require Import Integrator_Model Integrator_Spec Integrator_Proofs.
From Verif Require Ball_Proofs Exact_Model.
Import ListNotations.
Local Open Scope R_scope.
Local Notation dbnd := (bounds 53 1024).
Local Notation time := Exact_Model.dyadic_fin.
Local Notation mkD := Exact_Model.mkD.

Section General.
Context {prec emax : Z} {Hprec : Prec_gt_0 prec} {Hemax : Prec_lt_emax prec emax} {Hp : (11 <= prec)%Z}.
Local Notation fl := (binary_float prec emax).
Local Notation bnd := (bounds prec emax).
Context {M : Type} (enc : enclosure M).

Lemma bounds_flow_shorter F (D A : list bnd) t h h' B : h' <= h -> bounds_flow F D A t h B -> bounds_flow F D A t h' B.
Proof. intros L H t1 x a Ht. apply H. lra. Qed.

(** C110: with a box which bounds the flow, the model returned encloses every solution (with constant parameters)
    at every time of the step. *)
Theorem C110_picard (ops : operations M) F (D A : list bnd) t h B (max_error : fl) min_order max_order m :
  sound_operations enc ops F D A t h B -> (forall x s a, length x = length D -> length (F x s a) = length D) ->
  bounds_flow F D A t h B -> picard_step ops max_error min_order max_order = Step m ->
  encloses_flow enc F D A t h m.
Proof.
  intros Snd FL Bd E t1 x a Ht Sol. unfold picard_step in E. destruct m_compose; [|discriminate].
  destruct picard_loop as [phi|] eqn:L; [|discriminate]. destruct above_maximum; [discriminate|]. injection E as <-.
  apply (restriction_good enc ops F D A t h B Snd t1 x a Ht Sol).
  eapply (picard_loop_good enc ops max_error F D A t h B Snd FL t1 x a Ht Sol); [exact L|].
  apply (constants_good enc ops F D A t h B Snd t1 x a Ht Sol). eapply Bd; eauto.
Qed.
(** The error was not above the maximum, before the last restriction of the domain. *)
Theorem C110_error (ops : operations M) (max_error : fl) min_order max_order m :
  picard_step ops max_error min_order max_order = Step m ->
  exists phi, m = m_restriction ops phi /\ flt_le (m_error ops phi) max_error = true.
Proof.
  intros E. unfold picard_step in E. destruct m_compose; [|discriminate].
  destruct picard_loop as [phi|] eqn:L; [|discriminate]. destruct above_maximum eqn:Ab; [discriminate|]. injection E as <-.
  exists phi. split; auto. unfold above_maximum in Ab. apply negb_false_iff in Ab. auto.
Qed.
Theorem C110_graded_partial (ops : operations M) F (D A : list bnd) t h B (max_error minimum : fl) order fuel m :
  sound_operations enc ops F D A t h B -> (forall x s a, length x = length D -> length (F x s a) = length D) ->
  bounds_flow F D A t h B -> graded_step ops max_error minimum order fuel = Step m ->
  encloses_flow enc F D A t h m.
Proof.
  intros Snd FL Bd E t1 x a Ht Sol. unfold graded_step in E. destruct m_compose; [|discriminate].
  destruct iterate as [phi|] eqn:L; [|discriminate]. destruct picard as [phi'|] eqn:P; [|discriminate].
  destruct errors_refine; [|discriminate].
  eapply (graded_refine_good enc ops max_error F D A t h B Snd FL t1 x a Ht Sol); [exact E|].
  eapply (picard_good enc ops F D A t h B Snd FL t1 x a Ht Sol); [exact P|].
  eapply (iterate_good enc ops F D A t h B Snd FL t1 x a Ht Sol); [exact L|].
  apply (constants_good enc ops F D A t h B Snd t1 x a Ht Sol). eapply Bd; eauto.
Qed.

(** The integrator with its own bounder, for autonomous fields: no assumption on the box is left. *)
Theorem C110_integrator_partial (ops : time -> list bnd -> operations M) F f (D : list bnd) hmin hlip fuelb fuel hsug (max_error : fl) min_order max_order h m :
  (forall g B, float_time (prec := prec) (emax := emax) g -> 0 <= tval g -> sound_operations enc (ops g B) F D [] 0 (tval g) B) ->
  encloses_field true F (length D) f -> moderate_box D ->
  float_time (prec := prec) (emax := emax) hsug -> 0 <= tval hsug ->
  (forall l, hlip = Some l -> float_time (prec := prec) (emax := emax) l /\ 0 <= tval l) ->
  locally_lipschitz F (length D) ([] : list bnd) 0 (tval hsug) ->
  bounded_step (compute true f D [] (mkD 0 0) hmin hlip fuelb) (fun g B => picard_step (ops g B) max_error min_order max_order) fuel hsug = Done h m ->
  0 < tval h -> tval h <= tval hsug /\ encloses_flow enc F D ([] : list bnd) 0 (tval h) m.
Proof.
  intros Snd HF MD Fs Ps Q Lip E P. unfold bounded_step in E. destruct compute as [hb B| |] eqn:C; try discriminate E.
  assert (0 <= tval hb <= tval hsug) as Hb by (eapply C107_step_bound; [exact Ps| |exact C]; intros l Hl; apply Q; auto).
  pose proof E as E'. apply reduce_cases in E' as [E1 E2].
  assert (0 <= tval h <= tval hb) as Hh by (eapply reduce_small; [| |exact E]; [lra|]; rewrite one_and_half; lra).
  split; [lra|].
  assert (float_time (prec := prec) (emax := emax) hb) as Fb.
  { pose proof C as C'. unfold compute in C'. apply search_cases in C' as [_ C'].
    destruct (starting_bounds hlip hsug Ps (fun l Hl => proj2 (Q l Hl))) as [_ S].
    destruct C' as [->|[(y & ->) _]].
    - destruct S as [->|S]; auto. apply Q; auto.
    - exists y. rewrite of_float_val in *. split; auto. destruct Fs as (z & (Fz & Mz) & Ez).
      assert (0 < B2R y) as Py by lra. split; [destruct y; auto; cbn in Py; lra|]. rewrite Rabs_pos_eq by lra. rewrite <- Ez in Hb. pose proof (Rle_abs (B2R z)). lra. }
  assert (float_time (prec := prec) (emax := emax) h) as Fh.
  { destruct E2 as [->|(y & ->)]; auto. exists y. rewrite of_float_val in *. split; auto. destruct Fs as (z & (Fz & Mz) & Ez).
    split; [destruct y; auto; cbn in P; lra|]. rewrite Rabs_pos_eq by lra. rewrite <- Ez in Hb. pose proof (Rle_abs (B2R z)). lra. }
  eapply C110_picard; [apply Snd; auto; lra|apply HF| |exact E1].
  apply bounds_flow_shorter with (tval hb); [lra|].
  apply (C107_autonomous_partial (Hp := Hp) true F f D [] hmin hlip fuelb hsug hb B); auto; [|lra].
  intros r. destruct (Lip r) as (L & H). exists L. intros y z s b e Hs. apply H. lra.
Qed.

(** C111: a fixed step with the bounder of the integrator: the model returned is one for the step reported, and the step is
    reported as complete only if it is. *)
Theorem C111_bounded_fixed (ops : time -> list bnd -> operations M) F f (D : list bnd) hmin hlip fuelb (max_error : fl) min_order max_order h :
  (forall g B, float_time (prec := prec) (emax := emax) g -> 0 <= tval g -> sound_operations enc (ops g B) F D [] 0 (tval g) B) ->
  encloses_field true F (length D) f -> moderate_box D ->
  float_time (prec := prec) (emax := emax) h -> 0 < tval h ->
  (forall l, hlip = Some l -> float_time (prec := prec) (emax := emax) l /\ 0 <= tval l) ->
  locally_lipschitz F (length D) ([] : list bnd) 0 (tval h) ->
  match bounded_fixed_step (compute true f D [] (mkD 0 0) hmin hlip fuelb) (fun g B => picard_step (ops g B) max_error min_order max_order) h with
  | Done g m => g = h /\ encloses_flow enc F D ([] : list bnd) 0 (tval h) m
  | Incomplete g m => tval g < tval h /\ (0 < tval g -> encloses_flow enc F D ([] : list bnd) 0 (tval g) m)
  | _ => True
  end.
Proof.
  intros Snd HF MD Fs Ps Q Lip. unfold bounded_fixed_step. destruct compute as [hb B| |] eqn:C; try exact I.
  assert (0 <= tval hb <= tval h) as Hb by (eapply C107_step_bound; [apply Rlt_le, Ps| |exact C]; intros l Hl; apply Q; auto).
  assert (0 < tval hb -> float_time (prec := prec) (emax := emax) hb) as Fb.
  { intros Pb. pose proof C as C'. unfold compute in C'. apply search_cases in C' as [_ C'].
    destruct (starting_bounds hlip h (Rlt_le _ _ Ps) (fun l Hl => proj2 (Q l Hl))) as [_ S].
    destruct C' as [->|[(y & ->) _]].
    - destruct S as [->|S]; auto. apply Q; auto.
    - exists y. rewrite of_float_val in *. split; auto. destruct Fs as (z & (Fz & Mz) & Ez).
      split; [destruct y; auto; cbn in Pb; lra|]. rewrite Rabs_pos_eq by lra. rewrite <- Ez in Hb. pose proof (Rle_abs (B2R z)). lra. }
  assert (forall g m, 0 < tval g <= tval hb -> float_time (prec := prec) (emax := emax) g -> picard_step (ops g B) max_error min_order max_order = Step m ->
    encloses_flow enc F D ([] : list bnd) 0 (tval g) m) as K.
  { intros g m Hg Fg E. eapply C110_picard; [apply Snd; auto; lra|apply HF| |exact E].
    apply bounds_flow_shorter with (tval hb); [lra|].
    apply (C107_autonomous_partial (Hp := Hp) true F f D [] hmin hlip fuelb h hb B); auto; try lra.
    intros r. destruct (Lip r) as (L & H). exists L. intros y z s b e Hs. apply H. lra. }
  destruct (t_lt hb h) eqn:T.
  - apply t_lt_iff in T. destruct picard_step as [m| | |] eqn:E; try exact I. split; [exact T|]. intros Pb. apply K; auto. lra.
  - assert (~ tval hb < tval h) as T' by (intros X; apply t_lt_iff in X; congruence).
    destruct picard_step as [m| | |] eqn:E; try exact I. split; [reflexivity|]. apply K; auto. lra.
Qed.

(** C111: what the search for a step size needs to end; [h0] is a step for which the step succeeds. *)
Theorem C111_search_ends_partial bounder (step : time -> list bnd -> outcome M) hsug h B h0 :
  bounder hsug = Found h B -> 0 <= tval h -> 0 < h0 ->
  (forall g, step g B <> Looping) -> (forall g, 0 <= tval g <= h0 -> step g B <> TimeStepError) ->
  exists N, forall fuel, (N <= fuel)%nat -> bounded_step bounder step fuel hsug <> Running.
Proof.
  intros E Hh H0 NL OK. destruct (Pow_x_infinity 2 ltac:(rewrite Rabs_pos_eq; lra) (2 * tval h / h0 + 1)) as (k & Hk).
  exists (2 * k + 3)%nat. intros fuel Hf. unfold bounded_step. rewrite E.
  eapply (reduce_ends (fun g => step g B) h0 H0 NL OK k) with (c := 2 * tval h); auto; [lra| |].
  - rewrite one_and_half. lra.
  - specialize (Hk k (Nat.le_refl k)). rewrite Rabs_pos_eq in Hk by (apply pow_le; lra).
    apply Rlt_le_trans with (h0 * (2 * tval h / h0 + 1)); [field_simplify; lra|]. apply Rmult_le_compat_l; lra.
Qed.
(** A fixed step returns the model for the whole step only if it passed its test. *)
Lemma fixed_loop_cases (step : time -> outcome M) inside h fuel : 0 < tval h -> forall hred phi r, fixed_loop step inside h fuel hred phi = r ->
  (hred = h \/ hred = half h) -> step hred = Step phi ->
  match r with Done g m => g = h /\ step h = Step m /\ inside m = true
             | Incomplete g m => g = half h /\ step g = Step m /\ inside m = true | _ => True end.
Proof.
  intros P. induction fuel as [|fuel IH]; intros hred phi r E C S; cbn [fixed_loop] in E; [subst; auto|].
  destruct inside eqn:I.
  - destruct t_lt eqn:L; subst r.
    + destruct C as [->| ->]; auto. exfalso. apply t_lt_iff in L. lra.
    + destruct C as [->| ->]; auto. exfalso. assert (tval (half h) < tval h) as Q by (rewrite half_val; lra). apply t_lt_iff in Q. congruence.
  - destruct (step (half h)) eqn:S2; subst r; auto. eapply IH; eauto.
Qed.
Theorem C111_fixed_result (step : time -> outcome M) inside fuel h : 0 < tval h ->
  match unbounded_fixed_step step inside fuel h with
  | Done g m => g = h /\ step h = Step m /\ inside m = true
  | Incomplete g m => g = half h /\ step g = Step m /\ inside m = true
  | _ => True
  end.
Proof.
  intros P. set (r := unbounded_fixed_step step inside fuel h). assert (unbounded_fixed_step step inside fuel h = r) as E by reflexivity.
  clearbody r. unfold unbounded_fixed_step in E. destruct (step h) as [phi| | |] eqn:S; try (subst r; exact I).
  rewrite <- S. eapply fixed_loop_cases; eauto.
Qed.

Lemma interior_refines (B1 B2 : list bnd) : in_interior B1 B2 -> box_refines B1 B2 = true /\ box_refines B1 B1 = true.
Proof.
  intros [IL I]. revert B2 IL I. induction B1 as [|X B1 IH]; intros [|Y B2] IL I; try discriminate; [split; reflexivity|].
  destruct (IH B2) as [Q1 Q2]; [injection IL; auto|intros i Hi; apply (I (S i)); cbn; lia|].
  destruct (I 0%nat ltac:(cbn; lia)) as (F1 & F2 & F3 & F4 & L1 & L2). unfold coord in F1, F2, F3, F4, L1, L2. cbn [nth] in F1, F2, F3, F4, L1, L2.
  split; unfold box_refines; cbn [combine forallb fst snd]; (apply andb_true_intro; split; [|assumption]);
    unfold b_refines; apply andb_true_intro; split; apply flt_le_finite; auto; lra.
Qed.
(** C113, if the range of the first model is in the interior of the first bound. *)
Theorem C113_series_bounder_partial series range error first widen (max_error : fl) F (D : list bnd) fuel h h' m :
  sound_series enc series range F D -> 0 <= tval h -> length first = length D ->
  in_interior (range (series h first)) first -> 
  series_bounder_step series range error first widen max_error fuel h = Done h' m ->
  0 <= tval h' <= tval h /\ encloses_flow enc F D ([] : list bnd) 0 (tval h') m.
Proof.
  intros Snd Hh FD Int E.
  assert (box_refines (range (series h first)) first = true /\ box_refines (range (series h first)) (range (series h first)) = true) as [R1 R2].
  { apply interior_refines; auto. }
  unfold series_bounder_step in E. cbv zeta in E. rewrite R1 in E.
  apply (series_loop_good enc series range error first widen max_error F D h) in E; auto; [lra|].
  rewrite tval_add, half_val. lra.
Qed.
End General.
Print Assumptions C110_picard.
Print Assumptions C110_error.
Print Assumptions C110_graded_partial.
Print Assumptions C110_integrator_partial.
Print Assumptions C111_bounded_fixed.
Print Assumptions C111_search_ends_partial.
Print Assumptions C111_fixed_result.
Print Assumptions C113_series_bounder_partial.

(** ** Examples *)
(** Models of functions of one state variable and the time: polynomials [c(s) + x*d(s)] with an error, for the times [0,1/4]. *)
Record qm := mkQM { qc : list Q; qd : list Q; qe : time }.
Definition ev (l : list Q) (s : R) : R := fold_right (fun c acc => Q2R c + s * acc) 0 l.
Fixpoint divk (k : Z) (l : list Q) : list Q := match l with [] => [] | c :: l' => (c / inject_Z k)%Q :: divk (k + 1) l' end.
Fixpoint padd (p q : list Q) : list Q :=
  match p, q with [], _ => q | _, [] => p | a :: p', b :: q' => (a + b)%Q :: padd p' q' end.
Definition qenc : enclosure qm := fun m x s _ y =>
  match x, y with [x0], [y0] => Rabs (y0 - (ev (qc m) s + x0 * ev (qd m) s)) <= tval (qe m) | _, _ => False end.
(** the field is [x' = -x]; the bound is the box [-2,6] *)
Definition qops : operations (prec := 53) (emax := 1024) qm := {|
  m_projection := mkQM [] [1%Q] (mkD 0 0);
  m_constants := mkQM [2%Q] [] (mkD 4 0);
  m_compose := fun m => Some (mkQM (map Qopp (qc m)) (map Qopp (qd m)) (qe m));
  m_antiderivative := fun m => mkQM (0%Q :: divk 1 (qc m)) (0%Q :: divk 1 (qd m)) (mkD (Exact_Model.mant (qe m)) (Exact_Model.expo (qe m) - 2));
  m_add := fun m1 m2 => mkQM (padd (qc m1) (qc m2)) (padd (qd m1) (qd m2)) (Exact_Model.d_addx (qe m1) (qe m2));
  m_restriction := fun m => m;
  m_errors := fun m => [to_float mode_UP (qe m)];
  m_error := fun m => to_float mode_UP (qe m) |}.

Lemma ev_padd p q s : ev (padd p q) s = ev p s + ev q s.
Proof.
  revert q. induction p as [|a p IH]; intros [|b q]; cbn; try (unfold ev; cbn; ring).
  fold (ev (padd p q) s). rewrite IH, Q2R_plus. unfold ev. ring.
Qed.
Lemma ev_opp p s : ev (map Qopp p) s = - ev p s.
Proof. induction p as [|a p IH]; cbn; [ring|]. fold (ev (map Qopp p) s). rewrite IH, Q2R_opp. unfold ev. ring. Qed.
Lemma ev_divk l : forall j s, derivable_pt_lim (fun s => s ^ S j * ev (divk (Z.of_nat (S j)) l) s) s (s ^ j * ev l s).
Proof.
  induction l as [|c l IH]; intros j s.
  - cbn [divk ev fold_right]. rewrite Rmult_0_r. eapply derivable_pt_lim_ext with (f := fun _ => 0); [intros; rewrite Rmult_0_r; auto|apply derivable_pt_lim_const].
  - cbn [divk]. set (k := Z.of_nat (S j)).
    apply derivable_pt_lim_ext with (f := plus_fct (fun s => (Q2R c / INR (S j)) * s ^ S j) (fun s => s ^ S (S j) * ev (divk (Z.of_nat (S (S j))) l) s)).
    { intros r. unfold plus_fct. cbn [ev fold_right]. fold (ev (divk (k + 1) l) r). rewrite Q2R_div.
      - replace (Z.of_nat (S (S j))) with (k + 1)%Z by (unfold k; lia). replace (Q2R (inject_Z k)) with (INR (S j)); [cbn [pow]; field; apply not_0_INR; lia|].
        unfold Q2R, inject_Z, k. cbn [Qnum Qden]. rewrite <- INR_IZR_INZ. field.
      - unfold Qeq, inject_Z, k. cbn [Qnum Qden]. lia. }
    replace (s ^ j * ev (c :: l) s) with (Q2R c / INR (S j) * (INR (S j) * s ^ j) + s ^ S j * ev l s).
    + apply derivable_pt_lim_plus; [|apply IH]. apply (derivable_pt_lim_scal (fun s => s ^ S j)). apply (derivable_pt_lim_pow s (S j)).
    + cbn [ev fold_right pow]. fold (ev l s). field. apply not_0_INR; lia.
Qed.
Lemma ev_anti l s : derivable_pt_lim (ev (0%Q :: divk 1 l)) s (ev l s).
Proof.
  eapply derivable_pt_lim_ext; [|replace (ev l s) with (s ^ 0 * ev l s) by (cbn; ring); apply (ev_divk l 0)].
  intros r. change (ev (0%Q :: divk 1 l) r) with (Q2R 0 + r * ev (divk (Z.of_nat 1) l) r).
  assert (Q2R 0 = 0) as -> by (unfold Q2R; cbn; ring). cbn [pow]. ring.
Qed.
Lemma tval_quarter d : tval (mkD (Exact_Model.mant d) (Exact_Model.expo d - 2)) = tval d / 4.
Proof.
  unfold tval; cbn [Exact_Model.mant Exact_Model.expo]. unfold Zminus. rewrite bpow_plus. change (bpow radix2 (-(2))) with (/ 4). field.
Qed.
Lemma in_one (X : dbnd) x : in_cbox [X] x -> exists r, x = [r] /\ contains X r.
Proof. intros H. inversion H as [|? ? ? ? C N]; subst. inversion N; subst. eauto. Qed.
Definition D12 : list dbnd := [iv (d_ 1) (d_ 2)].
Definition B26 : list dbnd := [iv (dp (-2) 0) (d_ 6)].
Lemma qops_sound : sound_operations qenc qops decay D12 [] 0 (/ 4) B26.
Proof.
  split.
  - intros x s a Hx Hs _. apply in_one in Hx as (r & -> & _). cbn. unfold tval, Q2R. cbn.
    replace (r - _) with 0 by field. rewrite Rabs_R0. lra.
  - intros x s a y Hx Hs _ Hy. apply in_one in Hx as (r & -> & _). apply in_one in Hy as (v & -> & [L U]). cbn.
    pose proof (proj1 (below_finite (dp (-2) 0) v eq_refl) L) as L'. pose proof (proj1 (above_finite (d_ 6) v eq_refl) U) as U'. revert L' U'. clear L U. dpval (dp (-2) 0). dpval (d_ 6). unfold tval, Q2R. cbn.
    intros L' U'. apply Rabs_le. lra.
  - intros m m' x s a y E Hx Hs _ Ly H. cbn in E. injection E as <-. apply in_one in Hx as (r & -> & _).
    destruct y as [|v [|]]; try discriminate. cbn [qenc qc qd qe decay map] in *. rewrite !ev_opp.
    replace (- v - _) with (- (v - (ev (qc m) s + r * ev (qd m) s))) by ring. rewrite Rabs_Ropp. auto.
  - intros m1 m2 x s a y1 y2 Hx Hs _ L1 L2 H1 H2. apply in_one in Hx as (r & -> & _).
    destruct y1 as [|v [|]]; try discriminate. destruct y2 as [|w [|]]; try discriminate.
    cbn [qenc qc qd qe m_add qops vadd combine map fst snd] in *. rewrite !ev_padd, tval_add.
    apply Rabs_le_inv in H1, H2. apply Rabs_le. lra.
  - intros m x s a w v Hx Hs _ Ln Cn Dv H. apply in_one in Hx as (r & -> & _).
    assert (forall q, 0 <= q <= s -> exists a b, w q = [a] /\ v q = [b]) as Sg.
    { intros q Hq. destruct (Ln q Hq) as [L1 L2]. destruct (w q) as [|? [|]], (v q) as [|? [|]]; try discriminate. eauto. }
    destruct (Sg 0 ltac:(lra)) as (w0 & v0 & E0 & V0). destruct (Sg s ltac:(lra)) as (w1 & v1 & E1 & V1).
    rewrite E0, E1. cbn [qenc qc qd qe m_antiderivative qops vsub combine map fst snd]. rewrite tval_quarter.
    assert (0 <= tval (qe m)) as Pe.
    { specialize (H 0 ltac:(lra)). rewrite V0 in H. cbn in H. pose proof (Rabs_pos (v0 - (ev (qc m) 0 + r * ev (qd m) 0))). lra. }
    assert (forall l, ev (0%Q :: divk 1 l) 0 = 0) as Z0 by (intros; cbn; unfold Q2R; cbn; ring).
    destruct (Req_dec s 0) as [->|Ns].
    { rewrite E0 in E1. injection E1 as ->. rewrite !Z0. replace (w1 - w1 - (0 + r * 0)) with 0 by ring. rewrite Rabs_R0. lra. }
    assert (forall q, derivable_pt_lim (fun q => ev (0%Q :: divk 1 (qc m)) q + r * ev (0%Q :: divk 1 (qd m)) q) q (ev (qc m) q + r * ev (qd m) q)) as DP.
    { intros q. apply (derivable_pt_lim_plus (ev _) (fun q => r * ev (0%Q :: divk 1 (qd m)) q)); [apply ev_anti|].
      apply (derivable_pt_lim_scal (ev _)). apply ev_anti. }
    destruct (mean_slope (fun q => nth 0 (w q) 0 - (ev (0%Q :: divk 1 (qc m)) q + r * ev (0%Q :: divk 1 (qd m)) q))
                (fun q => nth 0 (v q) 0 - (ev (qc m) q + r * ev (qd m) q)) 0 s) as (c & Hc & E).
    + lra.
    + intros q Hq. apply (continuity_pt_minus (fun q => nth 0 (w q) 0)); [apply Cn; auto|].
      apply derivable_continuous_pt. eexists. apply DP.
    + intros q Hq. apply (derivable_pt_lim_minus (fun q => nth 0 (w q) 0)); [apply (Dv 0%nat); auto|apply DP].
    + destruct (Sg c ltac:(lra)) as (wc & vc & Ec & Vc). specialize (H c ltac:(lra)). rewrite Vc in E, H. rewrite E0, E1 in E. cbn [nth] in E.
      cbn [qenc] in H. rewrite !Z0 in E. apply Rabs_le_inv in H.
      replace (w1 - w0 - _) with (s * (vc - (ev (qc m) c + r * ev (qd m) c))) by lra.
      rewrite Rabs_mult, (Rabs_pos_eq s) by lra. assert (Rabs (vc - (ev (qc m) c + r * ev (qd m) c)) <= tval (qe m)) as Q by (apply Rabs_le; lra).
      pose proof (Rabs_pos (vc - (ev (qc m) c + r * ev (qd m) c))). nra.
  - intros m x s a y _ _ _ H. exact H.
Qed.
(** The box [-2,6] bounds the flow, as the bounder shows. *)
Lemma decay_bounded : bounds_flow decay D12 ([] : list dbnd) 0 (/ 4) B26.
Proof.
  set (r := compute true (fun B => ev_decay (firstn 1 B)) D12 [] (mkD 0 0) (mkD 1 (-20)) None 20 (mkD 1 (-2))).
  assert (match r with Found h B => Z.eqb (Exact_Model.mant h) 1 && Z.eqb (Exact_Model.expo h) (-2) && (length B =? 1)%nat && box_refines B B26 | _ => false end = true) as E by (vm_compute; reflexivity).
  destruct r as [h B| |] eqn:Er; try discriminate E. unfold r in Er. clear r.
  apply andb_prop in E as [E E4]. apply andb_prop in E as [E E3]. apply andb_prop in E as [E1 E2].
  apply Z.eqb_eq in E1, E2. apply Nat.eqb_eq in E3. destruct h as [m e]; cbn in E1, E2; subst.
  assert (tval (mkD 1 (-2)) = / 4) as V by (unfold tval; cbn; lra).
  assert (bounds_flow decay D12 ([] : list dbnd) 0 (tval (mkD 1 (-2))) B) as H.
  { apply (C107_autonomous_partial (Hp := double_digits) true decay (fun B => ev_decay (firstn 1 B)) D12 [] (mkD 1 (-20)) None 20 (mkD 1 (-2)) (mkD 1 (-2)) B decay_encloses); auto.
    - constructor; [|constructor]. split; apply moderate_dp; reflexivity.
    - exists (dp 1 (-2)). split; [apply moderate_dp; reflexivity|]. rewrite V. dpval (dp 1 (-2)). lra.
    - rewrite V. lra.
    - discriminate.
    - apply decay_lipschitz.
    - rewrite V. lra. }
  rewrite V in H. intros t1 x a Ht Sol s Hs. apply box_refines_subset with B; auto. eapply H; eauto.
Qed.
(** Seven iterations reach the error 2^-12, below the maximum 2^-8 ; the model encloses [c*exp(-s)]. *)
Example C110_nonvacuous : exists m, picard_step qops (dp 1 (-8)) 0 12 = Step m /\ 
  length (qc m) = 8%nat /\ Exact_Model.mant (qe m) = 4%Z /\ Exact_Model.expo (qe m) = (-14)%Z /\
  forall c s, 1 <= c <= 2 -> 0 <= s <= / 4 -> Rabs (c * exp (- s) - (ev (qc m) s + c * ev (qd m) s)) <= / 4096.
Proof.
  set (r := picard_step _ _ _ _).
  assert (match r with Step m => (length (qc m), Exact_Model.mant (qe m), Exact_Model.expo (qe m)) | _ => (0%nat, 0%Z, 0%Z) end = (8%nat, 4%Z, (-14)%Z)) as E by (vm_compute; reflexivity).
  destruct r as [m| | |] eqn:Er; try discriminate E. unfold r in Er. clear r. injection E as E1 E2 E3.
  exists m. repeat (split; [auto|]). intros c s Hc Hs.
  assert (contains (iv (d_ 1) (d_ 2)) c) as Cc.
  { split; [apply below_finite|apply above_finite]; auto; cbn [iv b_l b_u]; [dpval (d_ 1)|dpval (d_ 2)]; lra. }
  pose proof (C110_picard qenc qops decay D12 [] 0 (/ 4) B26 (dp 1 (-8)) 0 12 m qops_sound
    (fun x s a H => eq_trans (map_length Ropp x) H) decay_bounded Er (/ 4) (fun s => [c * exp (- s)]) [] ltac:(lra)
    (decay_solves (iv (d_ 1) (d_ 2)) c (/ 4) Cc) s Hs) as Q.
  cbn [qenc] in Q. rewrite Ropp_0, exp_0, Rmult_1_r in Q. eapply Rle_trans; [exact Q|].
  unfold tval. rewrite E2, E3. cbn. lra.
Qed.

(** C111: the search never ends if the errors do not get small with the step: here every model has the error 2^-60 (rounding
    errors do not depend on the step) and the maximum is 2^-80. *)
Definition rough_ops : operations (prec := 53) (emax := 1024) unit := {|
  m_projection := tt; m_constants := tt; m_compose := fun _ => Some tt; m_antiderivative := fun _ => tt; m_add := fun _ _ => tt;
  m_restriction := fun m => m; m_errors := fun _ => [dp 1 (-60)]; m_error := fun _ => dp 1 (-60) |}.
Theorem C111_endless_refuted : exists (enc : enclosure unit) (ops : time -> list dbnd -> operations (prec := 53) (emax := 1024) unit) F f (D : list dbnd) hmin hsug (max_error : DP),
  (forall g B, sound_operations enc (ops g B) F D [] 0 (tval g) B) /\ encloses_field true F (length D) f /\ moderate_box D /\ 0 < tval hsug /\
  0 < B2R max_error /\ (forall l, locally_lipschitz F (length D) ([] : list dbnd) 0 l) /\
  forall fuel, bounded_step (compute true f D [] (mkD 0 0) hmin None 20) (fun g B => picard_step (ops g B) max_error 0 12) fuel hsug = Running.
Proof.
  exists (fun _ _ _ _ _ => True), (fun _ _ => rough_ops), decay, (fun B => ev_decay (firstn 1 B)), D12, (mkD 1 (-20)), (mkD 1 (-2)), (dp 1 (-80)).
  split; [intros; split; auto|]. split; [exact decay_encloses|].
  split. { constructor; [|constructor]. split; apply moderate_dp; reflexivity. }
  split. { unfold tval; cbn; lra. }
  split. { dpval (dp 1 (-80)). cbn. lra. }
  split. { apply decay_lipschitz. }
  intros fuel. unfold bounded_step.
  set (r := compute true (fun B => ev_decay (firstn 1 B)) D12 [] (mkD 0 0) (mkD 1 (-20)) None 20 (mkD 1 (-2))).
  assert (match r with Found _ _ => true | _ => false end = true) as E by (vm_compute; reflexivity).
  destruct r as [h B| |]; try discriminate E. clear E.
  assert (picard_step rough_ops (dp 1 (-80)) 0 12 = TimeStepError) as S by (vm_compute; reflexivity).
  rewrite S. generalize (Exact_Model.d_mulx h (mkD 3 (-1))) as hp. generalize h as g.
  induction fuel as [|fuel IH]; intros g hp; auto. cbn [reduce_step]. apply IH.
Qed.
Print Assumptions C111_endless_refuted.
(** A fixed step tries the same half step for ever, although every step of at most a quarter would do. *)
Theorem C111_fixed_refuted : exists (step : time -> outcome time) inside h, 0 < tval h /\
  (forall g, tval g <= tval h / 4 -> exists m, step g = Step m /\ inside m = true) /\
  forall fuel, unbounded_fixed_step step inside fuel h = Running.
Proof.
  exists (fun g => Step g), (fun m => negb (t_lt (mkD 1 (-2)) m)), (mkD 1 0).
  split; [unfold tval; cbn; lra|]. split.
  - intros g Hg. exists g. split; auto. apply negb_true_iff. destruct t_lt eqn:E; auto. apply t_lt_iff in E. unfold tval in *. cbn in *. lra.
  - intros fuel. unfold unbounded_fixed_step. cbn [half Exact_Model.mant Exact_Model.expo].
    assert (forall m, m = mkD 1 0 \/ m = half (mkD 1 0) -> forall g, fixed_loop (fun g => Step g) (fun m => negb (t_lt (mkD 1 (-2)) m)) (mkD 1 0) fuel g m = Running) as H; [|auto].
    induction fuel as [|fuel IH]; intros m Hm g; auto. cbn [fixed_loop].
    assert (negb (t_lt (mkD 1 (-2)) m) = false) as -> by (destruct Hm as [->| ->]; reflexivity). apply IH. auto.
Qed.
Print Assumptions C111_fixed_refuted.
(** A step which fails above 1/16 and succeeds below. *)
Example C111_nonvacuous :
  let step := fun (g : time) (_ : list dbnd) => if t_lt (mkD 1 (-4)) g then TimeStepError else Step g in
  bounded_step (fun h => Found h D12) step 20 (mkD 1 0) = Done (mkD 4503599627370496 (-56)) (mkD 4503599627370496 (-56)) /\
  (forall g, 0 <= tval g <= / 16 -> step g D12 <> TimeStepError).
Proof.
  split; [vm_compute; reflexivity|]. intros g Hg. destruct t_lt eqn:E; [|discriminate]. apply t_lt_iff in E. unfold tval in *. cbn in *. lra.
Qed.

(** ** C112: the affine integrator *)
(** The radii used for the error reach every point of the domain, from its computed middle. *)
Theorem C112_radius {prec emax : Z} {Hprec : Prec_gt_0 prec} {Hemax : Prec_lt_emax prec emax} (X : bounds prec emax) x :
  is_finite (fsub mode_UP (b_u X) (ivl_midpoint X)) = true -> is_finite (fsub mode_UP (ivl_midpoint X) (b_l X)) = true ->
  B2R (b_l X) <= x <= B2R (b_u X) -> Rabs (x - B2R (ivl_midpoint X)) <= B2R (radius_of X).
Proof.
  intros F1 F2 Hx. unfold radius_of. cbn zeta. pose proof (Ball_Proofs.fsub_up_ge _ _ F1) as U. pose proof (Ball_Proofs.fsub_up_ge _ _ F2) as L.
  unfold fmax. rewrite Bltb_correct by assumption. apply Rabs_le. destruct (Rlt_bool_spec (B2R (fsub mode_UP (b_u X) (ivl_midpoint X))) (B2R (fsub mode_UP (ivl_midpoint X) (b_l X)))); lra.
Qed.
Print Assumptions C112_radius.
Definition identity_on (l : list (differential (prec := 53) (emax := 1024))) := l.
Definition growth : field := fun x _ _ => x.
Definition D11 : list dbnd := [iv (dp (-1) 0) (d_ 1)].
Definition B44 : list dbnd := [iv (dp (-4) 0) (d_ 4)].
Lemma growth_lipschitz (A : list dbnd) t0 t1 : locally_lipschitz growth 1 A t0 t1.
Proof.
  intros r. exists 1. intros x y s a e Hs HA Lx Ly H i Hi. specialize (H i Hi). unfold growth. lra.
Qed.
Lemma growth_bounded : bounds_flow growth D11 ([] : list dbnd) 0 (/ 4) B44.
Proof.
  set (r := compute true (fun B => firstn 1 B) D11 [] (mkD 0 0) (mkD 1 (-20)) None 20 (mkD 1 (-2))).
  assert (match r with Found h B => Z.eqb (Exact_Model.mant h) 1 && Z.eqb (Exact_Model.expo h) (-2) && (length B =? 1)%nat && box_refines B B44 | _ => false end = true) as E by (vm_compute; reflexivity).
  destruct r as [h B| |] eqn:Er; try discriminate E. unfold r in Er. clear r.
  apply andb_prop in E as [E E4]. apply andb_prop in E as [E E3]. apply andb_prop in E as [E1 E2].
  apply Z.eqb_eq in E1, E2. apply Nat.eqb_eq in E3. destruct h as [m e]; cbn in E1, E2; subst.
  assert (tval (mkD 1 (-2)) = / 4) as V by (unfold tval; cbn; lra).
  assert (bounds_flow growth D11 ([] : list dbnd) 0 (tval (mkD 1 (-2))) B) as H.
  { apply (C107_autonomous_partial (Hp := double_digits) true growth (fun B => firstn 1 B) D11 [] (mkD 1 (-20)) None 20 (mkD 1 (-2)) (mkD 1 (-2)) B); auto.
    - split; [auto|]. intros B' A x s a HB HA L. apply in_box_length in HB as LB. destruct HB as [|X q B'' x C HB]; [discriminate|]. destruct HB; [|discriminate].
      cbn. constructor; [auto|constructor].
    - constructor; [|constructor]. split; apply moderate_dp; reflexivity.
    - exists (dp 1 (-2)). split; [apply moderate_dp; reflexivity|]. rewrite V. dpval (dp 1 (-2)). lra.
    - rewrite V. lra.
    - discriminate.
    - apply growth_lipschitz.
    - rewrite V. lra. }
  rewrite V in H. intros t1 x a Ht Sol s Hs. apply box_refines_subset with B; auto. eapply H; eauto.
Qed.
Definition shown_affine (m : affine_model (prec := 53) (emax := 1024)) :=
  (map (fun x => B2SF x) (a_centre m), shown_box [a_value m], shown_box (a_state m), shown_box [a_time m], B2SF (a_error m)).
(** [x' = x] starting in [-1,1]: the model returned is [x] without error, for all times up to 1/4. *)
Theorem C112_affine_refuted : exists (f : list (differential (prec := 53) (emax := 1024)) -> list differential) (D B : list dbnd) (h : DP) l x,
  (forall y, f y = y) /\ bounds_flow growth D ([] : list dbnd) 0 (B2R h) B /\
  affine_step f 1 1 D B h = Some l /\ solves growth D ([] : list dbnd) 0 (B2R h) x (fun _ => []) /\
  ~ affine_encloses l (x 0) (B2R h) (x (B2R h)).
Proof.
  set (r := affine_step identity_on 1 1 D11 B44 (dp 1 (-2))).
  assert (option_map (map shown_affine) r = Some [([B2SF (d_ 0)], shown_box [b_of (d_ 0)], shown_box [b_of (d_ 1)], shown_box [b_of (d_ 0)], B2SF (d_ 0))]) as E by (vm_compute; reflexivity).
  destruct r as [l|] eqn:Er; [|discriminate E]. unfold r in Er. clear r. cbn [option_map] in E.
  destruct l as [|m [|]]; try discriminate E. injection E as E1 E2 E3 E4 E5 E6 E7.
  assert (B2R (dp 1 (-2)) = / 4) as V by (dpval (dp 1 (-2)); lra).
  exists identity_on, D11, B44, (dp 1 (-2)), [m], (fun s => [exp s]). rewrite V.
  split; [reflexivity|]. split; [exact growth_bounded|]. split; [exact Er|]. split.
  - split.
    + constructor; [|constructor]. rewrite exp_0. split; [apply below_finite|apply above_finite]; auto; cbn [iv b_l b_u]; [dpval (dp (-1) 0)|dpval (d_ 1)]; lra.
    + reflexivity.
    + constructor.
    + intros i s Hi Hs. cbn in Hi. assert (i = 0)%nat as -> by lia. cbn [nth]. apply derivable_continuous_pt. eexists. apply derivable_pt_lim_exp.
    + intros i s Hi Hs. cbn in Hi. assert (i = 0)%nat as -> by lia. cbn. apply derivable_pt_lim_exp.
  - intros H. inversion H as [|? ? ? ? C _]; subst.
    destruct m as [ctr [vl vu] st [tl tu] er]. cbn [a_centre a_value a_state a_time a_error b_l b_u shown_box map] in *.
    change (SpecFloat.S754_zero false) with (B2SF (d_ 0)) in E2, E3, E5, E6, E7.
    apply B2SF_inj in E2, E3, E5, E6, E7. subst vl vu tl tu er.
    destruct ctr as [|m0 [|]]; try discriminate E1. injection E1 as E1. change (SpecFloat.S754_zero false) with (B2SF (d_ 0)) in E1. apply B2SF_inj in E1. subst m0.
    destruct st as [|[sl su] [|]]; try discriminate E4. injection E4 as E4 E4'. cbn [b_l b_u] in E4, E4'.
    change (B2SF sl = B2SF (d_ 1)) in E4. change (B2SF su = B2SF (d_ 1)) in E4'. apply B2SF_inj in E4, E4'. subst sl su.
    destruct (C eq_refl) as (v & c & d & e & Cv & Cc & Cd & Ce & Y). apply in_one in Cc as (c0 & -> & Cc).
    assert (forall (g : DP) q, is_finite g = true -> contains (mkB g g) q -> q = B2R g) as Pt.
    { intros g q Fg [L U]. apply Rle_antisym; [apply (proj1 (above_finite g q Fg) U)|apply (proj1 (below_finite g q Fg) L)]. }
    apply Pt in Cv, Cc, Cd; auto. subst v c0 d. cbn [combine map fst snd fold_right] in Y. rewrite d1_val, exp_0 in Y.
    revert Y Ce. dpval (d_ 0). intros Y Ce. assert (e = 0) as ->. { unfold Rabs in Ce. destruct Rcase_abs; lra. }
    pose proof (exp_ineq1 (/ 4) ltac:(lra)). lra.
Qed.
Print Assumptions C112_affine_refuted.

(** ** C113: the series integrator which finds its own bound *)
(** The series of degree 1 for [x' = x^2] starting at 1: the model is [1 + s] with the error [h * |B^2 - 1|]. *)
Record smodel := mkS { sh : DP; se : DP }.
Definition square_field : field := fun x _ _ => map (fun y => y * y) x.
Definition series1 (h : time) (B : list dbnd) : smodel :=
  let hf := to_float mode_UP h in
  let e := fmul up (b_mag (b_sub (b_sqr (coord B 0)) (b_of (d_ 1)))) hf in
  mkS hf (if is_finite e && flt_le (d_ 0) e && negb (is_nan (b_mag (b_sub (b_sqr (coord B 0)) (b_of (d_ 1))))) then e else finf).
Definition senc : enclosure smodel := fun m x s _ y =>
  match x, y with [x0], [y0] => x0 = 1 /\ (is_finite (se m) = true -> Rabs (y0 - (1 + s)) <= B2R (se m)) | _, _ => False end.
Definition srange (m : smodel) : list dbnd := [b_add (mkB (d_ 1) (fadd up (d_ 1) (sh m))) (mkB (fneg (se m)) (se m))].
Definition D1 : list dbnd := [b_of (d_ 1)].
Lemma at_one (x : R) : contains (b_of (d_ 1)) x -> x = 1.
Proof.
  intros [L U]. pose proof (proj1 (above_finite (d_ 1) x eq_refl) U). pose proof (proj1 (below_finite (d_ 1) x eq_refl) L).
  rewrite d1_val in *. lra.
Qed.
Lemma above_up (f g : DP) a b : above f a -> above g b -> 0 <= a -> 0 <= b -> is_finite (fmul up f g) = true -> a * b <= B2R (fmul up f g).
Proof.
  intros A B Ha Hb F. apply above_finite; auto. apply fmul_up_nonneg; auto. destruct (fmul up f g); auto; discriminate.
Qed.
Lemma nonneg_float (f : DP) : is_finite f = true -> flt_le (d_ 0) f = true -> 0 <= B2R f.
Proof. intros F L. pose proof (above_flt_le f (d_ 0) eq_refl) as [_ K]. specialize (K L). apply (proj1 (above_finite f _ F)) in K. revert K. dpval (d_ 0). auto. Qed.
Lemma series1_sound : sound_series senc series1 srange square_field D1.
Proof.
  split.
  - intros h B t1 x Ht Sol HB s Hs.
    assert (forall q, 0 <= q <= t1 -> exists y, x q = [y] /\ contains (coord B 0) y) as Sg.
    { intros q Hq. pose proof (length_kept _ _ _ _ _ _ _ Sol q Hq) as L. destruct (x q) as [|y [|]] eqn:Ex; try discriminate.
      exists y. split; auto. specialize (HB q Hq). rewrite Ex in HB. inversion HB; subst. auto. }
    pose proof (start_in _ _ _ _ _ _ _ Sol) as S0. apply in_one in S0 as (x0 & E0 & C0). apply at_one in C0. subst x0.
    destruct (Sg s Hs) as (y & Ey & Cy). rewrite E0, Ey. cbn [senc]. split; auto. intros Fe.
    cbn [series1 se] in *. destruct (is_finite (fmul up _ _)) eqn:Ff; cbn [andb] in *; [|discriminate].
    destruct (flt_le (d_ 0) _) eqn:Fl; cbn [andb] in *; [|discriminate]. destruct is_nan; cbn [negb] in *; [discriminate|].
    destruct (Req_dec s 0) as [->|Ns].
    + rewrite E0 in Ey. injection Ey as <-. replace (1 - (1 + 0)) with 0 by ring. rewrite Rabs_R0.
      apply nonneg_float; auto.
    + destruct (mean_slope (fun q => nth 0 (x q) 0 - q) (fun q => nth 0 (x q) 0 * nth 0 (x q) 0 - 1) 0 s) as (c & Hc & E).
      * lra.
      * intros q Hq. apply (continuity_pt_minus (fun q => nth 0 (x q) 0)); [apply (state_continuous _ _ _ _ _ _ _ Sol); cbn; lra || lia|apply derivable_continuous_pt, derivable_pt_id].
      * intros q Hq. apply (derivable_pt_lim_minus (fun q => nth 0 (x q) 0) id); [|apply derivable_pt_lim_id].
        pose proof (state_derivative _ _ _ _ _ _ _ Sol 0%nat q ltac:(cbn; lia) ltac:(lra)) as Dv. destruct (Sg q ltac:(lra)) as (z & Ez & _).
        rewrite Ez in *. exact Dv.
      * destruct (Sg c ltac:(lra)) as (z & Ez & Cz). rewrite Ez, Ey, E0 in E. cbn [nth] in E.
        replace (y - (1 + s)) with (s * (z * z - 1)) by lra. rewrite Rabs_mult, (Rabs_pos_eq s), Rmult_comm by lra.
        assert (above (b_mag (b_sub (b_sqr (coord B 0)) (b_of (d_ 1)))) (Rabs (z * z - 1))) as Ab.
        { apply b_mag_above. apply b_sub_contains; [apply b_sqr_contains; auto|]. rewrite <- d1_val. apply b_of_contains. reflexivity. }
        assert (above (to_float mode_UP h : DP) (tval h)) as Ah by (apply rounded_up_above, to_float_rounded).
        eapply Rle_trans; [|apply above_up; eauto; try lra; apply Rabs_pos].
        apply Rmult_le_compat_l; [apply Rabs_pos|lra].
  - intros h B x Hx. apply in_one in Hx as (x0 & -> & C). apply at_one in C. subst. cbn [senc]. split; auto. intros Fe.
    replace (1 - (1 + 0)) with 0 by ring. rewrite Rabs_R0.
    cbn [series1 se] in *. destruct (is_finite (fmul up _ _)) eqn:Ff; cbn [andb] in *; [|discriminate].
    destruct (flt_le (d_ 0) _) eqn:Fl; cbn [andb] in *; [|discriminate]. destruct is_nan; cbn [negb] in *; [discriminate|].
    apply nonneg_float; auto.
  - intros h B x s y Hx Hs H. apply in_one in Hx as (x0 & -> & C). destruct y as [|v [|]]; try contradiction. cbn [senc] in H. destruct H as [_ H].
    constructor; [|constructor]. replace v with ((1 + s) + (v - (1 + s))) by ring. apply b_add_contains.
    + split; cbn [b_l b_u].
      * apply below_finite; auto. rewrite d1_val. lra.
      * apply fadd_up_above; [apply above_finite; auto; rewrite d1_val; lra|]. cbn [series1 sh].
        eapply above_ge; [apply rounded_up_above, to_float_rounded|]. lra.
    + assert (forall r, contains (mkB (fneg (finf : DP)) finf) r) as Inf.
      { intros r. split; cbn [b_l b_u]; [replace r with (- - r) by ring; apply below_fneg|]; exact eq_refl. }
      cbn [series1 se] in *. destruct (is_finite (fmul up _ _)) eqn:Ff; cbn [andb] in *; [|apply Inf].
      destruct (flt_le (d_ 0) _) eqn:Fl; cbn [andb] in *; [|apply Inf]. destruct is_nan; cbn [negb] in *; [apply Inf|].
      specialize (H Ff). apply Rabs_le_inv in H. split; cbn [b_l b_u]; [|apply above_finite; auto; lra].
      replace (v - (1 + s)) with (- - (v - (1 + s))) by ring. apply below_fneg. apply above_finite; auto; lra.
Qed.

Definition F25 : list dbnd := [mkB (d_ 1) (dp 5 (-1))].
Definition one_step : time := mkD 1 0.
Definition S113 : smodel := series1 one_step (srange (series1 one_step F25)).
Lemma S113_error : B2R (se S113) < 64 /\ is_finite (se S113) = true.
Proof.
  split; [|vm_compute; reflexivity].
  assert (B2SF (se S113) = B2SF (dp 825 (-4))) as E by (vm_compute; reflexivity).
  apply B2SF_inj in E. rewrite E. dpval (dp 825 (-4)). lra.
Qed.
Definition blow (t : R) : list R := [/ (1 - t)].
Lemma blow_derivative s : s < 1 -> derivable_pt_lim (fun r => / (1 - r)) s (/ (1 - s) * / (1 - s)).
Proof.
  intros Hs.
  assert (derivable_pt_lim (div_fct (fct_cte 1) (minus_fct (fct_cte 1) id)) s
    ((0 * minus_fct (fct_cte 1) id s - (0 - 1) * fct_cte 1 s) / Rsqr (minus_fct (fct_cte 1) id s))) as D.
  { apply derivable_pt_lim_div; [apply derivable_pt_lim_const|apply derivable_pt_lim_minus; [apply derivable_pt_lim_const|apply derivable_pt_lim_id]|].
    unfold minus_fct, fct_cte, id. lra. }
  unfold minus_fct, div_fct, fct_cte, id in D.
  replace ((0 * (1 - s) - (0 - 1) * 1) / (1 - s)²) with (/ (1 - s) * / (1 - s)) in D by (unfold Rsqr; field; lra).
  intros eps He. destruct (D eps He) as [d Hd]. exists d. intros h H0 H1. specialize (Hd h H0 H1).
  unfold Rdiv at 2 3 in Hd. rewrite !Rmult_1_l in Hd. exact Hd.
Qed.
Lemma blow_solves : solves square_field D1 ([] : list dbnd) 0 (1 - / 128) blow (fun _ => []).
Proof.
  split.
  - unfold blow. constructor; [|constructor]. replace (/ (1 - 0)) with 1 by field. rewrite <- d1_val. apply b_of_contains. reflexivity.
  - reflexivity.
  - constructor.
  - intros [|i] s Hi Hs; cbn in *; [|lia]. apply derivable_continuous_pt. exists (/ (1 - s) * / (1 - s)). apply blow_derivative. lra.
  - intros [|i] s Hi Hs; cbn in *; [|lia]. apply blow_derivative. lra.
Qed.
(** Found: the range of the first model is compared with the first bound, and with the bound made from that range itself,
    but never with a bound for which the later models are computed.  For [x' = x^2], started at 1, a step of size 1 is
    returned although the solution leaves every bound before. *)
Theorem C113_series_refuted :
  exists (enc : enclosure smodel) series range error first widen (max_error : DP) F (D : list dbnd) h h' m,
    sound_series enc series range F D /\ 0 < tval h /\ length first = length D /\ (forall x, in_cbox D x -> in_cbox first x) /\
    (forall X x, in_cbox X x -> in_cbox (widen X) x) /\
    series_bounder_step series range error first widen max_error 1 h = Done h' m /\
    ~ encloses_flow enc F D ([] : list dbnd) 0 (tval h') m.
Proof.
  exists senc, series1, srange, se, F25, (fun X => X), (d_ 64), square_field, D1, one_step, one_step, S113.
  split; [exact series1_sound|]. split; [unfold tval, one_step; cbn; lra|]. split; [reflexivity|]. split; [|split; [auto|split]].
  - intros x Hx. apply in_one in Hx as (x0 & -> & C). apply at_one in C. subst. constructor; [|constructor].
    split; cbn [b_l b_u]; [apply below_finite|apply above_finite]; auto; [rewrite d1_val|dpval (dp 5 (-1))]; lra.
  - reflexivity.
  - intros H. specialize (H (1 - / 128) blow []). 
    assert (senc S113 (blow 0) (1 - / 128) [] (blow (1 - / 128))) as K.
    { apply H; [|exact blow_solves|lra]. unfold tval, one_step. cbn. lra. }
    cbn [senc blow] in K. destruct K as [_ K]. destruct S113_error as [S1 S2]. specialize (K S2).
    replace (/ (1 - (1 - / 128))) with 128 in K by field. apply Rabs_le_inv in K. lra.
Qed.
Print Assumptions C113_series_refuted.
(** ** The affine integrator on a constant field *)
Section Constant.
Context {prec emax : Z} {Hprec : Prec_gt_0 prec} {Hemax : Prec_lt_emax prec emax} {Hp : (11 <= prec)%Z}.
Local Notation fl := (binary_float prec emax).
Local Notation bnd := (bounds prec emax).
Lemma index_eqb_refl a : index_eqb a a = true.
Proof. unfold index_eqb. destruct list_eq_dec; auto. Qed.
Lemma index_eqb_neq a b : a <> b -> index_eqb a b = false.
Proof. unfold index_eqb. destruct list_eq_dec; auto. intros; contradiction. Qed.
Lemma degree_zero n : index_degree (zero_index n) = 0%nat.
Proof. induction n; cbn; auto. Qed.
Lemma degree_app a b : index_degree (a ++ b) = (index_degree a + index_degree b)%nat.
Proof. induction a; cbn; auto. unfold index_degree in *. lia. Qed.
Lemma degree_unit n j : index_degree (unit_index n j) = 1%nat.
Proof. unfold unit_index. rewrite degree_app. pose proof (degree_zero j). pose proof (degree_zero (n - S j)). unfold zero_index in *. cbn. unfold index_degree in *. lia. Qed.
Lemma last_zero n : last_entry (zero_index n) = 0%nat.
Proof. unfold last_entry. induction n as [|[|n]]; cbn in *; auto. Qed.
Lemma last_app_cons {A} (a : list A) x b d : last (a ++ x :: b) d = last (x :: b) d.
Proof. induction a as [|y a IH]; auto. rewrite <- IH. cbn. destruct (a ++ x :: b) eqn:E; auto. destruct a; discriminate. Qed.
Lemma last_unit n j : (j < n)%nat -> last_entry (unit_index (S n) j) = 0%nat.
Proof.
  intros L. unfold last_entry, unit_index. rewrite last_app_cons. destruct (S n - S j)%nat as [|k] eqn:E; [lia|].
  pose proof (last_zero (S k)) as Z. unfold last_entry, zero_index in Z. cbn [repeat] in *. exact Z.
Qed.
Lemma last_time n : last_entry (unit_index (S n) n) = 1%nat.
Proof. unfold last_entry, unit_index. rewrite last_app_cons. replace (S n - S n)%nat with 0%nat by lia. reflexivity. Qed.
Lemma raise_zero n : raise_last (zero_index (S n)) = unit_index (S n) n.
Proof.
  unfold unit_index. replace (S n - S n)%nat with 0%nat by lia. cbn [repeat]. induction n as [|n IH]; [reflexivity|].
  cbn [repeat app]. rewrite <- IH. reflexivity.
Qed.
Lemma unit_nth n j i : (j < n)%nat -> nth i (unit_index n j) 0%nat = if (i =? j)%nat then 1%nat else 0%nat.
Proof.
  intros L. unfold unit_index. destruct (Nat.eqb_spec i j) as [->|N].
  - rewrite app_nth2; rewrite repeat_length; [|lia]. rewrite Nat.sub_diag. reflexivity.
  - destruct (Nat.lt_ge_cases i j); [rewrite app_nth1 by (rewrite repeat_length; auto); apply nth_repeat|].
    rewrite app_nth2; rewrite repeat_length; [|lia]. destruct (i - j)%nat eqn:E; [lia|]. cbn. apply nth_repeat.
Qed.
Lemma unit_inj n i j : (i < n)%nat -> (j < n)%nat -> unit_index n i = unit_index n j -> i = j.
Proof.
  intros Hi Hj E. pose proof (unit_nth n i i Hi) as K. rewrite E, unit_nth, Nat.eqb_refl in K by auto. destruct (Nat.eqb_spec i j); auto; discriminate.
Qed.
Lemma unit_not_zero n i m : unit_index n i <> zero_index m.
Proof. intros E. apply (f_equal index_degree) in E. rewrite degree_unit, degree_zero in E. discriminate. Qed.
Definition constant_field (n : nat) (V : list bnd) : list (differential (prec := prec) (emax := emax)) -> list differential :=
  fun _ => map (fun c => [(zero_index (S n), c)]) V.
Definition constant_flow (n : nat) (i : nat) (c d : bnd) : differential (prec := prec) (emax := emax) :=
  [(unit_index (S n) n, bf_div c (fnat 1)); (zero_index (S n), d); (unit_index (S n) i, b_of (fnat 1))].
Lemma constant_sum deg n i c d : (1 <= deg)%nat -> (i < n)%nat ->
  d_sum deg (d_antiderivative [(zero_index (S n), c)]) (d_variable (S n) d i) = constant_flow n i c d.
Proof.
  intros Hd Hi. unfold d_sum, d_antiderivative, d_variable. cbn [map fst snd]. rewrite raise_zero, last_time.
  assert (unit_index (S n) i <> unit_index (S n) n) as N1 by (intros E; apply unit_inj in E; lia).
  pose proof (unit_not_zero (S n) n (S n)) as N2.
  repeat (cbn [existsb orb negb app filter fst snd];
    rewrite ?(index_eqb_neq _ _ (not_eq_sym N2)), ?(index_eqb_neq _ _ N1), ?(index_eqb_neq _ _ N2), ?(index_eqb_neq _ _ (not_eq_sym N1))).
  rewrite !degree_unit, degree_zero. destruct deg; [lia|]. reflexivity.
Qed.
Lemma constant_iterate deg n V (dom : list bnd) k phi : (1 <= deg)%nat -> length V = n -> length dom = n -> 
  flow_iterate (constant_field n V) deg (S k) (map (fun iv => d_variable (S n) (snd iv) (fst iv)) (combine (seq 0 n) dom)) phi =
  map (fun q => constant_flow n (fst (snd q)) (fst q) (snd (snd q))) (combine V (combine (seq 0 n) dom)).
Proof.
  intros Hd HV HD. 
  assert (forall phi, map (fun p => d_sum deg (d_antiderivative (fst p)) (snd p))
      (combine (constant_field n V phi) (map (fun iv => d_variable (S n) (snd iv) (fst iv)) (combine (seq 0 n) dom))) =
    map (fun q => constant_flow n (fst (snd q)) (fst q) (snd (snd q))) (combine V (combine (seq 0 n) dom))) as E.
  { intros psi. unfold constant_field. 
    assert (List.Forall (fun iv => (fst iv < n)%nat) (combine (seq 0 n) dom)) as F.
    { apply List.Forall_forall. intros [i d] Hin. apply in_combine_l in Hin. apply in_seq in Hin. cbn. lia. }
    revert F. generalize (combine (seq 0 n) dom). clear -Hd. induction V as [|c V IH]; intros l F; [reflexivity|].
    destruct l as [|[i d] l]; [reflexivity|]. inversion F; subst. cbn [map combine fst snd] in *. f_equal; [apply constant_sum; auto|]. apply IH. auto. }
  revert phi. induction k as [|k IH]; intros phi; [cbn; apply E|].
  remember (S k) as k'. cbn [flow_iterate]. subst k'. apply IH.
Qed.
Lemma constant_truncate so to_ n i (c d : bnd) : (1 <= so)%nat -> (1 <= to_)%nat -> (i < n)%nat ->
  d_truncate so to_ (constant_flow n i c d) = constant_flow n i c d.
Proof.
  intros Hs Ht Hi. unfold d_truncate, constant_flow. cbn [filter fst].
  rewrite !degree_unit, degree_zero, last_time, last_zero, last_unit by auto.
  destruct so; [lia|]. destruct to_; [lia|]. cbn. reflexivity.
Qed.
Lemma constant_derivative so to_ n V (dom : list bnd) : (1 <= so)%nat -> (1 <= to_)%nat -> length V = n -> length dom = n ->
  flow_derivative (constant_field n V) so to_ dom =
  map (fun q => constant_flow n (fst (snd q)) (fst q) (snd (snd q))) (combine V (combine (seq 0 n) dom)).
Proof.
  intros Hs Ht HV HD. unfold flow_derivative. rewrite HD. destruct to_ as [|k]; [lia|]. rewrite constant_iterate by (auto; lia).
  rewrite map_map. apply map_ext_in. intros [c [i d]] Hin. apply in_combine_r in Hin. apply in_combine_l in Hin. apply in_seq in Hin.
  cbn [fst snd]. apply constant_truncate; lia.
Qed.
Lemma constant_error so to_ n i (c d : bnd) rad md : (1 <= so)%nat -> (1 <= to_)%nat -> (i < n)%nat ->
  affine_error so to_ rad md (constant_flow n i c d) = Some fzero.
Proof.
  intros Hs Ht Hi. unfold affine_error, constant_flow. cbn [fold_left fst snd].
  rewrite !degree_unit, degree_zero, last_time, last_zero, last_unit by auto.
  destruct so; [lia|]. destruct to_; [lia|]. cbn. rewrite andb_false_r. reflexivity.
Qed.
Lemma constant_coefficient n i (c d : bnd) : (i < n)%nat ->
  coefficient (constant_flow n i c d) (zero_index (S n)) = d /\
  coefficient (constant_flow n i c d) (unit_index (S n) n) = bf_div c (fnat 1) /\
  forall j, (j < n)%nat -> coefficient (constant_flow n i c d) (unit_index (S n) j) = if (j =? i)%nat then b_of (fnat 1) else b_of fzero.
Proof.
  intros Hi. unfold coefficient, constant_flow. cbn [find fst snd].
  assert (forall j, (j < n)%nat -> unit_index (S n) n <> unit_index (S n) j) as N1 by (intros j Hj E; apply unit_inj in E; lia).
  split; [|split].
  - rewrite (index_eqb_neq _ _ (unit_not_zero _ _ _)), index_eqb_refl. reflexivity.
  - rewrite index_eqb_refl. reflexivity.
  - intros j Hj. rewrite (index_eqb_neq _ _ (N1 j Hj)), (index_eqb_neq _ _ (not_eq_sym (unit_not_zero _ _ _))).
    destruct (Nat.eqb_spec j i) as [->|N]; [rewrite index_eqb_refl; reflexivity|].
    rewrite index_eqb_neq; auto. intros E. apply unit_inj in E; lia.
Qed.
(** the row of the identity matrix *)
Lemma unit_row (x m : list R) : forall a i, length x = length m -> 
  fold_right Rplus 0 (map (fun q => fst q * (fst (snd q) - snd (snd q))) (combine (map (fun j => if (j =? i)%nat then 1 else 0) (seq a (length x))) (combine x m))) =
  if (a <=? i)%nat && (i <? a + length x)%nat then nth (i - a) x 0 - nth (i - a) m 0 else 0.
Proof.
  revert m. induction x as [|v x IH]; intros m a i L; destruct m as [|u m]; cbn in L; try discriminate L.
  - cbn [length seq map combine fold_right]. destruct (Nat.leb_spec a i), (Nat.ltb_spec i (a + 0)); cbn [andb]; auto. lia.
  - cbn [length seq map combine fold_right fst snd]. rewrite IH by (cbn in L; lia). cbn [length].
    destruct (Nat.eqb_spec a i) as [->|N].
    + replace (i <=? i)%nat with true by (symmetry; apply Nat.leb_le; lia). replace (i <? i + S (length x))%nat with true by (symmetry; apply Nat.ltb_lt; lia).
      replace (S i <=? i)%nat with false by (symmetry; apply Nat.leb_gt; lia). cbn [andb]. rewrite Nat.sub_diag. cbn. lra.
    + replace (S a + length x)%nat with (a + S (length x))%nat by lia. destruct (Nat.leb_spec a i).
      * replace (S a <=? i)%nat with true by (symmetry; apply Nat.leb_le; lia). destruct (Nat.ltb_spec i (a + S (length x))); cbn [andb]; [|lra].
        replace (i - a)%nat with (S (i - S a)) by lia. cbn. lra.
      * replace (S a <=? i)%nat with false by (symmetry; apply Nat.leb_gt; lia). cbn [andb]. lra.
Qed.
Lemma constant_models so to_ n (dmid : list fl) rad : (1 <= so)%nat -> (1 <= to_)%nat -> forall (V dm B : list bnd) a k,
  length V = k -> length dm = k -> length B = k -> (a + k <= n)%nat ->
  fold_right (fun mb acc =>
      match affine_error so to_ rad (fst mb) (snd mb), acc with
      | Some e, Some l =>
        Some (mkAffine dmid (coefficient (fst mb) (zero_index (S n)))
                (map (fun j => coefficient (fst mb) (unit_index (S n) j)) (seq 0 n))
                (coefficient (fst mb) (unit_index (S n) n)) e :: l)
      | _, _ => None
      end) (Some [])
    (combine (map (fun q => constant_flow n (fst (snd q)) (fst q) (snd (snd q))) (combine V (combine (seq a k) dm)))
             (map (fun q => constant_flow n (fst (snd q)) (fst q) (snd (snd q))) (combine V (combine (seq a k) B)))) =
  Some (map (fun q => mkAffine dmid (snd (snd q)) (map (fun j => if (j =? fst (snd q))%nat then b_of (fnat 1) else b_of fzero) (seq 0 n)) (bf_div (fst q) (fnat 1)) fzero)
    (combine V (combine (seq a k) dm))).
Proof.
  intros Hs Ht. induction V as [|c V IH]; intros dm B a k LV LD LB La; subst k; [reflexivity|].
  destruct dm as [|d dm]; [discriminate|]. destruct B as [|b B]; [discriminate|].
  cbn [length seq combine map fold_right fst snd]. rewrite (IH dm B (S a) (length V)) by (cbn in *; lia).
  cbn [length] in La. rewrite constant_error by (auto; lia).
  destruct (constant_coefficient n a c d ltac:(lia)) as (-> & -> & C3). do 3 f_equal.
  apply map_ext_in. intros j Hj. apply in_seq in Hj. apply C3. lia.
Qed.
(** C112, for a constant field: one step in each order is enough for the affine model to enclose the flow. *)
Theorem C112_constant_partial so to_ (D B V : list bnd) (h : fl) v : (1 <= so)%nat -> (1 <= to_)%nat ->
  length V = length D -> length B = length D -> List.Forall (fun X => is_finite (ivl_midpoint X) = true) D -> in_cbox V v ->
  exists l, affine_step (constant_field (length D) V) so to_ D B h = Some l /\
    forall x t1, solves (fun _ _ _ => v) D ([] : list bnd) 0 t1 x (fun _ => []) ->
      forall s, 0 <= s <= t1 -> affine_encloses l (x 0) s (x s).
Proof.
  intros Hs Ht HV HB HF Hv. unfold affine_step. set (n := length D) in *.
  rewrite !constant_derivative by (rewrite ?map_length; auto). 
  rewrite constant_models by (rewrite ?map_length; auto; lia).
  eexists. split; [reflexivity|]. intros x t1 Sol s Hsr. unfold affine_encloses.
  pose proof (length_kept _ _ _ _ _ _ _ Sol) as Len.
  assert (length (x s) = n /\ length (x 0) = n) as [L1 L0] by (split; apply Len; lra).
  assert (forall i, (i < n)%nat -> nth i (x s) 0 = nth i (x 0) 0 + s * nth i v 0) as Val.
  { intros i Hi. destruct (Req_dec s 0) as [->|Ns]; [lra|].
    destruct (mean_slope (fun q => nth i (x q) 0) (fun _ => nth i v 0) 0 s) as (c & Hc & E).
    - lra.
    - intros q Hq. apply (state_continuous _ _ _ _ _ _ _ Sol); auto; lra.
    - intros q Hq. apply (state_derivative _ _ _ _ _ _ _ Sol i q Hi). lra.
    - lra. }
  set (dmid := map ivl_midpoint D).
  assert (length dmid = n) as Lm by (apply map_length).
  assert (List.Forall (fun f : fl => is_finite f = true) dmid) as FM by (apply List.Forall_map; auto).
  destruct (fnat_exact (prec := prec) (emax := emax) (Hp := Hp) 1 ltac:(lia)) as [V1 F1]. cbn [INR] in V1.
  assert (forall a y w dm V, in_cbox V w -> length y = length w -> length dm = length w -> (a + length w = n)%nat ->
    (forall k, (k < length w)%nat -> nth k y 0 = nth (a + k) (x 0) 0 + s * nth k w 0) ->
    (forall k, (k < length w)%nat -> nth k dm fzero = nth (a + k) dmid fzero) ->
    Forall2 (fun m yi => is_finite (a_error m) = true -> exists v0 c d e,
      contains (a_value m) v0 /\ in_cbox (a_state m) c /\ contains (a_time m) d /\ Rabs e <= B2R (a_error m) /\
      yi = v0 + fold_right Rplus 0 (map (fun q => fst q * (fst (snd q) - B2R (snd (snd q)))) (combine c (combine (x 0) (a_centre m)))) + d * s + e)
      (map (fun q => mkAffine dmid (snd (snd q)) (map (fun j => if (j =? fst (snd q))%nat then b_of (fnat 1) else b_of fzero) (seq 0 n)) (bf_div (fst q) (fnat 1)) fzero)
        (combine V (combine (seq a (length w)) (map (@b_of prec emax) dm)))) y) as Main.
  2: { assert (length v = n) as Lv by (rewrite <- HV; symmetry; apply in_box_length; auto).
       pose proof (Main 0%nat (x s) v dmid V Hv (eq_trans L1 (eq_sym Lv)) (eq_trans Lm (eq_sym Lv)) Lv) as K. rewrite Lv in K. apply K; auto. }
  intros a y w dm W HW. revert a y dm. induction HW as [|X q W w C HW IH]; intros a y dm Ly Ld La Hy Hd.
  { destruct y; [constructor|discriminate]. }
  destruct y as [|y0 y]; [discriminate|]. destruct dm as [|d0 dm]; [discriminate|].
  cbn [length seq map combine fst snd] in *. constructor.
  - intros _. cbn [a_value a_state a_time a_error a_centre].
    pose proof (Hy 0%nat ltac:(lia)) as Y0. pose proof (Hd 0%nat ltac:(lia)) as D0. rewrite Nat.add_0_r in *. cbn [nth] in Y0, D0.
    assert (is_finite d0 = true) as Fd. { rewrite D0. apply (proj1 (List.Forall_forall _ _) FM). apply nth_In. lia. }
    exists (B2R d0), (map (fun j => if (j =? a)%nat then 1 else 0) (seq 0 n)), q, 0.
    split; [apply b_of_contains; auto|]. split; [|split; [|split]].
    + generalize (seq 0 n). intros ks. induction ks as [|j ks IHk]; constructor; auto. destruct (j =? a)%nat; [rewrite <- V1; apply b_of_contains; auto|].
      change 0 with (B2R (fzero : fl)). apply b_of_contains. reflexivity.
    + replace q with (q / B2R (fnat 1 : fl)) by (rewrite V1; field). unfold bf_div. apply b_div_contains; auto; [apply b_of_contains; auto|]. rewrite V1. lra.
    + rewrite Rabs_R0. cbn. lra.
    + replace (map (fun q0 => fst q0 * (fst (snd q0) - B2R (snd (snd q0)))) (combine (map (fun j => if (j =? a)%nat then 1 else 0) (seq 0 n)) (combine (x 0) dmid)))
        with (map (fun q0 => fst q0 * (fst (snd q0) - snd (snd q0))) (combine (map (fun j => if (j =? a)%nat then 1 else 0) (seq 0 (length (x 0)))) (combine (x 0) (map (fun f => B2R f) dmid)))).
      * rewrite unit_row by (rewrite map_length; lia). replace (0 <=? a)%nat with true by (symmetry; apply Nat.leb_le; lia).
        replace (a <? 0 + length (x 0%R))%nat with true by (symmetry; apply Nat.ltb_lt; lia). cbn [andb]. rewrite Nat.sub_0_r.
        assert (nth a (map (fun f : fl => B2R f) dmid) 0 = B2R d0) as -> by (rewrite D0; exact (map_nth (fun f : fl => B2R f) dmid fzero a)). lra.
      * rewrite L0. generalize (map (fun j => if (j =? a)%nat then 1 else 0) (seq 0 n)) (x 0) dmid. clear.
        induction l as [|c l IH]; intros [|x0 x] [|m ms]; cbn; auto. f_equal. apply IH.
  - apply IH; [lia|lia|lia| |].
    + intros k Hk. replace (S a + k)%nat with (a + S k)%nat by lia. apply (Hy (S k)). lia.
    + intros k Hk. replace (S a + k)%nat with (a + S k)%nat by lia. apply (Hd (S k)). lia.
Qed.
End Constant.
Print Assumptions C112_constant_partial.
Example C112_nonvacuous : let D := [iv (dp (-1) 0) (d_ 1); iv (d_ 0) (d_ 3)] in let V := [b_of (d_ 1); iv (dp (-2) 0) (d_ 1)] in
  length V = length D /\ List.Forall (fun X => is_finite (ivl_midpoint X) = true) D /\ in_cbox V [1; -1] /\
  option_map (map shown_affine) (affine_step (constant_field 2 V) 1 2 D D (dp 1 (-2))) =
    Some [([B2SF (d_ 0); B2SF (dp 3 (-1))], shown_box [b_of (d_ 0)], shown_box [b_of (d_ 1); b_of (d_ 0)], shown_box [b_of (d_ 1)], B2SF (d_ 0));
          ([B2SF (d_ 0); B2SF (dp 3 (-1))], shown_box [b_of (dp 3 (-1))], shown_box [b_of (d_ 0); b_of (d_ 1)], shown_box [iv (dp (-2) 0) (d_ 1)], B2SF (d_ 0))].
Proof.
  cbn zeta. split; [reflexivity|]. split; [repeat constructor|]. split; [|vm_compute; reflexivity].
  constructor; [rewrite <- d1_val; apply b_of_contains; reflexivity|]. constructor; [|constructor].
  split; [apply below_finite|apply above_finite]; auto; cbn [iv b_l b_u]; [dpval (dp (-2) 0)|dpval (d_ 1)]; lra.
Qed.
(** For the step 1/32 the range of the first model is inside the first bound, and the model is returned. *)
Definition F05 : list dbnd := [mkB (dp 1 (-1)) (dp 5 (-1))].
Lemma C113_interior : in_interior (srange (series1 (mkD 1 (-5)) F05)) F05.
Proof.
  split; [reflexivity|]. intros i Hi. cbn in Hi. assert (i = 0)%nat as -> by lia.
  assert (shown_box (srange (series1 (mkD 1 (-5)) F05)) = shown_box [mkB (dp 107 (-7)) (dp 153 (-7))]) as E by (vm_compute; reflexivity).
  revert E. unfold srange. generalize (b_add (mkB (d_ 1) (fadd up (d_ 1) (sh (series1 (mkD 1 (-5)) F05)))) (mkB (fneg (se (series1 (mkD 1 (-5)) F05))) (se (series1 (mkD 1 (-5)) F05)))).
  intros [l u] E. injection E as El Eu. cbn [b_l b_u] in El, Eu.
  change (B2SF l = B2SF (dp 107 (-7))) in El. change (B2SF u = B2SF (dp 153 (-7))) in Eu. apply B2SF_inj in El, Eu. subst l u.
  unfold coord, F05. cbn [nth b_l b_u]. repeat split; auto; [dpval (dp 1 (-1)); dpval (dp 107 (-7))|dpval (dp 153 (-7)); dpval (dp 5 (-1))]; lra.
Qed.
Example C113_nonvacuous : sound_series senc series1 srange square_field D1 /\ in_interior (srange (series1 (mkD 1 (-5)) F05)) F05 /\
  series_bounder_step series1 srange se F05 (fun X => X) (d_ 1) 1 (mkD 1 (-5)) = Done (mkD 1 (-5)) (series1 (mkD 1 (-5)) F05).
Proof. split; [exact series1_sound|]. split; [exact C113_interior|reflexivity]. Qed.
