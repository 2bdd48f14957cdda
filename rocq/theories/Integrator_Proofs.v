(** Proofs about the integrators. *)
From Coq Require Import ZArith Bool List Reals Lia Lra Psatz.
From Flocq Require Import Core IEEE754.BinarySingleNaN.
From Verif Require Import Float_Model Float_Spec Float_Proofs Bounds_Model Bounds_Spec Bounds_Proofs Bounds_Props.
From Verif Require Import ConstraintSolver_Model ConstraintSolver_Spec ConstraintSolver_Proofs.
From Verif Require Import Bounder_Model Bounder_Spec Bounder_Math Bounder_Proofs Integrator_Model Integrator_Spec.
From Verif Require Exact_Model.
Import ListNotations.
Local Open Scope R_scope.

Lemma vadd_vsub x y : length x = length y -> vadd (vsub x y) y = x.
Proof.
  revert y. induction x as [|a x IH]; intros [|b y] E; try discriminate; auto. cbn. f_equal; [ring|]. apply IH. injection E; auto.
Qed.
Lemma vsub_length x y : length x = length y -> length (vsub x y) = length x.
Proof. intros E. unfold vsub. rewrite map_length, combine_length. lia. Qed.

Section Proofs.
Context {prec emax : Z} {Hprec : Prec_gt_0 prec} {Hemax : Prec_lt_emax prec emax}.
Local Notation bnd := (bounds prec emax).
Local Notation fl := (binary_float prec emax).
Local Notation time := Exact_Model.dyadic_fin.
Context {M : Type} (enc : enclosure M).

Section Picard.
  Context (ops : operations (prec := prec) (emax := emax) M) (max_error : fl) (F : field) (D A : list bnd) (t h : R) (B : list bnd).
  Hypothesis Snd : sound_operations enc ops F D A t h B.
  Hypothesis FL : forall x s a, length x = length D -> length (F x s a) = length D.
  Context (t1 : R) (x : R -> list R) (a : list R).
  Hypothesis Ht1 : t < t1 <= t + h.
  Hypothesis Sol : solves F D A t t1 x (fun _ => a).

  Definition good (m : M) : Prop := forall s, t <= s <= t1 -> enc m (x t) s a (x s).
  Lemma par_in : in_cbox A a. Proof. apply (parameters_in _ _ _ _ _ _ _ Sol t). lra. Qed.
  Lemma picard_good m m' : picard ops m = Some m' -> good m -> good m'.
  Proof.
    intros E G s Hs. unfold picard in E. destruct (m_compose ops m) as [fm|] eqn:C; [|discriminate]. cbn in E. injection E as <-.
    pose proof (start_in _ _ _ _ _ _ _ Sol) as S0. pose proof par_in as Pa. pose proof (length_kept _ _ _ _ _ _ _ Sol) as Lx.
    assert (length (x s) = length (x t)) as EL by (rewrite !Lx by lra; auto).
    rewrite <- (vadd_vsub (x s) (x t)) by auto.
    apply (s_add _ _ _ _ _ _ _ _ Snd); auto; try lra.
    - rewrite vsub_length; auto; apply Lx; auto.
    - apply Lx; lra.
    - apply (s_antiderivative _ _ _ _ _ _ _ _ Snd) with (v := fun r => F (x r) r a); auto; try lra.
      + intros r Hr. split; [apply Lx; lra|apply FL; apply Lx; lra].
      + intros i r Hi Hr. apply (state_continuous _ _ _ _ _ _ _ Sol); auto; lra.
      + intros i r Hi Hr. apply (state_derivative _ _ _ _ _ _ _ Sol); auto; lra.
      + intros r Hr. apply (s_compose _ _ _ _ _ _ _ _ Snd m); auto; try lra; [apply Lx; lra|]. apply G; lra.
    - apply (s_projection _ _ _ _ _ _ _ _ Snd); auto; lra.
  Qed.
  Lemma picard_loop_good mn n : forall k phi m, picard_loop ops max_error mn n k phi = Some m -> good phi -> good m.
  Proof.
    induction n as [|n IH]; intros k phi m E G; cbn [picard_loop] in E; [injection E as <-; auto|].
    destruct picard as [phi'|] eqn:P; [|discriminate]. apply picard_good in P; auto.
    destruct andb; [injection E as <-; auto|eauto].
  Qed.
  Lemma iterate_good n : forall phi m, iterate ops n phi = Some m -> good phi -> good m.
  Proof.
    induction n as [|n IH]; intros phi m E G; cbn [iterate] in E; [injection E as <-; auto|].
    destruct picard as [phi'|] eqn:P; [|discriminate]. apply picard_good in P; auto. eauto.
  Qed.
  Lemma restriction_good m : good m -> good (m_restriction ops m).
  Proof. intros G s Hs. apply (s_restriction _ _ _ _ _ _ _ _ Snd); [apply Sol|lra|apply par_in|apply G; auto]. Qed.
  Lemma graded_refine_good mi fuel : forall errs phi m, graded_refine ops max_error mi fuel errs phi = Step m -> good phi -> good m.
  Proof.
    induction fuel as [|fuel IH]; intros errs phi m E G; cbn [graded_refine] in E; [discriminate|].
    destruct picard as [phi'|] eqn:P; [|discriminate]. apply picard_good in P; auto.
    destruct has_improved; [eauto|]. destruct above_maximum; [discriminate|]. injection E as <-. apply restriction_good; auto.
  Qed.
  Lemma constants_good : (forall s, t <= s <= t1 -> in_cbox B (x s)) -> good (m_constants ops).
  Proof. intros H s Hs. apply (s_constants _ _ _ _ _ _ _ _ Snd); [apply Sol|lra|apply par_in|auto]. Qed.
End Picard.

Lemma reduce_cases step fuel : forall hprev h h' (m : M), reduce_step (prec := prec) (emax := emax) step fuel hprev h = Done h' m ->
  step h' = Step m /\ (h' = h \/ exists y : fl, h' = of_float y).
Proof.
  induction fuel as [|fuel IH]; intros hprev h h' m E; cbn [reduce_step] in E; [discriminate|].
  destruct (step h) eqn:S; try discriminate; [injection E as <- <-; auto|].
  apply IH in E as [E1 [E2|E2]]; auto. split; auto. right. rewrite E2. eexists. reflexivity.
Qed.
Lemma reduce_small step fuel c : forall hprev h h' (m : M), 0 <= tval h <= c -> 0 <= tval hprev <= 2 * c ->
  reduce_step (prec := prec) (emax := emax) step fuel hprev h = Done h' m -> 0 <= tval h' <= c.
Proof.
  induction fuel as [|fuel IH]; intros hprev h h' m H1 H2 E; cbn [reduce_step] in E; [discriminate|].
  destruct (step h) eqn:S; try discriminate; [injection E as <- <-; auto|].
  apply IH in E; auto; [|lra]. pose proof (next_step_val (prec := prec) (emax := emax) hprev ltac:(lra)). lra.
Qed.
Lemma reduce_ends (step : time -> outcome M) h0 : 0 < h0 -> (forall g, step g <> Looping) -> (forall g, 0 <= tval g <= h0 -> step g <> TimeStepError) ->
  forall k fuel hprev h c, (2 * k + 3 <= fuel)%nat -> 0 <= tval h <= c -> 0 <= tval hprev <= c -> c < h0 * 2 ^ k ->
  reduce_step (prec := prec) (emax := emax) step fuel hprev h <> Running.
Proof.
  intros P NL OK. induction k as [|k IH]; intros fuel hprev h c Hf Hh Hp Hc.
  - destruct fuel as [|fuel]; [lia|]. cbn in Hc. cbn [reduce_step]. destruct (step h) eqn:S; try discriminate.
    + exfalso. apply (OK h); auto. lra.
    + exfalso. apply (NL h); auto.
  - destruct fuel as [|[|fuel]]; [lia|lia|]. cbn [reduce_step]. pose proof (next_step_val (prec := prec) (emax := emax) hprev ltac:(lra)) as N1.
    destruct (step h) eqn:S; try discriminate; [|exfalso; eapply NL; eauto].
    destruct (step (next_step hprev)) eqn:S2; try discriminate; [|exfalso; eapply NL; eauto].
    pose proof (next_step_val (prec := prec) (emax := emax) h ltac:(lra)) as N2.
    apply (IH fuel _ _ (c / 2)); try lra; try lia. cbn in Hc. lra.
Qed.

(** ** Series with a bound found from a first series *)
Section Inside.
  Context (n : nat) (X : nat -> R -> R) (lo hi lo' hi' : nat -> R) (t1 : R).
  Hypothesis T : 0 <= t1.
  Hypothesis Xc : forall i s, (i < n)%nat -> 0 <= s <= t1 -> continuity_pt (X i) s.
  Hypothesis Nest : forall i, (i < n)%nat -> lo i < lo' i /\ hi' i < hi i.
  Hypothesis Start : forall i, (i < n)%nat -> lo' i <= X i 0 <= hi' i.
  Hypothesis Improve : forall s, 0 < s <= t1 -> (forall r, 0 <= r <= s -> forall i, (i < n)%nat -> lo i <= X i r <= hi i) ->
    forall i, (i < n)%nat -> lo' i <= X i s <= hi' i.
  Let fine s := forall r, 0 <= r <= s -> forall i, (i < n)%nat -> lo i <= X i r <= hi i.

  Lemma near_point s e i : (i < n)%nat -> 0 <= s <= t1 -> 0 < e -> exists d, 0 < d /\ forall r, Rabs (r - s) < d -> Rabs (X i r - X i s) < e.
  Proof.
    intros Hi Hs He. destruct (Xc i s Hi Hs e He) as (d & Hd & H). exists d. split; auto. intros r Hr.
    destruct (Req_dec s r) as [->|N]; [rewrite Rminus_diag_eq, Rabs_R0 by auto; auto|].
    apply (H r). split; [split; [exact I|auto]|exact Hr].
  Qed.
  Lemma near_all s k : (k <= n)%nat -> 0 <= s <= t1 -> (forall i, (i < n)%nat -> lo' i <= X i s <= hi' i) ->
    exists d, 0 < d /\ forall r i, (i < k)%nat -> Rabs (r - s) < d -> lo i <= X i r <= hi i.
  Proof.
    intros Hk Hs In. induction k as [|k IH]; [exists 1; split; [lra|intros; lia]|].
    destruct IH as (d & Hd & H); [lia|]. destruct (Nest k ltac:(lia)) as [N1 N2]. specialize (In k ltac:(lia)).
    destruct (near_point s (Rmin (lo' k - lo k) (hi k - hi' k)) k ltac:(lia) Hs) as (d2 & Hd2 & H2).
    { apply Rmin_glb_lt; lra. }
    exists (Rmin d d2). split; [apply Rmin_glb_lt; auto|]. intros r i Hi Hr.
    pose proof (Rmin_l d d2). pose proof (Rmin_r d d2).
    destruct (Nat.eq_dec i k) as [->|Ni]; [|apply H; [lia|lra]].
    specialize (H2 r ltac:(lra)). pose proof (Rmin_l (lo' k - lo k) (hi k - hi' k)). pose proof (Rmin_r (lo' k - lo k) (hi k - hi' k)).
    apply Rabs_def2 in H2. lra.
  Qed.
  Lemma stay_inside : fine t1.
  Proof.
    assert (fine 0) as F0.
    { intros r Hr i Hi. replace r with 0 by lra. specialize (Start i Hi). specialize (Nest i Hi). lra. }
    destruct (completeness (fun s => 0 <= s <= t1 /\ fine s)) as (m & Ub & Lub).
    { exists t1. intros s [Hs _]. lra. }
    { exists 0. split; [lra|auto]. }
    assert (0 <= m) as M0 by (apply Ub; split; [lra|auto]).
    assert (m <= t1) as M1 by (apply Lub; intros s [Hs _]; lra).
    assert (forall r, 0 <= r < m -> forall i, (i < n)%nat -> lo i <= X i r <= hi i) as Below.
    { intros r Hr i Hi. destruct (Rle_or_lt (X i r) (hi i)) as [U|U]; [destruct (Rle_or_lt (lo i) (X i r)) as [L|L]; [lra|]|].
      all: exfalso; apply (Rlt_not_le m r); [lra|]; apply Lub; intros s [Hs Fs]; apply Rnot_lt_le; intros Q; specialize (Fs r ltac:(lra) i Hi); lra. }
    assert (fine m) as Fm.
    { intros r Hr i Hi. destruct (Rlt_or_le r m) as [Q|Q]; [apply Below; auto; lra|]. assert (r = m) as -> by lra.
      destruct (Req_dec m 0) as [Z|NZ]; [rewrite Z; apply (F0 0); auto; lra|].
      assert (forall e, 0 < e -> lo i - e < X i m < hi i + e) as Cl.
      { intros e He. destruct (near_point m e i Hi ltac:(lra) He) as (d & Hd & H).
        set (q := m - Rmin (d / 2) m). pose proof (Rmin_l (d/2) m). pose proof (Rmin_r (d/2) m).
        assert (0 < Rmin (d/2) m) by (apply Rmin_glb_lt; lra).
        assert (Rabs (q - m) < d) as Qd by (unfold q; apply Rabs_def1; lra).
        specialize (H q Qd). specialize (Below q ltac:(unfold q; lra) i Hi). apply Rabs_def2 in H. lra. }
      split; apply Rnot_lt_le; intros Q2.
      - specialize (Cl (lo i - X i m) ltac:(lra)). lra.
      - specialize (Cl (X i m - hi i) ltac:(lra)). lra. }
    assert (forall i, (i < n)%nat -> lo' i <= X i m <= hi' i) as In.
    { destruct (Req_dec m 0) as [->|NZ]; auto. apply Improve; auto. lra. }
    destruct (Rle_lt_or_eq_dec _ _ M1) as [Lt|Eq]; [|rewrite <- Eq; auto].
    destruct (near_all m n ltac:(lia) ltac:(lra) In) as (d & Hd & H).
    exfalso. pose proof (Rmin_l (d/2) (t1 - m)). pose proof (Rmin_r (d/2) (t1 - m)).
    assert (0 < Rmin (d/2) (t1 - m)) by (apply Rmin_glb_lt; lra).
    assert (m + Rmin (d/2) (t1 - m) <= m); [|lra]. apply Ub. split; [lra|].
    intros r Hr i Hi. destruct (Rle_or_lt r m) as [Q|Q]; [apply Fm; auto; lra|]. apply H; auto. apply Rabs_def1; lra.
  Qed.
End Inside.

Lemma half_val h : tval (half h) = tval h / 2.
Proof.
  unfold half, tval; cbn [Exact_Model.mant Exact_Model.expo]. unfold Zminus. rewrite bpow_plus. change (bpow radix2 (-(1))) with (/ 2). field.
Qed.

Section Series.
  Context (series : time -> list bnd -> M) (range : M -> list bnd) (error : M -> fl) (first : list bnd) (widen : list bnd -> list bnd) (max_error : fl).
  Context (F : field) (D : list bnd) (h : time).
  Hypothesis Snd : sound_series enc series range F D.
  Hypothesis Hh : 0 <= tval h.
  Hypothesis Int : in_interior (range (series h first)) first.
  Hypothesis FD : length first = length D.

  Lemma first_bounds t1 x : 0 < t1 <= tval h -> solves F D ([] : list bnd) 0 t1 x (fun _ => []) -> forall s, 0 <= s <= t1 -> in_cbox first (x s).
  Proof.
    intros Ht Sol. pose proof (length_kept _ _ _ _ _ _ _ Sol) as Lx. destruct Int as [IL I].
    assert (forall s, 0 <= s <= t1 -> (forall i, (i < length D)%nat -> B2R (b_l (coord first i)) <= nth i (x s) 0 <= B2R (b_u (coord first i))) -> in_cbox first (x s)) as Box.
    { intros s Hs H. apply in_cbox_nth. split; [rewrite Lx; auto|]. intros i Hi. destruct (I i ltac:(lia)) as (_ & _ & F1 & F2 & _).
      rewrite FD in Hi. specialize (H i Hi). split; [apply below_finite|apply above_finite]; auto; lra. }
    assert (forall s, in_cbox (range (series h first)) (x s) -> forall i, (i < length D)%nat ->
      B2R (b_l (coord (range (series h first)) i)) <= nth i (x s) 0 <= B2R (b_u (coord (range (series h first)) i))) as Coord.
    { intros s H i Hi. destruct (I i ltac:(lia)) as (F1 & F2 & _). apply in_coord with (v := i) in H; [|lia]. destruct H as [L U].
      apply below_finite in L; auto. apply above_finite in U; auto. }
    pose proof (stay_inside (length D) (fun i s => nth i (x s) 0) (fun i => B2R (b_l (coord first i))) (fun i => B2R (b_u (coord first i)))
      (fun i => B2R (b_l (coord (range (series h first)) i))) (fun i => B2R (b_u (coord (range (series h first)) i))) t1 ltac:(lra)) as St.
    cbv beta in St. intros s Hs. apply Box; auto. apply St; clear St; auto.
    - intros i r Hi Hr. apply (state_continuous _ _ _ _ _ _ _ Sol); auto.
    - intros i Hi. destruct (I i ltac:(lia)) as (_ & _ & _ & _ & N1 & N2). auto.
    - apply Coord. apply (s_range _ _ _ _ _ Snd) with (x := x 0) (s := 0); [apply Sol|lra|]. apply (s_start _ _ _ _ _ Snd). apply Sol.
    - intros r Hr H. apply Coord. apply (s_range _ _ _ _ _ Snd) with (x := x 0) (s := r); [apply Sol|lra|].
      apply (s_series _ _ _ _ _ Snd) with (t1 := r); [lra| | |lra].
      + destruct Sol as [S1 S2 S3 S4 S5]. split; auto.
        * intros q Hq; apply S2; lra.
        * intros; constructor.
        * intros; apply S4; auto; lra.
        * intros; apply S5; auto; lra.
      + intros q Hq. apply Box; [lra|]. intros; apply H; auto.
  Qed.
  Lemma range_bounds t1 x : 0 < t1 <= tval h -> solves F D ([] : list bnd) 0 t1 x (fun _ => []) ->
    forall s, 0 <= s <= t1 -> in_cbox (range (series h first)) (x s).
  Proof.
    intros Ht Sol s Hs. apply (s_range _ _ _ _ _ Snd) with (x := x 0) (s := s); [apply Sol|lra|].
    apply (s_series _ _ _ _ _ Snd) with (t1 := t1); auto. apply first_bounds; auto.
  Qed.
  Lemma series_loop_good fuel : forall wh g B h' m, 0 <= tval g <= tval h -> 0 <= tval wh <= 2 * tval h ->
    B = first \/ B = range (series h first) -> box_refines (range (series h first)) B = true ->
    box_refines (range (series h first)) (range (series h first)) = true ->
    series_loop series error widen max_error (range (series h first)) fuel wh g B = Done h' m ->
    0 <= tval h' <= tval h /\ encloses_flow enc F D ([] : list bnd) 0 (tval h') m.
  Proof.
    induction fuel as [|fuel IH]; intros wh g B h' m Hg Hw HB Rf Rr E; cbn [series_loop] in E; [discriminate|].
    rewrite Rf in E. destruct flt_lt.
    - injection E as <- <-. split; auto. intros t1 x a Ht Sol s Hs.
      assert (a = []) as -> by (pose proof (parameters_in _ _ _ _ _ _ _ Sol 0 ltac:(lra)) as Q; inversion Q; auto).
      apply (s_series _ _ _ _ _ Snd) with (t1 := t1); auto; [lra|].
      destruct HB as [->| ->]; [apply first_bounds|apply range_bounds]; auto; lra.
    - apply IH in E; auto; rewrite ?half_val; lra.
  Qed.
End Series.
End Proofs.
