(** The properties C128-C133 of computable real numbers. *)
From Coq Require Import ZArith NArith QArith Qreals Reals List Lia Lra Bool.
From Flocq Require Import Core.
From Coquelicot Require Import Rbar.
From Verif Require Import Exact_Model Exact_Spec Exact_Proofs Exact_Dyadic_Proofs Logical_Model Real_Model Real_Spec Real_Proofs Real_Use_Proofs Real_Inst.
Local Open Scope R_scope.

Section Claims.
  Context {K D M : Type} (kval : K -> option R) (AD : arith K D) (AM : nat -> arith K M).

  (** C128.  Every computation of a real number, with any effort and at any precision, succeeds
      and gives bounds for the number that the expression denotes. *)
  Theorem C128_bounds_contain :
    forall (hD : D -> R -> Prop) (hM : nat -> M -> R -> Prop),
    sound_arith kval AD hD -> (forall p, sound_arith kval (AM p) (hM p)) ->
    forall r v, denotes kval r v ->
    (forall e, exists b, compute AD AM r e = Some b /\ in_dbounds b v) /\
    (forall e, exists x, compute_dp AD AM r e = Some x /\ hD x v) /\
    (forall e p, exists x, compute_mp AD AM r e p = Some x /\ hM p x v) /\
    (exists x, get_dp AD AM r = Some x /\ hD x v) /\
    (forall p, exists x, get_mp AD AM r p = Some x /\ hM p x v) /\
    (exists x, bounds_dp AD AM r = Some x /\ hD x v).
  Proof using.
    intros hD hM SD SM r v H. destruct (compile_sound kval AD AM hD hM SD SM r v H) as (A & B & C).
    repeat split; intros; [apply A|apply B|apply C|apply (B 0%nat)|apply (C p p)|apply (B 53%nat)].
  Qed.

  (** C129.  The bounds computed with growing effort converge to the number, for numbers built
      without limits of sequences of reals, if the float operations are continuous. *)
  Theorem C129_converges_partial :
    forall okU okB okP, continuous_arith kval AM okU okB okP ->
    forall r v, computable kval okU okB okP r v ->
    forall eps, 0 < eps -> exists N, forall e, (N <= e)%nat ->
      exists b, compute AD AM r e = Some b /\ within b v eps.
  Proof using.
    intros okU okB okP CM r v H eps He.
    exact (proj1 (compile_converges kval AD AM okU okB okP CM r v H) eps He).
  Qed.
  (** The limit of a sequence of reals converges if the terms are accurate along the diagonal. *)
  Theorem C129_limit_partial :
    forall s xs v, (forall n, Rabs (xs n - v) <= / 2 ^ n) ->
    (forall eps, 0 < eps -> exists N, forall e, (N <= e)%nat ->
       exists b, compute AD AM (s (e + 1)%nat) e = Some b /\ within b (xs (e + 1)%nat) eps) ->
    forall eps, 0 < eps -> exists N, forall e, (N <= e)%nat ->
      exists b, compute AD AM (RLimR s) e = Some b /\ within b v eps.
  Proof using.
    intros s xs v L H eps He. destruct (H (eps / 2)) as (N & HN); [lra|]. destruct (inv2_small (eps / 4)) as (N' & HN'); [lra|].
    exists (Nat.max N N'). intros e Hle. destruct (HN e) as (b & E & W); [lia|].
    exists (db_pm b (two_pow_minus (e + 1))). split.
    - unfold compute in *. cbn [compile i_d]. rewrite E. reflexivity.
    - apply (within_mono _ _ (eps / 2 + 2 * / 2 ^ (e + 1))); [specialize (HN' (e + 1)%nat ltac:(lia)); lra|].
      apply (within_pm _ _ (xs (e + 1)%nat)); [exact W|apply L].
  Qed.

  (** C130.  For a positive accuracy, the computed bounds contain the number and their half width
      is less than the accuracy; the computation ends if and only if some effort gives such
      bounds, and it never fails. *)
  Theorem C130_accuracy_partial :
    forall (hD : D -> R -> Prop) (hM : nat -> M -> R -> Prop),
    sound_arith kval AD hD -> (forall p, sound_arith kval (AM p) (hM p)) ->
    forall r v acc, denotes kval r v -> 0 < dval acc ->
    (forall fuel b, compute_accuracy AD AM r (Fin acc) fuel = Got b -> in_dbounds b v /\ narrower b (dval acc)) /\
    (forall fuel, compute_accuracy AD AM r (Fin acc) fuel <> Failed) /\
    ((exists fuel b, compute_accuracy AD AM r (Fin acc) fuel = Got b) <->
     (exists e b, (1 <= e)%nat /\ compute AD AM r e = Some b /\ narrower b (dval acc))).
  Proof using.
    intros hD hM SD SM r v acc H P. pose proof (proj1 (compile_sound kval AD AM hD hM SD SM r v H)) as C.
    split; [|split].
    - intros fuel b. apply accuracy_sound; [exact C|lra].
    - intro fuel. apply (loop_not_failed AD AM r v). exact C.
    - apply (accuracy_terminates AD AM r v); [exact C|lra].
  Qed.
  Theorem C130_terminates_partial :
    forall (hD : D -> R -> Prop) (hM : nat -> M -> R -> Prop) okU okB okP,
    sound_arith kval AD hD -> (forall p, sound_arith kval (AM p) (hM p)) -> continuous_arith kval AM okU okB okP ->
    forall r v acc, denotes kval r v -> computable kval okU okB okP r v -> 0 < dval acc ->
    exists fuel b, compute_accuracy AD AM r (Fin acc) fuel = Got b.
  Proof using.
    intros hD hM okU okB okP SD SM CM r v acc H G P.
    apply (accuracy_converges AD AM r v acc); [| |exact P].
    - exact (proj1 (compile_sound kval AD AM hD hM SD SM r v H)).
    - exact (proj1 (compile_converges kval AD AM okU okB okP CM r v G)).
  Qed.
  (** No number is ever accurate to 0, not even an exact one. *)
  Theorem C130_zero_never :
    forall (hD : D -> R -> Prop) (hM : nat -> M -> R -> Prop),
    sound_arith kval AD hD -> (forall p, sound_arith kval (AM p) (hM p)) ->
    forall r v, denotes kval r v -> forall fuel, compute_accuracy AD AM r w_zero fuel = Running.
  Proof using.
    intros hD hM SD SM r v H fuel. pose proof (proj1 (compile_sound kval AD AM hD hM SD SM r v H)) as C.
    assert (Z : dval (mkD 0 0) = 0) by (unfold dval; cbn; lra).
    destruct (compute_accuracy AD AM r w_zero fuel) as [| |b] eqn:E; [reflexivity|exfalso|exfalso].
    - exact (loop_not_failed AD AM r v _ _ _ _ _ C E).
    - apply (accuracy_sound AD AM r v) in E; [|exact C|rewrite Z; lra]. rewrite Z in E.
      destruct E as [Hin (l & u & -> & N)]. rewrite in_fin in Hin. lra.
  Qed.

  (** C131.  Comparisons of real numbers are never wrong, with any effort; they are decided from
      some effort on if the numbers differ. *)
  Theorem C131_comparisons :
    forall (hD : D -> R -> Prop) (hM : nat -> M -> R -> Prop),
    sound_arith kval AD hD -> (forall p, sound_arith kval (AM p) (hM p)) ->
    forall r1 r2 v1 v2 e, denotes kval r1 v1 -> denotes kval r2 v2 ->
    (exists l, check2 AD AM db_lt r1 r2 e = Some l /\ right_about l (v1 < v2)) /\
    (exists l, check2 AD AM db_gt r1 r2 e = Some l /\ right_about l (v1 > v2)) /\
    (exists l, check2 AD AM db_le r1 r2 e = Some l /\ right_about l (v1 <= v2)) /\
    (exists l, check2 AD AM db_ge r1 r2 e = Some l /\ right_about l (v1 >= v2)) /\
    (exists l, check2 AD AM db_eq r1 r2 e = Some l /\ right_about l (v1 = v2)) /\
    (exists l, check2 AD AM db_ne r1 r2 e = Some l /\ right_about l (v1 <> v2)) /\
    (exists l, check1 AD AM db_sgn r1 e = Some l /\ check_sgn AD AM r1 e = Some l /\ (l = TRUE -> 0 < v1) /\ (l = FALSE -> v1 < 0)).
  Proof using.
    intros hD hM SD SM r1 r2 v1 v2 e H1 H2.
    destruct (proj1 (compile_sound kval AD AM hD hM SD SM r1 v1 H1) e) as (b1 & E1 & B1).
    destruct (proj1 (compile_sound kval AD AM hD hM SD SM r2 v2 H2) e) as (b2 & E2 & B2).
    destruct (compare_right b1 b2 v1 v2 B1 B2) as (Q1 & Q2 & Q3 & Q4 & Q5 & Q6).
    rewrite check_sgn_is. unfold check2, check1, compute. rewrite E1, E2. cbn [opt2 option_map].
    repeat split; try (eexists; split; [reflexivity|assumption]).
    eexists. split; [reflexivity|]. split; [reflexivity|]. apply sgn_right, B1.
  Qed.
  Theorem C131_decided :
    forall okU okB okP, continuous_arith kval AM okU okB okP ->
    forall r1 r2 v1 v2, computable kval okU okB okP r1 v1 -> computable kval okU okB okP r2 v2 ->
    (v1 < v2 -> exists N, forall e, (N <= e)%nat ->
      check2 AD AM db_lt r1 r2 e = Some TRUE /\ check2 AD AM db_le r1 r2 e = Some TRUE /\
      check2 AD AM db_gt r1 r2 e = Some FALSE /\ check2 AD AM db_ge r1 r2 e = Some FALSE /\
      check2 AD AM db_eq r1 r2 e = Some FALSE /\ check2 AD AM db_ne r1 r2 e = Some TRUE /\
      check2 AD AM db_lt r2 r1 e = Some FALSE /\ check2 AD AM db_le r2 r1 e = Some FALSE /\
      check2 AD AM db_gt r2 r1 e = Some TRUE /\ check2 AD AM db_ge r2 r1 e = Some TRUE /\
      check2 AD AM db_eq r2 r1 e = Some FALSE /\ check2 AD AM db_ne r2 r1 e = Some TRUE) /\
    (v1 <> 0 -> exists N, forall e, (N <= e)%nat ->
      check1 AD AM db_sgn r1 e = Some (if Rlt_dec 0 v1 then TRUE else FALSE)).
  Proof using.
    intros okU okB okP CM r1 r2 v1 v2 H1 H2.
    pose proof (proj1 (compile_converges kval AD AM okU okB okP CM r1 v1 H1)) as C1.
    pose proof (proj1 (compile_converges kval AD AM okU okB okP CM r2 v2 H2)) as C2.
    split; intro H.
    - apply (eventually_decided AD AM r1 r2 v1 v2); assumption.
    - apply (sgn_decided AD AM r1 v1); assumption.
  Qed.
  (** The choice between r>a and r<b, for a<b, is right, and is made if the number converges. *)
  Theorem C131_choice :
    forall (hD : D -> R -> Prop) (hM : nat -> M -> R -> Prop),
    sound_arith kval AD hD -> (forall p, sound_arith kval (AM p) (hM p)) ->
    forall r v a b, denotes kval r v ->
    (forall fuel, nondeterministic_greater AD AM r (Fin a) (Fin b) fuel = Chosen true -> Q2R a < v) /\
    (forall fuel, nondeterministic_greater AD AM r (Fin a) (Fin b) fuel = Chosen false -> v < Q2R b) /\
    (forall okU okB okP, continuous_arith kval AM okU okB okP -> computable kval okU okB okP r v -> Q2R a < Q2R b ->
     exists fuel c, nondeterministic_greater AD AM r (Fin a) (Fin b) fuel = Chosen c).
  Proof using.
    intros hD hM SD SM r v a b H. pose proof (proj1 (compile_sound kval AD AM hD hM SD SM r v H)) as C.
    unfold nondeterministic_greater. repeat split.
    - intros fuel R. destruct (r_lt (Fin a) (Fin b)); [|discriminate R]. exact (greater_sound AD AM r v a b fuel 0 true C R).
    - intros fuel R. destruct (r_lt (Fin a) (Fin b)); [|discriminate R]. exact (greater_sound AD AM r v a b fuel 0 false C R).
    - intros okU okB okP CM G L. assert (W : r_lt (Fin a) (Fin b) = true) by (apply (r_lt_sound (Fin a) (Fin b) (Finite (Q2R a)) (Finite (Q2R b)) eq_refl eq_refl); exact L).
      rewrite W. apply (greater_terminates AD AM r v); [exact C| |exact L].
      exact (proj1 (compile_converges kval AD AM okU okB okP CM r v G)).
  Qed.

  (** C132.  A [when] expression: if one of the conditions holds, if those that hold are not
      found false, and if the term of a condition that holds is the value, then the bounds
      contain the value -- provided that the other term has a value too; and once the wrong
      condition is found false, the bounds are those of the right term. *)
  Theorem C132_when_partial :
    forall (hD : D -> R -> Prop) (hM : nat -> M -> R -> Prop),
    sound_arith kval AD hD -> (forall p, sound_arith kval (AM p) (hM p)) ->
    forall (P1 P2 : Prop) p1 p2 r1 r2 v1 v2 v e,
    P1 \/ P2 -> (forall e, p1 e = false -> ~ P1) -> (forall e, p2 e = false -> ~ P2) ->
    denotes kval r1 v1 -> denotes kval r2 v2 -> (P1 -> v1 = v) -> (P2 -> v2 = v) ->
    (exists b, compute AD AM (RWhen p1 r1 p2 r2) e = Some b /\ in_dbounds b v) /\
    (p1 e = false -> compute AD AM (RWhen p1 r1 p2 r2) e = compute AD AM r2 e) /\
    (p2 e = false -> compute AD AM (RWhen p1 r1 p2 r2) e = compute AD AM r1 e).
  Proof using.
    intros hD hM SD SM P1 P2 p1 p2 r1 r2 v1 v2 v e HP F1 F2 H1 H2 V1 V2. split; [|split].
    - apply (proj1 (compile_sound kval AD AM hD hM SD SM (RWhen p1 r1 p2 r2) v (DWhen kval P1 P2 p1 p2 r1 r2 v1 v2 v HP F1 F2 H1 H2 V1 V2)) e).
    - intro Q. unfold compute. cbn [compile i_d]. unfold when_d. rewrite Q. destruct (p2 e) eqn:Q2; cbn [negb orb]; [reflexivity|].
      exfalso. destruct HP as [HP|HP]; [exact (F1 e Q HP)|exact (F2 e Q2 HP)].
    - intro Q. unfold compute. cbn [compile i_d]. unfold when_d. rewrite Q. destruct (p1 e) eqn:Q2; cbn [negb orb]; [reflexivity|].
      exfalso. destruct HP as [HP|HP]; [exact (F1 e Q2 HP)|exact (F2 e Q HP)].
  Qed.
  (** The computation fails exactly when both conditions are found false (or a needed term fails). *)
  Theorem C132_unsatisfiable : forall p1 p2 r1 r2 e, p1 e = false -> p2 e = false ->
    compute AD AM (RWhen p1 r1 p2 r2) e = None.
  Proof using. intros p1 p2 r1 r2 e Q1 Q2. unfold compute. cbn [compile i_d]. unfold when_d. rewrite Q1, Q2. reflexivity. Qed.
  (** The double-precision bounds of a [when] expression do not depend on the effort. *)
  Theorem C132_double_effort : forall p1 p2 r1 r2 e,
    compute_dp AD AM (RWhen p1 r1 p2 r2) e = compute_dp AD AM (RWhen p1 r1 p2 r2) 0.
  Proof using. reflexivity. Qed.

  (** C133.  [round] gives the nearest or next-to-nearest integer; [same] is true only for equal
      numbers. *)
  Theorem C133_round_partial :
    forall (hD : D -> R -> Prop) (hM : nat -> M -> R -> Prop),
    sound_arith kval AD hD -> (forall p, sound_arith kval (AM p) (hM p)) ->
    forall r v, denotes kval r v ->
    (forall fuel z, round_real AD AM r fuel = RGot z -> Rabs (v - IZR z) < 1) /\
    (forall okU okB okP, continuous_arith kval AM okU okB okP -> computable kval okU okB okP r v ->
     exists fuel z, round_real AD AM r fuel = RGot z).
  Proof using.
    intros hD hM SD SM r v H. pose proof (proj1 (compile_sound kval AD AM hD hM SD SM r v H)) as C. split.
    - intros fuel z. apply round_sound. exact C.
    - intros okU okB okP CM G. apply (round_terminates AD AM r v C). exact (proj1 (compile_converges kval AD AM okU okB okP CM r v G)).
  Qed.
  Theorem C133_same_partial :
    forall (hD : D -> R -> Prop) (hM : nat -> M -> R -> Prop),
    sound_arith kval AD hD -> (forall p, sound_arith kval (AM p) (hM p)) ->
    forall r1 r2 v1 v2, denotes kval r1 v1 -> denotes kval r2 v2 ->
    same AD AM r1 r2 = Some true -> v1 = v2.
  Proof using.
    intros hD hM SD SM r1 r2 v1 v2 H1 H2 S. unfold same, bounds_dp, compute_dp in S.
    destruct (proj1 (proj2 (compile_sound kval AD AM hD hM SD SM r1 v1 H1)) 53%nat) as (x1 & E1 & B1).
    destruct (proj1 (proj2 (compile_sound kval AD AM hD hM SD SM r2 v2 H2)) 53%nat) as (x2 & E2 & B2).
    rewrite E1, E2 in S. cbn zeta in S. injection S as S. apply andb_true_iff in S. destruct S as [S1 S2].
    apply (s_to_d _ _ _ SD) in B1, B2. apply in_ends in B1, B2.
    destruct B1 as (l1 & u1 & A1 & A2 & L1 & U1), B2 as (l2 & u2 & A3 & A4 & L2 & U2).
    apply (w_eq_sound _ _ _ _ A1 A4) in S1. apply (w_eq_sound _ _ _ _ A2 A3) in S2. subst.
    destruct u2 as [u2| |], l2 as [l2| |]; cbn in *; try contradiction; lra.
  Qed.
End Claims.

(** ** Cases that meet the hypotheses, and counterexamples, in an arithmetic of dyadic bounds *)
Notation wcompute := (compute w_arith (fun _ => w_arith)).
Definition three : dyadic := Fin (mkD 3 0).
Definition a_third : real dyadic :=
  RLimB (fun n => mkDB (Fin (mkD (2 ^ Z.of_nat n / 3) (- Z.of_nat n))) (Fin (mkD (2 ^ Z.of_nat n / 3 + 1) (- Z.of_nat n)))).
Lemma pow2_Z : forall n, IZR (2 ^ Z.of_nat n) = 2 ^ n.
Proof. intro n. rewrite <- pow_IZR. reflexivity. Qed.
Lemma third_within : forall n, within (mkDB (Fin (mkD (2 ^ Z.of_nat n / 3) (- Z.of_nat n))) (Fin (mkD (2 ^ Z.of_nat n / 3 + 1) (- Z.of_nat n)))) (1 / 3) (/ 2 ^ n).
Proof.
  intro n. do 2 eexists. split; [reflexivity|].
  pose proof (Z.div_mod (2 ^ Z.of_nat n) 3 ltac:(lia)) as E. pose proof (Z.mod_pos_bound (2 ^ Z.of_nat n) 3 ltac:(lia)) as [B1 B2].
  set (q := (2 ^ Z.of_nat n / 3)%Z) in *. set (m := ((2 ^ Z.of_nat n) mod 3)%Z) in *.
  apply (f_equal IZR) in E. rewrite plus_IZR, mult_IZR, pow2_Z in E. apply IZR_le in B1. apply IZR_lt in B2.
  assert (V : forall k, dval (mkD k (- Z.of_nat n)) = IZR k * / 2 ^ n).
  { intro k. rewrite <- dval_two. unfold dval. cbn [mant expo]. lra. }
  rewrite !V, plus_IZR. pose proof (inv2_pos n) as I. assert (P : 0 < 2 ^ n) by (apply pow_lt; lra).
  assert (T : 1 / 3 = (IZR q + IZR m / 3) * / 2 ^ n) by (field_simplify_eq; [lra|lra]).
  rewrite T. assert (0 <= IZR m / 3 * / 2 ^ n) by (apply Rmult_le_pos; lra).
  assert (IZR m / 3 * / 2 ^ n <= / 2 ^ n) by (rewrite <- (Rmult_1_l (/ 2 ^ n)) at 2; apply Rmult_le_compat_r; lra). lra.
Qed.
Lemma third_denotes : denotes w_val a_third (1 / 3).
Proof. apply DLimB. intro n. exact (within_in _ _ _ (third_within n)). Qed.
Lemma third_computable : computable w_val linU linB linP a_third (1 / 3).
Proof.
  apply CLimB. intros eps He. destruct (inv2_small eps He) as (N & HN). exists N. intros n Hn.
  exact (within_mono _ _ _ _ (HN n Hn) (third_within n)).
Qed.
Definition sample : real dyadic := RBin Sub (RCnst three) (RUn Hlf a_third).
Lemma sample_denotes : denotes w_val sample (3 - 1 / 3 / 2).
Proof.
  replace (3 - 1 / 3 / 2) with (dval (mkD 3 0) - 1 / 3 / 2) by (unfold dval; cbn; lra).
  apply (DBin w_val Sub (RCnst three) (RUn Hlf a_third) _ (1 / 3 / 2)); [apply DCnst; reflexivity| |exact I].
  apply (DUn w_val Hlf a_third (1 / 3) third_denotes I).
Qed.
Lemma sample_computable : computable w_val linU linB linP sample (3 - 1 / 3 / 2).
Proof.
  replace (3 - 1 / 3 / 2) with (dval (mkD 3 0) - 1 / 3 / 2) by (unfold dval; cbn; lra).
  apply (CBin w_val linU linB linP Sub (RCnst three) (RUn Hlf a_third) _ (1 / 3 / 2)); [reflexivity|apply CCnst; reflexivity| |exact I].
  apply (CUn w_val linU linB linP Hlf a_third (1 / 3)); [reflexivity|exact third_computable|exact I].
Qed.

Notation wA := (fun _ : nat => w_arith).
Definition ws := w_sound.

(** A limit of reals, all of whose terms are 0. *)
Definition zeros : nat -> real dyadic := fun _ => RCnst w_zero.
(** A sequence of reals, all of which are 0 and converge, but later and later. *)
Definition later : nat -> real dyadic :=
  fun n => RLimB (fun k => if Nat.ltb k n then mkDB (Fin (mkD (-1) 0)) (Fin (mkD 1 0)) else mkDB w_zero w_zero).

Lemma dval0 : dval (mkD 0 0) = 0. Proof. unfold dval; cbn; lra. Qed.
Lemma dval1 : dval (mkD 1 0) = 1. Proof. unfold dval; cbn; lra. Qed.
Lemma dvalm1 : dval (mkD (-1) 0) = -1. Proof. unfold dval; cbn; lra. Qed.
Lemma zero_near : forall n, Rabs (0 - 0) <= / 2 ^ n.
Proof. intro n. rewrite Rminus_0_r, Rabs_R0. apply Rlt_le, inv2_pos. Qed.
Lemma zeros_denote : denotes w_val (RLimR zeros) 0.
Proof. apply (DLimR w_val zeros (fun _ => 0)); [|exact zero_near]. intro n. apply DCnst. cbn. rewrite dval0. reflexivity. Qed.
Lemma later_denote : forall n, denotes w_val (later n) 0.
Proof. intro n. apply DLimB. intro k. unfold w_zero. destruct (Nat.ltb k n); rewrite in_fin, ?dval0, ?dval1, ?dvalm1; lra. Qed.
Lemma later_computable : forall n, computable w_val linU linB linP (later n) 0.
Proof.
  intro n. apply CLimB. intros eps He. exists n. intros k Hk. replace (Nat.ltb k n) with false by (symmetry; apply Nat.ltb_ge; lia).
  exists (mkD 0 0), (mkD 0 0). split; [reflexivity|]. rewrite dval0. lra.
Qed.

Lemma pm_vals : forall a b n l u, db_pm (mkDB (Fin a) (Fin b)) (two_pow_minus n) = mkDB (Fin l) (Fin u) ->
  dval l = dval a - / 2 ^ n /\ dval u = dval b + / 2 ^ n.
Proof.
  intros a b n l u E. set (t := mkD 1 (- Z.of_nat n)).
  assert (E1 : Fin (f_sub w_ops a t) = Fin l) by exact (f_equal d_l E).
  assert (E2 : Fin (f_add w_ops b t) = Fin u) by exact (f_equal d_u E).
  assert (L : l = f_sub w_ops a t) by congruence. assert (U : u = f_add w_ops b t) by congruence.
  rewrite L, U, (eo_sub _ _ _ w_exact), (eo_add _ _ _ w_exact) by exact I. unfold t. rewrite dval_two. auto.
Qed.

Example C128_nonvacuous : sound_arith w_val w_arith in_dbounds /\ denotes w_val sample (3 - 1 / 3 / 2) /\ denotes w_val (RLimR zeros) 0 /\
  wcompute sample 1 = Some (mkDB (Fin (mkD 5 (-1))) (Fin (mkD 6 (-1)))) /\
  wcompute sample 4 = Some (mkDB (Fin (mkD 104531549751020792490 (-65))) (Fin (mkD 104531549751020792491 (-65)))).
Proof. split; [exact ws|]. split; [exact sample_denotes|]. split; [exact zeros_denote|]. split; vm_compute; reflexivity. Qed.

Example C129_nonvacuous : continuous_arith w_val wA linU linB linP /\ computable w_val linU linB linP sample (3 - 1 / 3 / 2) /\
  (forall n, Rabs (0 - 0) <= / 2 ^ n) /\
  (forall eps, 0 < eps -> exists N, forall e, (N <= e)%nat -> exists b, wcompute (zeros (e + 1)%nat) e = Some b /\ within b 0 eps).
Proof.
  split; [exact w_continuous|]. split; [exact sample_computable|]. split; [exact zero_near|].
  intros eps He. exists 0%nat. intros e _. exists (mkDB w_zero w_zero). split.
  - unfold zeros, compute. cbn [compile expression i_d]. destruct (Nat.leb _ _); reflexivity.
  - exists (mkD 0 0), (mkD 0 0). split; [reflexivity|]. rewrite dval0. lra.
Qed.

(** C129 fails for the limit of a sequence of reals: the n-th term is computed with effort n-1,
    however slowly it converges. *)
Theorem C129_limit_refuted : exists s, denotes w_val (RLimR s) 0 /\
  (forall n, denotes w_val (s n) 0) /\ (forall n, computable w_val linU linB linP (s n) 0) /\
  forall e b, wcompute (RLimR s) e = Some b -> ~ narrower b 1.
Proof.
  exists later. split; [exact (DLimR w_val later (fun _ => 0) 0 later_denote zero_near)|].
  split; [exact later_denote|]. split; [exact later_computable|].
  intros e b E. unfold compute, later in E. cbn [compile wrapper i_d] in E.
  replace (Nat.ltb e (e + 1)) with true in E by (symmetry; apply Nat.ltb_lt; lia). cbn [option_map] in E. injection E as <-.
  intros (l & u & E & W). 
  destruct (pm_vals _ _ _ _ _ E) as [El Eu]. rewrite dvalm1 in El. rewrite dval1 in Eu.
  pose proof (inv2_pos (e + 1)). lra.
Qed.

(** C129 fails for every expression that contains a limit of a sequence of reals: the float bounds
    of the limit are wider than 1, whatever the precision and the effort. *)
Theorem C129_expression_refuted : exists s, denotes w_val (RLimR s) 0 /\
  (forall eps, 0 < eps -> exists N, forall e, (N <= e)%nat -> exists b, wcompute (RLimR s) e = Some b /\ within b 0 eps) /\
  denotes w_val (RBin Add (RLimR s) (RCnst w_zero)) 0 /\
  forall e b, wcompute (RBin Add (RLimR s) (RCnst w_zero)) e = Some b -> ~ narrower b (/ 2).
Proof.
  exists zeros. split; [exact zeros_denote|]. split.
  { apply (C129_limit_partial w_arith wA zeros (fun _ => 0) 0 zero_near). exact (proj2 (proj2 (proj2 C129_nonvacuous))). }
  split.
  { replace 0 with (bsem Add 0 0) by (cbn; lra). apply DBin; [exact zeros_denote| |exact I]. apply DCnst. cbn. rewrite dval0. reflexivity. }
  assert (A : forall n b, (0 < n)%nat ->
     mkDB (w_add (w_add w_zero (d_l (limit_bounds n))) w_zero) (w_add (w_add w_zero (d_u (limit_bounds n))) w_zero) = b -> ~ narrower b (/ 2)).
  { intros n b Hn E (l & u & -> & W). set (z := mkD 0 0).
    assert (E1 : Fin (f_add w_ops (f_add w_ops z (mkD (-1) (- Z.of_nat n))) z) = Fin l) by exact (f_equal d_l E).
    assert (E2 : Fin (f_add w_ops (f_add w_ops z (mkD (xor_two n) 0)) z) = Fin u) by exact (f_equal d_u E).
    assert (Dl : dval l = - / 2 ^ n).
    { assert (L : l = f_add w_ops (f_add w_ops z (mkD (-1) (- Z.of_nat n))) z) by congruence.
      rewrite L, !(eo_add _ _ _ w_exact), dval_minus_two by exact I. unfold z. rewrite dval0. lra. }
    assert (Du : dval u = IZR (xor_two n)).
    { assert (U : u = f_add w_ops (f_add w_ops z (mkD (xor_two n) 0)) z) by congruence.
      rewrite U, !(eo_add _ _ _ w_exact) by exact I. unfold z. rewrite dval0. unfold dval. cbn [mant expo bpow]. lra. }
    pose proof (xor_two_pos n Hn) as X. apply IZR_le in X. pose proof (inv2_pos n). lra. }
  intros e b E. unfold compute in E. cbn [compile expression i_d i_dp i_mp zeros] in E.
  destruct (Nat.leb _ _); cbn [option_map opt2 a_to_d a_bin a_of_d a_cnst w_arith d_l d_u] in E; injection E as E.
  - apply (A 1%nat b); [lia|exact E].
  - apply (A (e + 1)%nat b); [lia|exact E].
Qed.

Example C130_nonvacuous : denotes w_val a_third (1 / 3) /\ 0 < dval (mkD 1 (-3)) /\ computable w_val linU linB linP a_third (1 / 3) /\
  compute_accuracy w_arith wA a_third (Fin (mkD 1 (-3))) 2 = Running /\
  compute_accuracy w_arith wA a_third (Fin (mkD 1 (-3))) 3 = Got (mkDB (Fin (mkD 2 (-3))) (Fin (mkD 3 (-3)))).
Proof.
  split; [exact third_denotes|]. split; [unfold dval; cbn; lra|]. split; [exact third_computable|]. split; vm_compute; reflexivity.
Qed.
(** For a negative accuracy the bounds are 0, whatever the number. *)
Theorem C130_negative_refuted : denotes w_val (RCnst three) 3 /\
  forall fuel, exists b, compute_accuracy w_arith wA (RCnst three) (Fin (mkD (-1) 0)) fuel = Got b /\ ~ in_dbounds b 3.
Proof.
  split; [apply DCnst; cbn; f_equal; unfold dval; cbn; lra|]. intro fuel. exists (mkDB w_zero w_zero). split.
  - unfold compute_accuracy. destruct fuel; cbn [refine_loop]; rewrite w_twice_neg by (rewrite dvalm1; lra); reflexivity.
  - unfold w_zero. rewrite in_fin, dval0. lra.
Qed.
(** For [infinity] and for some limits of computable numbers the computation does not end. *)
Theorem C130_infinity_refuted : forall fuel, compute_accuracy w_arith wA (RCnst PInf) (bits 1) fuel = Running.
Proof.
  assert (A : forall fuel e error res, w_lt error (bits 1) = false -> refine_loop w_arith wA (RCnst PInf) (bits 1) fuel e error res = Running).
  { induction fuel as [|k IH]; intros e error res W; cbn [refine_loop]; rewrite W; [reflexivity|].
    assert (E : wcompute (RCnst PInf) e = Some (mkDB PInf PInf)).
    { unfold compute. cbn [compile expression i_d]. destruct (Nat.leb _ _); reflexivity. }
    rewrite E. apply IH. reflexivity. }
  intro fuel. apply A. reflexivity.
Qed.
Theorem C130_limit_refuted : exists s, denotes w_val (RLimR s) 0 /\ (forall n, computable w_val linU linB linP (s n) 0) /\
  forall fuel, compute_accuracy w_arith wA (RLimR s) (bits 1) fuel = Running.
Proof.
  destruct C129_limit_refuted as (s & Hs & _ & Cs & N). exists s. split; [exact Hs|]. split; [exact Cs|]. intro fuel.
  assert (P : 0 < dval (mkD 1 (- Z.of_nat 1))) by (rewrite dval_two; apply inv2_pos).
  destruct (C130_accuracy_partial w_val w_arith wA in_dbounds (fun _ => in_dbounds) ws (fun _ => ws) (RLimR s) 0 (mkD 1 (- Z.of_nat 1)) Hs P) as (_ & F & T).
  unfold bits, two_pow_minus. destruct (compute_accuracy w_arith wA (RLimR s) (Fin (mkD 1 (- Z.of_nat 1))) fuel) as [| |b] eqn:E.
  - reflexivity.
  - destruct (F fuel E).
  - exfalso. destruct (proj1 T (ex_intro _ fuel (ex_intro _ b E))) as (e & b' & _ & E' & (l & u & -> & W)).
    apply (N e _ E'). exists l, u. split; [reflexivity|]. rewrite dval_two in W. pose proof (inv2_le1 1). lra.
Qed.

Example C131_nonvacuous : denotes w_val a_third (1 / 3) /\ denotes w_val sample (3 - 1 / 3 / 2) /\
  check2 w_arith wA db_lt a_third sample 2 = Some TRUE /\ check2 w_arith wA db_ge a_third sample 2 = Some FALSE /\
  check2 w_arith wA db_lt a_third a_third 2 = Some INDET /\ check2 w_arith wA db_eq (RCnst three) (RCnst three) 2 = Some TRUE /\
  check1 w_arith wA db_sgn (RUn Neg a_third) 4 = Some FALSE /\ check1 w_arith wA db_sgn a_third 1 = Some INDET /\
  nondeterministic_greater w_arith wA sample (Fin (28 # 10)) (Fin (29 # 10)) 10 = Chosen true /\
  nondeterministic_greater w_arith wA a_third (Fin (1 # 3)) (Fin (4 # 10)) 10 = Chosen false /\
  nondeterministic_greater w_arith wA a_third (Fin (1 # 3)) (Fin (4 # 10)) 3 = Undecided.
Proof. split; [exact third_denotes|]. split; [exact sample_denotes|]. repeat split; vm_compute; reflexivity. Qed.

(** [when]: 1/3 if the second condition holds, 3 if the first does; the first is found false with effort 5. *)
Definition choose_third : real dyadic := RWhen (fun e => Nat.ltb e 5) (RCnst three) (fun _ => true) a_third.
Example C132_nonvacuous : denotes w_val choose_third (1 / 3) /\
  wcompute choose_third 2 = Some (mkDB (Fin (mkD 1 (-2))) three) /\
  wcompute choose_third 5 = Some (mkDB (Fin (mkD 10 (-5))) (Fin (mkD 11 (-5)))) /\
  compute_dp w_arith wA choose_third 53 = Some (mkDB (Fin (mkD 0 0)) three).
Proof.
  split.
  - apply (DWhen w_val False True _ _ _ _ 3 (1 / 3)); auto.
    + apply DCnst. cbn. f_equal. unfold dval; cbn; lra.
    + exact third_denotes.
    + contradiction.
  - repeat split; vm_compute; reflexivity.
Qed.
(** If the other term has no value, here the square root of -1, then the bounds can be NaN while
    its condition is not yet found false. *)
Theorem C132_when_refuted : exists p1 r1 p2 r2, 
  (forall e, (5 <= e)%nat -> p1 e = false) /\ (forall e, p2 e = true) /\ denotes w_val r2 0 /\
  (forall e, exists b, wcompute r2 e = Some b /\ in_dbounds b 0) /\
  exists b, wcompute (RWhen p1 r1 p2 r2) 0 = Some b /\ ~ in_dbounds b 0.
Proof.
  exists (fun e => Nat.ltb e 5), (RUn Sqrt (RCnst (Fin (mkD (-1) 0)))), (fun _ => true), (RCnst w_zero).
  assert (Z : denotes w_val (RCnst w_zero) 0) by (apply DCnst; cbn; rewrite dval0; reflexivity).
  split; [intros e He; apply Nat.ltb_ge; lia|]. split; [reflexivity|]. split; [exact Z|]. split.
  - exact (proj1 (C128_bounds_contain w_val w_arith wA in_dbounds (fun _ => in_dbounds) ws (fun _ => ws) _ _ Z)).
  - exists (mkDB NaN NaN). split; [vm_compute; reflexivity|]. intro H. exact H.
Qed.
(** The double-precision bounds of a [when] expression do not get accurate, although the bounds do. *)
Theorem C132_double_refuted : denotes w_val choose_third (1 / 3) /\
  (forall eps, 0 < eps -> exists N, forall e, (N <= e)%nat -> exists b, wcompute choose_third e = Some b /\ within b (1 / 3) eps) /\
  forall e, exists x, compute_dp w_arith wA choose_third e = Some x /\ ~ narrower (a_to_d w_arith x) 1.
Proof.
  split; [exact (proj1 C132_nonvacuous)|]. split.
  - apply (C129_converges_partial w_val w_arith wA linU linB linP w_continuous).
    apply CWhenSecond; [exists 5%nat; intros e He; apply Nat.ltb_ge; lia|reflexivity|exact third_computable].
  - intro e. exists (mkDB (Fin (mkD 0 0)) three). split; [unfold choose_third; rewrite C132_double_effort; vm_compute; reflexivity|].
    intros (l & u & E & W). cbn in E. injection E as <- <-. rewrite dval0 in W. replace (dval (mkD 3 0)) with 3 in W by (unfold dval; cbn; lra). lra.
Qed.

Example C133_nonvacuous : denotes w_val sample (3 - 1 / 3 / 2) /\ round_real w_arith wA sample 10 = RGot 3 /\
  round_real w_arith wA (RUn Neg sample) 10 = RGot (-3) /\ round_real w_arith wA a_third 10 = RGot 0 /\
  denotes w_val (RCnst three) 3 /\ same w_arith wA (RCnst three) (RCnst three) = Some true.
Proof.
  split; [exact sample_denotes|]. do 3 (split; [vm_compute; reflexivity|]).
  split; [apply DCnst; cbn; f_equal; unfold dval; cbn; lra|vm_compute; reflexivity].
Qed.
(** A number need not be the same as itself. *)
Theorem C133_same_refuted : denotes w_val a_third (1 / 3) /\ same w_arith wA a_third a_third = Some false.
Proof. split; [exact third_denotes|vm_compute; reflexivity]. Qed.

Print Assumptions C128_bounds_contain.
Print Assumptions C129_converges_partial.
Print Assumptions C129_limit_partial.
Print Assumptions C129_limit_refuted.
Print Assumptions C129_expression_refuted.
Print Assumptions C130_accuracy_partial.
Print Assumptions C130_terminates_partial.
Print Assumptions C130_zero_never.
Print Assumptions C130_negative_refuted.
Print Assumptions C130_infinity_refuted.
Print Assumptions C130_limit_refuted.
Print Assumptions C131_comparisons.
Print Assumptions C131_decided.
Print Assumptions C131_choice.
Print Assumptions C132_when_partial.
Print Assumptions C132_unsatisfiable.
Print Assumptions C132_double_effort.
Print Assumptions C132_when_refuted.
Print Assumptions C132_double_refuted.
Print Assumptions C133_round_partial.
Print Assumptions C133_same_partial.
Print Assumptions C133_same_refuted.
