(** C57-C61: orbits computed by the vector-field and iterated-map evolvers. *)
From Coq Require Import List Bool Reals QArith Qreals Permutation Lia Lra.
From Coq Require Lqa.
From Verif Require Import Evolver_Model Evolver_Spec Evolver_Proofs.
Import ListNotations.

(** ** A concrete evolver: the equation x'=1 on intervals [a,b] with a
    constraint x<=k, integrated with steps of length 1 *)
Definition iv := (Q * Q * Q)%type.
Definition iv_den (e : iv) (x : R) : Prop :=
  let '(a, b, k) := e in (Q2R a <= x <= Q2R b)%R /\ (x <= Q2R k)%R.
Definition shift (t x : R) : R := (x + t)%R.
Definition iv_wide (e : iv) : bool := let '(a, b, _) := e in negb (Qle_bool (b - a) 4).
Definition iv_ops : ops iv := {|
  initially_large := iv_wide;
  too_large := iv_wide;
  split := fun '(a, b, k) => ((a, (a + b) / 2, k), ((a + b) / 2, b, k))%Q;
  surely_empty := fun _ => false;
  large_error := fun _ => false;
  recondition := fun e => e;
  flow := fun '(a, b, k) => Some (1, ((a, b + 1, k + 1), (a + 1, b + 1, k + 1)))%Q;
  surely_reached := fun t T => Qle_bool T t
|}.
Definition plain : config := {| enable_subdivisions := false; enable_reconditioning := true |}.

Lemma shift_flow : is_flow shift.
Proof. split; intros; unfold shift; lra. Qed.

Lemma Q2R_1 : Q2R 1 = 1%R. Proof. unfold Q2R. simpl. lra. Qed.

Lemma iv_rigorous : rigorous iv_den shift iv_ops.
Proof.
  split.
  - intros [[a b] k] x [H1 H2]. simpl.
    destruct (Rle_dec x (Q2R ((a + b) / 2))) as [L|L]; [left|right]; lra.
  - intros e x H. discriminate H.
  - intros e x H. exact H.
  - intros [[a b] k] h r n H. injection H as <- <- <-. rewrite Q2R_1.
    split; [lra|]. split.
    + intros x [H1 H2]. unfold shift. simpl. rewrite !Q2R_plus, Q2R_1. lra.
    + intros x s [H1 H2] Hs. unfold shift. simpl. rewrite !Q2R_plus, Q2R_1. lra.
  - intros t T H. apply Qle_bool_iff. exact H.
Qed.

Ltac run_take := eapply steps_S; [apply (step_take _ _ _ _ [])|]; simpl.
Ltac run_rec := eapply steps_S; [apply (step_record _ _ _ _ [])|]; simpl.
Ltac run_app := eapply steps_S; [apply (step_append _ _ _ _ [])|]; simpl.
Ltac run_end := eapply steps_S; [apply (step_end _ _ _ _ [])|]; simpl.

Definition half_orbit : list (entry iv) :=
  [Reach (0, 1 + 1, 1 + 1); Intermediate (0 + 1, 1 + 1, 1 + 1); Final (0 + 1, 1 + 1, 1 + 1)]%Q.

Lemma half_orbit_returned : forall sem, returns iv_ops plain (1#2) sem (0, 1, 1)%Q half_orbit.
Proof.
  intros []; exists 1%nat, [(0, (0, 1, 1))%Q], 8%nat; (split; [reflexivity|]).
  - unfold start; simpl. run_take. run_rec. run_rec. run_app. run_end. run_take. run_rec. run_end.
    apply steps_0.
  - unfold start; simpl. run_take. run_rec. run_rec. run_app. run_end. run_take. run_rec. run_end.
    apply steps_0.
Qed.

(** ** C57 *)

(** The reach sets of an upper orbit cover every state of every trajectory from
    the initial set up to the requested time, whatever the order in which the
    workers process the pieces.  The full claim also has T=0, which fails
    ([C57_zero_time_refuted]). *)
Theorem C57_upper_reach_partial :
  forall (X E : Type) (den : E -> X -> Prop) (phi : R -> X -> X) (o : ops E) c T initial orbit,
    is_flow phi -> rigorous den phi o ->
    returns o c T UPPER initial orbit -> (0 < T)%Q ->
    forall x t, den initial x -> (0 <= t <= Q2R T)%R -> covered den (reach orbit) (phi t x).
Proof.
  intros X E den phi o c T initial orbit Fl Ri H P x t Dx Ht.
  destruct (returns_follows den phi o Fl Ri _ _ _ _ H x Dx) as (t' & A & B & _ & C).
  apply Qlt_Rlt in P. replace (Q2R 0) with 0%R in * by (unfold Q2R; simpl; lra).
  apply C; lra.
Qed.
Print Assumptions C57_upper_reach_partial.

Example C57_nonvacuous :
  is_flow shift /\ rigorous iv_den shift iv_ops /\
  returns iv_ops plain (1#2) UPPER (0, 1, 1)%Q half_orbit /\ (0 < 1#2)%Q /\
  iv_den (0, 1, 1)%Q 1.
Proof.
  split; [apply shift_flow|]. split; [apply iv_rigorous|]. split; [apply half_orbit_returned|].
  split; [reflexivity|]. unfold iv_den, Q2R. simpl. lra.
Qed.

(** For the time 0 nothing is recorded as reached, not even the initial set. *)
Theorem C57_zero_time_refuted : exists orbit x,
  is_flow shift /\ rigorous iv_den shift iv_ops /\
  returns iv_ops plain 0 UPPER (0, 1, 1)%Q orbit /\
  iv_den (0, 1, 1)%Q x /\ ~ covered iv_den (reach orbit) (shift 0 x).
Proof.
  exists [Final (0, 1, 1)%Q], 1%R. split; [apply shift_flow|]. split; [apply iv_rigorous|]. split.
  - exists 1%nat, [(0, (0, 1, 1))%Q], 3%nat. split; [reflexivity|].
    unfold start; simpl. run_take. run_rec. run_end. apply steps_0.
  - split; [unfold iv_den, Q2R; simpl; lra|]. intros (e & [] & _).
Qed.
Print Assumptions C57_zero_time_refuted.

(** ** C58 *)

(** Everything a run records is independent of the schedule: two complete runs
    take the same number of steps and record the same sets, up to order; and a
    partial run can always be completed, so no schedule can diverge or get stuck
    if one completes. *)
Theorem C58_schedule_independent :
  forall (E : Type) (o : ops E) c T sem l n result,
    steps o c T sem n (start l) {| items := []; log := result |} ->
    (forall n' result', steps o c T sem n' (start l) {| items := []; log := result' |} ->
       n' = n /\ Permutation (reach result) (reach result') /\
       Permutation (intermediate result) (intermediate result') /\
       Permutation (final result) (final result')) /\
    (forall m s, steps o c T sem m (start l) s ->
       (m <= n)%nat /\
       exists result', steps o c T sem (n - m) s {| items := []; log := result' |}).
Proof.
  intros E o c T sem l n r H. destruct (schedule_independent o c T sem l n r H) as [A B].
  split; [|exact B]. intros n' r' H'. destruct (A _ _ H') as [-> P].
  split; [reflexivity|]. repeat split; apply flat_map_perm; exact P.
Qed.
Print Assumptions C58_schedule_independent.

(** Two different schedules of one workload: the two halves of [0,8] evolve in
    either order. *)
Definition two_tasks : list (task iv) := [(0, (0, 4, 8)); (0, (4, 8, 8))]%Q.
Example C58_nonvacuous : exists n r1 r2, r1 <> r2 /\
  steps iv_ops plain 0 UPPER n (start two_tasks) {| items := []; log := r1 |} /\
  steps iv_ops plain 0 UPPER n (start two_tasks) {| items := []; log := r2 |}.
Proof.
  exists 6%nat, [Final (0, 4, 8); Final (4, 8, 8)]%Q, [Final (4, 8, 8); Final (0, 4, 8)]%Q.
  split; [discriminate|]. split.
  - unfold start; simpl. run_take. run_rec. run_end. run_take. run_rec. run_end. apply steps_0.
  - unfold start, two_tasks; simpl. run_take.
    eapply steps_S; [apply (step_take _ _ _ _ [Running [Record_ (Final (0, 4, 8)%Q)]])|]; simpl.
    eapply steps_S; [apply (step_record _ _ _ _ [Running [Record_ (Final (0, 4, 8)%Q)]])|]; simpl.
    run_rec. run_end. run_end. apply steps_0.
Qed.

(** Under the progress conditions every schedule ends, within a bound that does
    not depend on the schedule. *)
Theorem C58_terminates :
  forall (E : Type) (o : ops E) c T sem l, progress o c T ->
    exists n, forall m s, steps o c T sem m (start l) s ->
      (m <= n)%nat /\
      exists result, steps o c T sem (n - m) s {| items := []; log := result |}.
Proof. intros E o c T sem l Pr. apply tasks_terminate. exact Pr. Qed.
Print Assumptions C58_terminates.

Example C58_terminates_nonvacuous : forall T, progress iv_ops plain T.
Proof.
  intro T. split.
  - exists 1%Q. split; [reflexivity|]. intros [[a b] k]. do 3 eexists.
    split; [reflexivity|apply Qle_refl].
  - reflexivity.
  - exists T. intros t H. simpl. apply Qle_bool_iff. exact H.
  - discriminate.
Qed.

(** Without them it need not: if reconditioning leaves the error above the
    threshold the same set is reconditioned for ever, because the time is not
    advanced (vector_field_evolver.cpp:184-189). *)
Definition stubborn : ops iv := {|
  initially_large := iv_wide; too_large := iv_wide; split := split iv_ops;
  surely_empty := fun _ => false; large_error := fun _ => true; recondition := fun e => e;
  flow := flow iv_ops; surely_reached := surely_reached iv_ops |}.

Theorem C58_reconditioning_refuted :
  rigorous iv_den shift stubborn /\
  forall T, (0 < T)%Q -> forall r, ~ returns stubborn plain T UPPER (0, 1, 1)%Q r.
Proof.
  split.
  - destruct iv_rigorous as [A B C D F]. split; assumption.
  - intros T P r (fuel & l & n & Hi & Hs). destruct fuel as [|fuel]; [discriminate|].
    injection Hi as <-.
    destruct (complete_yields _ _ _ _ _ _ _ Hs) as (L & HL & _).
    apply yields_all_one in HL. clear Hs. revert L HL.
    induction n as [n IH] using lt_wf_ind. intros L H.
    apply y_task_inv in H. destruct H as (k & -> & H).
    assert (Q0 : Qle_bool T 0 = false).
    { destruct (Qle_bool T 0) eqn:K; [|reflexivity]. apply Qle_bool_iff in K.
      exfalso. apply (Qlt_not_le _ _ P K). }
    unfold process in H. simpl in H. rewrite Q0 in H. simpl in H.
    apply y_app_inv in H. destruct H as (L1 & k1 & L2 & k2 & -> & -> & A1 & _).
    eapply IH; [|exact A1]. lia.
Qed.
Print Assumptions C58_reconditioning_refuted.

(** ** C59 *)

(** The final sets of an upper orbit cover every trajectory at SOME time not
    before the requested one, the trajectory up to that time being covered by
    the reach sets.  The full claim - that they cover it at the requested time -
    fails ([C59_final_refuted]). *)
Theorem C59_final_partial :
  forall (X E : Type) (den : E -> X -> Prop) (phi : R -> X -> X) (o : ops E) c T initial orbit,
    is_flow phi -> rigorous den phi o ->
    returns o c T UPPER initial orbit ->
    forall x, den initial x -> exists t,
      (0 <= t)%R /\ (Q2R T <= t)%R /\ covered den (final orbit) (phi t x) /\
      ((0 < t)%R -> forall s, (0 <= s <= t)%R -> covered den (reach orbit) (phi s x)).
Proof.
  intros X E den phi o c T initial orbit Fl Ri H x Dx.
  destruct (returns_follows den phi o Fl Ri _ _ _ _ H x Dx) as (t & A & B & C & D).
  replace (Q2R 0) with 0%R in B by (unfold Q2R; simpl; lra).
  exists t. split; [assumption|]. split; [lra|]. auto.
Qed.
Print Assumptions C59_final_partial.

Example C59_nonvacuous :
  returns iv_ops plain (1#2) UPPER (0, 1, 1)%Q half_orbit /\ iv_den (0, 1, 1)%Q 0.
Proof. split; [apply half_orbit_returned|]. unfold iv_den, Q2R. simpl. lra. Qed.

(** x'=1 from [0,1] for the time 1/2 with steps of length 1: the final set is
    [1,2], the state 1/2 of the trajectory from 0 at time 1/2 is not in it.  The
    last step is not shortened to end at the requested time
    (vector_field_evolver.cpp:203-211). *)
Theorem C59_final_refuted : exists T orbit x,
  is_flow shift /\ rigorous iv_den shift iv_ops /\
  returns iv_ops plain T UPPER (0, 1, 1)%Q orbit /\ (0 < T)%Q /\
  iv_den (0, 1, 1)%Q x /\ ~ covered iv_den (final orbit) (shift (Q2R T) x).
Proof.
  exists (1#2), half_orbit, 0%R. split; [apply shift_flow|]. split; [apply iv_rigorous|].
  split; [apply half_orbit_returned|]. split; [reflexivity|].
  split; [unfold iv_den, Q2R; simpl; lra|].
  intros (e & [<-|[]] & D). revert D. unfold iv_den, shift, Q2R. simpl. lra.
Qed.
Print Assumptions C59_final_refuted.

(** ** C60 *)

(** With lower semantics every set recorded contains a state of the trajectory
    of each initial point, if the initial set is not split.  The full claim has
    no condition on the initial set, and fails ([C60_split_refuted]). *)
Theorem C60_lower_partial :
  forall (X E : Type) (den : E -> X -> Prop) (phi : R -> X -> X) (o : ops E) c T initial orbit,
    is_flow phi -> rigorous den phi o ->
    returns o c T LOWER initial orbit -> initially_large o initial = false ->
    forall x en, den initial x -> In en orbit ->
      exists t, (0 <= t)%R /\ den (entry_set en) (phi t x).
Proof.
  intros X E den phi o c T initial orbit Fl Ri H Hl x en Dx Hen.
  eapply returns_lower; eassumption.
Qed.
Print Assumptions C60_lower_partial.

Example C60_nonvacuous :
  returns iv_ops plain (1#2) LOWER (0, 1, 1)%Q half_orbit /\
  initially_large iv_ops (0, 1, 1)%Q = false /\ iv_den (0, 1, 1)%Q 0 /\
  length half_orbit = 3%nat.
Proof.
  split; [apply half_orbit_returned|]. split; [reflexivity|]. split; [|reflexivity].
  unfold iv_den, Q2R. simpl. lra.
Qed.

(** The initial set [0,8] with the constraint x<=1 is split into [0,4] and
    [4,8]; the second half satisfies no constraint, is not recognised as empty,
    and is evolved: the orbit records sets that no trajectory meets. *)
Theorem C60_split_refuted : exists orbit en,
  is_flow shift /\ rigorous iv_den shift iv_ops /\
  returns iv_ops plain 0 LOWER (0, 8, 1)%Q orbit /\ In en orbit /\
  forall x t, iv_den (0, 8, 1)%Q x -> (0 <= t)%R -> ~ iv_den (entry_set en) (shift t x).
Proof.
  exists [Final (0, (0 + 8) / 2, 1); Final ((0 + 8) / 2, 8, 1)]%Q, (Final ((0 + 8) / 2, 8, 1)%Q).
  split; [apply shift_flow|]. split; [apply iv_rigorous|]. split; [|split].
  - exists 3%nat. eexists. exists 6%nat. split; [reflexivity|].
    unfold start; simpl. run_take. run_rec. run_end. run_take. run_rec. run_end. apply steps_0.
  - right. left. reflexivity.
  - intros x t _ _. unfold iv_den, Q2R. simpl. lra.
Qed.
Print Assumptions C60_split_refuted.

(** ** C61 *)

(** Orbits of an iterated map: the reach sets cover every iterate from the first
    to the T-th, and the final sets cover the T-th iterate exactly.  Missing from
    the full claim: the initial set itself ([C61_initial_refuted]). *)
Theorem C61_map_partial :
  forall (X E : Type) (den : E -> X -> Prop) (f : X -> X) (o : map_ops E) fuel c (T : nat) initial orbit,
    map_rigorous den f o ->
    map_orbit fuel o c (Z.of_nat T) UPPER initial = Some orbit ->
    forall x, den initial x ->
      covered den (final orbit) (iterate f T x) /\
      forall k, (1 <= k <= T)%nat -> covered den (reach orbit) (iterate f k x).
Proof.
  intros X E den f o fuel c T initial orbit Ri H x Dx.
  pose proof (map_evolution_covers den f o Ri _ _ _ _ _ _ H 0%Z initial x (or_introl eq_refl) Dx) as K.
  replace (Z.to_nat (Z.of_nat T - 0)) with T in K by lia. exact K.
Qed.
Print Assumptions C61_map_partial.

(** x |-> 2x on intervals of integers, with splitting above width 4. *)
Definition zi := (Z * Z)%type.
Definition zi_den (e : zi) (x : Z) : Prop := (fst e <= x <= snd e)%Z.
Definition zi_ops : map_ops zi := {|
  m_too_large := fun e => (4 <? snd e - fst e)%Z;
  m_split := fun e => let m := ((fst e + snd e) / 2)%Z in ((fst e, m), (m, snd e));
  m_apply := fun e => (2 * fst e, 2 * snd e)%Z |}.
Definition zi_config := {| m_subdivisions := true; m_termination := true |}.

Example C61_nonvacuous :
  map_rigorous zi_den (Z.mul 2) zi_ops /\ zi_den (1, 3)%Z 2 /\
  exists orbit, map_orbit 100 zi_ops zi_config (Z.of_nat 3) UPPER (1, 3)%Z = Some orbit /\
    length (final orbit) = 2%nat.
Proof.
  split; [|split].
  - split.
    + intros [a b] x H. unfold zi_den in *. simpl in *.
      destruct (Z_le_gt_dec x ((a + b) / 2)); [left|right]; lia.
    + intros [a b] x H. unfold zi_den in *. cbn [zi_ops m_apply fst snd] in *. lia.
  - unfold zi_den. simpl. lia.
  - eexists. split; [vm_compute; reflexivity|reflexivity].
Qed.

(** The initial set, which a vector field's orbit does include, is not part of
    the reach sets (iterated_map_evolver.cpp:182-190). *)
Theorem C61_initial_refuted : exists orbit x,
  map_rigorous zi_den (Z.mul 2) zi_ops /\
  map_orbit 100 zi_ops zi_config (Z.of_nat 3) UPPER (1, 3)%Z = Some orbit /\
  zi_den (1, 3)%Z x /\ ~ covered zi_den (reach orbit) (iterate (Z.mul 2) 0 x).
Proof.
  eexists. exists 1%Z. split; [apply C61_nonvacuous|]. split; [vm_compute; reflexivity|].
  split; [unfold zi_den; simpl; lia|]. cbn [iterate]. intros (e & I & D). simpl in I.
  repeat (destruct I as [<-|I]; [unfold zi_den in D; simpl in D; lia|]). destruct I.
Qed.
Print Assumptions C61_initial_refuted.
