(** Runs of the evolver with the exact operations of HybridEvolver_Witness.v. *)
From Coq Require Import List Bool Arith Reals Lra Lia Classical.
From Coquelicot Require Import Coquelicot.
From Verif Require Import Automaton_Model Evolver_Model HybridEvolver_Model HybridEvolver_Spec HybridEvolver_Proofs HybridEvolver_Witness.
Import ListNotations.
Local Open Scope R_scope.

Lemma Rltb_t x y : x < y -> Rltb x y = true. Proof. apply Rltb_true. Qed.
Lemma Rltb_f x y : y <= x -> Rltb x y = false. Proof. apply Rltb_false. Qed.
Lemma Rleb_t x y : x <= y -> Rleb x y = true. Proof. apply Rleb_true. Qed.
Lemma Rleb_f x y : y < x -> Rleb x y = false. Proof. apply Rleb_false. Qed.

(** ** Taking the first waiting set *)
Definition recorded {L X} (es : list (effect L X)) : list (entry L X) := concat (map (fun e => match e with Record_ en => [en] | Append _ _ => [] end) es).
Definition appended {L X} (es : list (effect L X)) : list (item L X) := concat (map (fun e => match e with Record_ _ => [] | Append A j => [Waiting (A, j)] end) es).
Section RUN.
Context {L X : Type}.
Variables (sys : system L X) (o : oracles L X) (cfg : config) (c : termination) (sem : semantics).
Lemma steps_trans s1 s2 s3 : steps sys o cfg c sem s1 s2 -> steps sys o cfg c sem s2 s3 -> steps sys o cfg c sem s1 s3.
Proof. intros H. induction H; [auto |]. intros Q. eapply steps_S; [exact H | apply IHsteps, Q]. Qed.
Lemma run_effects es : forall rest lg, steps sys o cfg c sem (mkState (Running es :: rest) lg) (mkState (rest ++ appended es) (lg ++ recorded es)).
Proof.
  induction es as [| [en | A j] r IH]; intros rest lg.
  - cbn. rewrite !app_nil_r. eapply steps_S; [apply (step_end sys o cfg c sem [] rest lg) | apply steps_0].
  - eapply steps_S; [apply (step_record sys o cfg c sem [] rest lg en r) |]. cbn [app].
    replace (lg ++ recorded (Record_ en :: r)) with ((lg ++ [en]) ++ recorded r) by (rewrite <- app_assoc; reflexivity). apply IH.
  - eapply steps_S; [apply (step_append sys o cfg c sem [] rest lg A j r) |]. cbn [app].
    replace (rest ++ appended (Append A j :: r)) with ((rest ++ [Waiting (A, j)]) ++ appended r) by (rewrite <- app_assoc; reflexivity). apply IH.
Qed.
Lemma run_first w es rest lg s : process sys o cfg c sem w = Some es ->
  steps sys o cfg c sem (mkState (rest ++ appended es) (lg ++ recorded es)) s -> steps sys o cfg c sem (mkState (Waiting w :: rest) lg) s.
Proof. intros H Q. eapply steps_S; [apply (step_take sys o cfg c sem [] rest lg w es H) |]. cbn [app]. eapply steps_trans; [apply run_effects | exact Q]. Qed.
End RUN.

Definition cfgc (creep : bool) : config := mkConfig false false creep false.
Definition cfg0 : config := cfgc true.

(** ** Systems with two locations: an evolution with one transition in location 0, and a location 1
    in which nothing happens *)
Definition two {X : Type} (f : X -> R -> X) (trs : list (transition nat X)) : system nat X :=
  mkSystem (fun l => match l with O => f | _ => fun x _ => x end) (fun l => match l with O => trs | _ => [] end).
Lemma two_ok {X : Type} (f : X -> R -> X) (trs : list (transition nat X)) :
  (forall x, f x 0 = x) -> (forall x s d, f (f x s) d = f x (s + d)) ->
  (forall tr, In tr trs -> forall x s, is_derive (fun s => tr_guard tr (f x s)) s (tr_lie tr (f x s)) /\ is_derive (fun s => tr_lie tr (f x s)) s (tr_lie2 tr (f x s))) ->
  flow_ok (two f trs).
Proof.
  intros A B C. split; [| split].
  - intros [| l] x; [apply A | reflexivity].
  - intros [| l] x s d; [apply B | reflexivity].
  - intros [| l] tr I x s; [apply C, I | destruct I].
Qed.
Definition at_half (steps : nat) : termination := mkTermination (1/2) steps [].

(** Location 1: a set of states at a time in [[0,1/2)] is evolved to the final time in one step. *)
Section REST.
Context {X : Type}.
Variables (f : X -> R -> X) (trs : list (transition nat X)) (sem : semantics) (creep : bool) (n : nat).
Notation sys := (two f trs).
Notation o := (best sys 0 true (1/2)).
Variable E : enclosure nat X.
Variables (x0 : X) (t0 : R).
Hypothesis E1 : e_loc E = 1%nat.
Hypothesis E2 : (length (e_events E) < n)%nat.
Hypothesis E3 : e_set E x0 t0.
Hypothesis E4 : forall x t, e_set E x t -> t = t0.
Hypothesis T0 : 0 <= t0 < 1/2.
Lemma rest_time : time_range o (lift (e_set E)) = Some (t0, t0).
Proof.
  apply best_time.
  - exists x0, t0, 0. split; [split; [reflexivity | exact E3] | ring].
  - exists x0, t0, 0. split; [split; [reflexivity | exact E3] | ring].
  - intros x t d [-> Ex]. rewrite (E4 x t Ex). lra.
Qed.
Lemma rest_jumped : process sys o (cfgc creep) (at_half n) sem (E, true) = Some [Append (with_set E (e_set E)) false].
Proof.
  unfold process. cbn [fst snd]. unfold process_jumped_set. rewrite rest_time. cbn [lower_above maximum_time at_half].
  rewrite Rleb_f by lra. unfold terminated. cbn [maximum_steps at_half terminating_events].
  rewrite (proj2 (Nat.leb_gt _ _) E2). assert (Q : match rev (e_events E) with [] => false | e :: _ => existsb (Nat.eqb e) [] end = false) by (destruct (rev (e_events E)); reflexivity).
  rewrite Q. cbn [orb]. unfold process_starting_events. rewrite E1. cbn [two transitions map concat app apply_invariants fold_left].
  rewrite (best_nonempty _ 0 true (1/2) (lift (e_set E)) x0 t0 0 (conj eq_refl E3)). reflexivity.
Qed.
Definition rest_timing : timing X := mkTiming (fun _ t => 1/2 * ((1/2 - t) / (1/2))) false AT_FINAL_TIME.
Lemma rest_flows : process sys o (cfgc creep) (at_half n) sem (E, false) =
  Some [Record_ (Final (enclosure_of sys E (evolve_set E rest_timing))); Record_ (Reach (enclosure_of sys E (reach_set E (1/2) rest_timing)))].
Proof.
  unfold process. cbn [fst snd]. unfold evolution_step. rewrite (best_nonempty _ 0 true (1/2) (lift (e_set E)) x0 t0 0 (conj eq_refl E3)).
  cbn [maximum_time at_half]. rewrite rest_time. cbn [lower_above]. rewrite Rleb_f by lra. rewrite best_large, best_step. cbn [cfgc enable_reconditioning andb].
  assert (A : compute_active_events sys o E (1/2) = []) by (unfold compute_active_events; rewrite E1; reflexivity). rewrite A. cbn [compute_crossings].
  assert (ET : estimate_timing sys o E (1/2) (cfgc creep) (1/2) [] = Some (rest_timing, [])).
  { unfold estimate_timing. rewrite rest_time. unfold temporal. rewrite Rltb_f by lra. rewrite Rleb_t by lra. destruct creep; reflexivity. }
  rewrite ET. unfold apply_evolution_step. cbn [filter apply_guards fold_left map all_effects finishing_effects t_finishing rest_timing concat app].
  fold rest_timing.
  rewrite (best_nonempty _ 0 true (1/2) (evolve_set E rest_timing) x0 t0 (t_evolution rest_timing x0 t0) (conj E3 eq_refl)). reflexivity.
Qed.
Lemma rest_contains l evs x t : e_loc E = l -> e_events E = evs -> e_set E x t -> point_in (l, evs, x, t) (enclosure_of sys E (reach_set E (1/2) rest_timing)).
Proof.
  intros Hl He Ex. split; [exact Hl | split; [exact He |]]. exists x, t, 0. split; [| split; [unfold phi; rewrite E1; reflexivity | ring]].
  split; [exact Ex |]. rewrite (E4 x t Ex). cbn [t_evolution rest_timing]. split; [lra |]. replace (1/2 * ((1/2 - t0) / (1/2))) with (1/2 - t0) by field. lra.
Qed.
End REST.

(** ** An urgent transition which is reached: [x'=1], guard [x>=1/4], from [x=0] *)
Definition trA : transition nat R := mkTransition 7 URGENT (fun x => x - 1/4) (fun _ => 1) (fun _ => 0) 1%nat (fun x => x + 10).
Definition sysA : system nat R := two (fun x s => x + s) [trA].
Definition initA : enclosure nat R := mkEnclosure 0%nat [] (fun x t => x = 0 /\ t = 0).
Lemma sysA_ok : flow_ok sysA.
Proof.
  apply two_ok; [intros; ring | intros; ring |]. intros tr [<- | []] x s. cbn [trA tr_guard tr_lie tr_lie2]. split; auto_derive; trivial; ring.
Qed.
Lemma sysA_events : events_ok sysA.
Proof. intros [| l]; cbn; repeat constructor. intros []. Qed.
Lemma sysA_convex : convex_guards sysA /\ increasing_guards sysA.
Proof. split; intros [| l] tr I; try destruct I as [<- | []]; try destruct I; intros _ x; cbn; lra. Qed.

Section A.
Variables (sem : semantics) (creep : bool).
Notation o := (best sysA 0 true (1/2)).
Notation C := (at_half 5).
Lemma A_in : lift (e_set initA) 0 0 0. Proof. repeat split. Qed.
Lemma A_time : time_range o (lift (e_set initA)) = Some (0, 0).
Proof.
  apply best_time; [exists 0, 0, 0; split; [exact A_in | ring] | exists 0, 0, 0; split; [exact A_in | ring] |].
  intros x t d (-> & _ & ->). lra.
Qed.
Lemma A_jumped : process sysA o (cfgc creep) C sem (initA, true) = Some [Append (with_set initA (e_set initA)) false].
Proof.
  unfold process. cbn [fst snd]. unfold process_jumped_set. rewrite A_time. cbn [lower_above maximum_time at_half]. rewrite Rleb_f by lra.
  cbn [terminated at_half maximum_steps initA e_events length Nat.leb rev orb]. fold initA. unfold process_starting_events.
  cbn [e_loc initA sysA two transitions map concat apply_invariants fold_left trA tr_kind starting_jump starting_flowable app]. fold initA. fold trA. fold sysA.
  assert (P : possibly_active o (e_set initA) (tr_guard trA) = false).
  { unfold possibly_active. rewrite best_empty; [reflexivity |]. intros x t d (_ & (-> & _) & G). cbn in G. lra. }
  unfold starting_jump, starting_flowable. cbn [trA tr_kind]. fold trA. fold sysA. change (two (fun x s => x + s) [trA]) with sysA. rewrite P.
  rewrite (best_nonempty _ 0 true (1/2) _ 0 0 0 A_in). reflexivity.
Qed.
Definition gammaA : R -> R := solution (fun x t => tr_guard trA (phi sysA initA x t)) (1/2).
Lemma A_gamma : implicit o initA (fun x t => tr_guard trA (phi sysA initA x t)) (1/2) = Some gammaA /\ gammaA 0 = 1/4.
Proof.
  destruct (best_implicit sysA 0 true (1/2) initA (fun x t => tr_guard trA (phi sysA initA x t)) (1/2) (fun _ => 1/4)) as [A B].
  - intros x t [-> _]. cbn. split; [lra | split; [lra | intros s _ H; lra]].
  - split; [exact A | apply (B 0 0); split; reflexivity].
Qed.
Lemma A_active : compute_active_events sysA o initA (1/2) = [trA].
Proof.
  unfold compute_active_events. cbn [initA e_loc sysA two transitions filter]. fold initA. change (two (fun x s => x + s) [trA]) with sysA.
  rewrite (best_value sysA 0 true (1/2) initA (1/2) (tr_guard trA) (-1/4) (1/4)).
  - cbn [upper_below]. rewrite Rltb_f by lra.
    rewrite (best_nonempty _ 0 true (1/2) _ 0 0 (1/2)); [reflexivity |]. cbn. split; [split; [split; reflexivity | lra] | lra].
  - exists 0, 0, 0. cbn. split; [split; reflexivity | split; lra].
  - exists 0, 0, (1/2). cbn. split; [split; reflexivity | split; lra].
  - intros x t d [-> _] B. cbn. lra.
Qed.
Lemma A_crossings : compute_crossings sysA o initA (1/2) [trA] = Some [(trA, Transverse gammaA)].
Proof.
  cbn [compute_crossings]. unfold classify. rewrite (best_value sysA 0 true (1/2) initA (1/2) (tr_lie trA) 1 1).
  - cbn [lower_above]. rewrite Rltb_t by lra. rewrite (proj1 A_gamma). reflexivity.
  - exists 0, 0, 0. cbn. split; [split; reflexivity | split; lra].
  - exists 0, 0, 0. cbn. split; [split; reflexivity | split; lra].
  - intros x t d _ B. cbn. lra.
Qed.
Definition jumpA : pset R := fun x t d => e_set initA x t /\ d = gammaA x /\ (if t_constant (rest_timing (X:=R)) then True else d <= t_evolution (rest_timing (X:=R)) x t).
Definition JA : enclosure nat R := reset_enclosure sysA initA trA jumpA.
Definition reachA : pset R := constrain (reach_set initA (1/2) rest_timing) (fun x t d => d <= gammaA x).
Lemma jumpA_iff x t d : jumpA x t d <-> x = 0 /\ t = 0 /\ d = 1/4.
Proof.
  unfold jumpA. cbn [rest_timing t_constant t_evolution initA e_set]. split.
  - intros ((-> & ->) & -> & _). rewrite (proj2 A_gamma). auto.
  - intros (-> & -> & ->). rewrite (proj2 A_gamma). split; [split; reflexivity | split; [reflexivity |]]. replace (1/2 * ((1/2 - 0) / (1/2))) with (1/2) by field. lra.
Qed.
Lemma A_flows : process sysA o (cfgc creep) C sem (initA, false) = Some [Record_ (Reach (enclosure_of sysA initA reachA)); Append JA true].
Proof.
  unfold process. cbn [fst snd]. unfold evolution_step. rewrite (best_nonempty _ 0 true (1/2) _ 0 0 0 A_in). cbn [maximum_time at_half]. rewrite A_time.
  cbn [lower_above]. rewrite Rleb_f by lra. rewrite best_large, best_step. cbn [cfgc enable_reconditioning andb]. rewrite A_active, A_crossings. fold (cfgc creep).
  assert (ET : estimate_timing sysA o initA (1/2) (cfgc creep) (1/2) [(trA, Transverse gammaA)] = Some (rest_timing, [(trA, Transverse gammaA)])).
  { unfold estimate_timing. rewrite A_time. unfold temporal. rewrite Rltb_f by lra. rewrite Rleb_t by lra. destruct creep; reflexivity. }
  rewrite ET. unfold apply_evolution_step.
  cbn [filter fst snd trA tr_kind is_activating is_blocking delayed negb]. fold trA.
  assert (G1 : apply_guards sysA o initA sem [(trA, Transverse gammaA)] (1%nat, [reach_set initA (1/2) rest_timing]) = Some (1%nat, [reachA])) by reflexivity.
  assert (G2 : apply_guards sysA o initA sem [] (1%nat, [evolve_set initA rest_timing]) = Some (1%nat, [evolve_set initA rest_timing])) by reflexivity.
  assert (G3 : apply_guards sysA o initA sem [(trA, Transverse gammaA)] (1%nat, [evolve_set initA rest_timing]) = Some (1%nat, [constrain (evolve_set initA rest_timing) (fun x t d => d <= gammaA x)])) by reflexivity.
  change (mkTransition 7 URGENT (fun x => x - 1 / 4) (fun _ => 1) (fun _ => 0) 1%nat (fun x => x + 10)) with trA in *.
  rewrite G1, G2, G3. unfold finishing_effects. cbn [rest_timing t_finishing]. fold (rest_timing (X:=R)). cbn [map].
  rewrite best_empty.
  2: { intros x t d [[[-> ->] ->] Q]. rewrite (proj2 A_gamma) in Q. cbn [rest_timing t_evolution] in Q. replace (1/2 * ((1/2 - 0) / (1/2))) with (1/2) in Q by field. lra. }
  unfold jump_effects. cbn [fst snd guard_step trA tr_kind]. fold trA. change (mkTransition 7 URGENT (fun x => x - 1 / 4) (fun _ => 1) (fun _ => 0) 1%nat (fun x => x + 10)) with trA in *. fold jumpA.
  assert (B : surely_by o (1/2) jumpA = true).
  { unfold surely_by. rewrite (best_time sysA 0 true (1/2) jumpA (1/4) (1/4)).
    - cbn [upper_below]. apply Rleb_t. lra.
    - exists 0, 0, (1/4). split; [apply jumpA_iff; auto | lra].
    - exists 0, 0, (1/4). split; [apply jumpA_iff; auto | lra].
    - intros x t d Q. apply jumpA_iff in Q. destruct Q as (_ & -> & ->). lra. }
  rewrite B. cbn [filter fst trA tr_event Nat.eqb negb apply_guards fold_left map].
  rewrite (best_nonempty sysA 0 true (1/2) jumpA 0 0 (1/4)) by (apply jumpA_iff; auto). reflexivity.
Qed.
Lemma JA_iff y t : e_set JA y t <-> y = 41/4 /\ t = 1/4.
Proof.
  unfold JA. cbn [reset_enclosure e_set]. split.
  - intros (x & t' & d & Q & -> & ->). apply jumpA_iff in Q. destruct Q as (-> & -> & ->). cbn. split; lra.
  - intros [-> ->]. exists 0, 0, (1/4). split; [apply jumpA_iff; auto |]. cbn. split; lra.
Qed.
Definition logA : list (entry nat R) :=
  [Reach (enclosure_of sysA initA reachA); Final (enclosure_of sysA JA (evolve_set JA rest_timing)); Reach (enclosure_of sysA JA (reach_set JA (1/2) rest_timing))].
Lemma orbitA : orbit sysA o (cfgc creep) C sem initA logA.
Proof.
  assert (J3 : e_set JA (41/4) (1/4)) by (apply JA_iff; auto). assert (J4 : forall x t, e_set JA x t -> t = 1/4) by (intros x t Q; apply JA_iff in Q; apply Q).
  assert (J2 : (length (e_events JA) < 5)%nat) by (cbn; lia). assert (JT : 0 <= 1/4 < 1/2) by lra.
  unfold orbit. eapply run_first; [apply A_jumped |]. cbn [appended recorded map concat app]. change (with_set initA (e_set initA)) with initA.
  eapply run_first; [apply A_flows |]. cbn [appended recorded map concat app].
  eapply run_first; [apply (rest_jumped (fun x s => x + s) [trA] sem creep 5 JA (41/4) (1/4) eq_refl J2 J3 J4 JT) |]. cbn [appended recorded map concat app].
  change (with_set JA (e_set JA)) with JA.
  eapply run_first; [apply (rest_flows (fun x s => x + s) [trA] sem creep 5 JA (41/4) (1/4) eq_refl J3 J4 JT) |]. cbn [appended recorded map concat app]. apply steps_0.
Qed.
(** The run which jumps at time 1/4 *)
Lemma runA : passes_after_jump sysA C 0%nat [] 0 0 (1%nat, [7%nat], 41/4, 1/2).
Proof.
  apply arrives_flows; [cbn; lra | split; [cbn; lia | intros e []] |].
  apply flows_jumps with (d := 1/4) (tr := trA).
  - split; [lra |]. intros tr [<- | []] _ s Hs. cbn. lra.
  - left. lra.
  - left. reflexivity.
  - right. left. reflexivity.
  - cbn. lra.
  - discriminate.
  - cbn [sysA two flow trA tr_target tr_reset tr_event app].
    apply arrives_flows; [cbn; lra | split; [cbn; lia | intros e []] |].
    replace (41/4) with (flow sysA 1%nat (0 + 1/4 + 10) (1/4)) by (cbn; lra). replace (1/2) with (0 + 1/4 + 1/4) by lra.
    apply flows_to; [split; [lra | intros tr []] | cbn; lra].
Qed.
End A.

(** ** An urgent guard which is left: [x'=-1], guard [x>=0], from [-1<=x<=0] *)
Definition trB : transition nat R := mkTransition 7 URGENT (fun x => x) (fun _ => -1) (fun _ => 0) 1%nat (fun x => x + 10).
Definition sysB : system nat R := two (fun x s => x - s) [trB].
Definition initB : enclosure nat R := mkEnclosure 0%nat [] (fun x t => -1 <= x <= 0 /\ t = 0).
Lemma sysB_ok : flow_ok sysB.
Proof. apply two_ok; [intros; ring | intros; ring |]. intros tr [<- | []] x s. cbn [trB tr_guard tr_lie tr_lie2]. split; auto_derive; trivial; ring. Qed.
Lemma sysB_events : events_ok sysB.
Proof. intros [| l]; cbn; repeat constructor. intros []. Qed.
Section B.
Variable sem : semantics.
Notation o := (best sysB 0 true (1/2)).
Notation C := (at_half 5).
Lemma B_in : lift (e_set initB) 0 0 0. Proof. repeat split; lra. Qed.
Lemma B_time : time_range o (lift (e_set initB)) = Some (0, 0).
Proof. apply best_time; [exists 0, 0, 0; split; [exact B_in | ring] | exists 0, 0, 0; split; [exact B_in | ring] |]. intros x t d (-> & _ & ->). lra. Qed.
Definition startB : R -> R -> Prop := fun x t => e_set initB x t /\ 0 <= tr_guard trB x.
Definition flowB : R -> R -> Prop := fun x t => e_set initB x t /\ tr_guard trB x <= 0.
Definition A0 : enclosure nat R := reset_points trB initB startB.
Definition FB : enclosure nat R := with_set initB flowB.
Lemma B_jumped : process sysB o cfg0 C sem (initB, true) =
  Some [Record_ (Reach (with_set initB startB)); Record_ (Intermediate A0); Append A0 true; Append FB false].
Proof.
  unfold process. cbn [fst snd]. unfold process_jumped_set. rewrite B_time. cbn [lower_above maximum_time at_half]. rewrite Rleb_f by lra.
  change (terminated C (e_events initB)) with false. cbn iota. unfold process_starting_events.
  change (transitions sysB (e_loc initB)) with [trB]. change (apply_invariants o [trB] (e_set initB)) with (e_set initB). cbn [map concat fold_left].
  assert (P : possibly_active o (e_set initB) (tr_guard trB) = true).
  { unfold possibly_active. rewrite (best_nonempty _ _ _ _ _ 0 0 0); [reflexivity |]. cbn. repeat split; lra. }
  unfold starting_jump, starting_flowable. change (tr_kind trB) with URGENT. cbn iota. rewrite P. fold startB. fold flowB.
  rewrite (best_nonempty sysB 0 true (1/2) (lift startB) 0 0 0) by (unfold lift, startB, flowB; cbn; repeat split; lra).
  rewrite (best_nonempty sysB 0 true (1/2) (lift flowB) 0 0 0) by (unfold lift, startB, flowB; cbn; repeat split; lra). reflexivity.
Qed.
Lemma FB_in x : -1 <= x <= 0 -> e_set FB x 0. Proof. intros B. cbn. unfold flowB. cbn. repeat split; lra. Qed.
Lemma FB_time : time_range o (lift (e_set FB)) = Some (0, 0).
Proof.
  apply best_time; [exists 0, 0, 0; split; [split; [reflexivity | apply FB_in; lra] | ring] | exists 0, 0, 0; split; [split; [reflexivity | apply FB_in; lra] | ring] |].
  intros x t d (-> & [_ ->] & _). lra.
Qed.
Lemma B_active : compute_active_events sysB o FB (1/2) = [trB].
Proof.
  unfold compute_active_events. change (transitions sysB (e_loc FB)) with [trB]. cbn [filter].
  rewrite (best_value sysB 0 true (1/2) FB (1/2) (tr_guard trB) (-3/2) 0).
  - cbn [upper_below]. rewrite Rltb_f by lra. rewrite (best_nonempty _ 0 true (1/2) _ 0 0 0); [reflexivity |]. split; [split; [apply FB_in; lra | lra] | cbn; lra].
  - exists (-1), 0, (1/2). split; [apply FB_in; lra | cbn; split; lra].
  - exists 0, 0, 0. split; [apply FB_in; lra | cbn; split; lra].
  - intros x t d ((B & ->) & _) Bd. cbn in *. lra.
Qed.
Lemma B_crossings : compute_crossings sysB o FB (1/2) [trB] = Some [(trB, Decreasing)].
Proof.
  cbn [compute_crossings]. unfold classify. rewrite (best_value sysB 0 true (1/2) FB (1/2) (tr_lie trB) (-1) (-1)).
  - cbn [lower_above upper_below]. rewrite Rltb_f by lra. rewrite Rltb_t by lra. reflexivity.
  - exists 0, 0, 0. split; [apply FB_in; lra | cbn; split; lra].
  - exists 0, 0, 0. split; [apply FB_in; lra | cbn; split; lra].
  - intros x t d _ B. cbn. lra.
Qed.
Definition JB : enclosure nat R := reset_enclosure sysB FB trB (lift (e_set FB)).
Lemma B_flows : evolution_step sysB o cfg0 (1/2) sem FB =
  Some [Record_ (Final (enclosure_of sysB FB (evolve_set FB rest_timing))); Record_ (Reach (enclosure_of sysB FB (reach_set FB (1/2) rest_timing))); Append JB true].
Proof.
  unfold evolution_step. rewrite (best_nonempty _ 0 true (1/2) (lift (e_set FB)) 0 0 0) by (split; [reflexivity | apply FB_in; lra]). rewrite FB_time.
  cbn [lower_above]. rewrite Rleb_f by lra. rewrite best_large, best_step. cbn [cfg0 enable_reconditioning andb]. rewrite B_active, B_crossings. fold cfg0.
  assert (ET : estimate_timing sysB o FB (1/2) cfg0 (1/2) [(trB, Decreasing)] = Some (rest_timing, [(trB, Decreasing)])).
  { unfold estimate_timing. rewrite FB_time. unfold temporal. rewrite Rltb_f by lra. rewrite Rleb_t by lra. reflexivity. }
  rewrite ET. unfold apply_evolution_step.
  change (filter (fun tc : transition nat R * crossing R => is_activating (tr_kind (fst tc))) [(trB, Decreasing)]) with [(trB, @Decreasing R)].
  change (filter (fun tc : transition nat R * crossing R => is_blocking (tr_kind (fst tc))) [(trB, Decreasing)]) with [(trB, @Decreasing R)].
  change (filter (fun tc : transition nat R * crossing R => negb (delayed (snd tc))) [(trB, Decreasing)]) with [(trB, @Decreasing R)].
  change (filter (fun tc : transition nat R * crossing R => delayed (snd tc)) [(trB, Decreasing)]) with (@nil (transition nat R * crossing R)).
  change (apply_guards sysB o FB sem [(trB, Decreasing)] (1%nat, [reach_set FB (1/2) rest_timing])) with (Some (1%nat, [reach_set FB (1/2) rest_timing])).
  change (apply_guards sysB o FB sem [(trB, Decreasing)] (1%nat, [evolve_set FB rest_timing])) with (Some (1%nat, [evolve_set FB rest_timing])). cbn iota.
  change (apply_guards sysB o FB sem [] (1%nat, [evolve_set FB rest_timing])) with (Some (1%nat, [evolve_set FB rest_timing])). cbn iota.
  unfold finishing_effects. change (t_finishing (rest_timing (X:=R))) with AT_FINAL_TIME. cbn [map].
  rewrite (best_nonempty _ 0 true (1/2) (evolve_set FB rest_timing) 0 0 (t_evolution rest_timing 0 0)) by (split; [apply FB_in; lra | reflexivity]).
  unfold jump_effects. change (guard_step sysB FB (1/2) sem rest_timing (fst (trB, Decreasing)) (snd (trB, Decreasing))) with (lift (e_set FB), false). cbn iota.
  assert (Bt : surely_by o (1/2) (lift (e_set FB)) = true) by (unfold surely_by; rewrite FB_time; cbn [upper_below]; apply Rleb_t; lra).
  rewrite Bt. cbn [filter fst trB tr_event Nat.eqb negb map].
  rewrite (best_nonempty _ 0 true (1/2) (lift (e_set FB)) 0 0 0) by (split; [reflexivity | apply FB_in; lra]). reflexivity.
Qed.
Lemma JB_in : e_set JB 9 0.
Proof. exists (-1), 0, 0. split; [split; [reflexivity | apply FB_in; lra] |]. cbn. split; lra. Qed.
Definition RB : enclosure nat R := enclosure_of sysB JB (reach_set JB (1/2) rest_timing).
Lemma orbitB : exists lg, orbit sysB o cfg0 C sem initB lg /\ In (Reach RB) lg /\ point_in (1%nat, [7%nat], 9, 0) RB.
Proof.
  assert (J4 : forall x t, e_set JB x t -> t = 0) by (intros y t (x & t' & d & (-> & [_ ->] & _) & _ & ->); lra).
  assert (A3 : e_set A0 10 0) by (exists 0; unfold startB; cbn; repeat split; lra).
  assert (A4 : forall x t, e_set A0 x t -> t = 0) by (intros y t (x & [[_ ->] _] & _); reflexivity).
  assert (J2 : (length (e_events JB) < 5)%nat) by (cbn; lia). assert (A2 : (length (e_events A0) < 5)%nat) by (cbn; lia). assert (JT : 0 <= 0 < 1/2) by lra.
  eexists. split; [| split].
  - unfold orbit. eapply run_first; [apply B_jumped |]. cbn [appended recorded map concat app].
    eapply run_first; [apply (rest_jumped (fun x s => x - s) [trB] sem true 5 A0 10 0 eq_refl A2 A3 A4 JT) |]. cbn [appended recorded map concat app].
    eapply run_first; [apply B_flows |]. cbn [appended recorded map concat app].
    change (with_set A0 (e_set A0)) with A0.
    eapply run_first; [apply (rest_flows (fun x s => x - s) [trB] sem true 5 A0 10 0 eq_refl A3 A4 JT) |]. cbn [appended recorded map concat app].
    eapply run_first; [apply (rest_jumped (fun x s => x - s) [trB] sem true 5 JB 9 0 eq_refl J2 JB_in J4 JT) |]. cbn [appended recorded map concat app].
    change (with_set JB (e_set JB)) with JB.
    eapply run_first; [apply (rest_flows (fun x s => x - s) [trB] sem true 5 JB 9 0 eq_refl JB_in J4 JT) |]. cbn [appended recorded map concat app]. apply steps_0.
  - cbn [In]. do 7 (try (left; reflexivity); right). left. reflexivity.
  - apply (rest_contains (fun x s => x - s) [trB] JB 0 eq_refl J4 JT); [reflexivity | reflexivity | exact JB_in].
Qed.
(** The state 9 in location 1 would need a jump from [x=-1]. *)
Lemma notB : ~ visits sysB initB (1%nat, [7%nat], 9, 0).
Proof.
  assert (K0 : forall evs x t, arrives sysB initB 0%nat evs x t -> -1 <= x <= 0 /\ evs = []).
  { intros evs x t H. remember 0%nat as l. destruct H as [x t I | l evs x t tr _ _ I | l evs x t d tr _ _ I]; [cbn in I; split; [apply I | reflexivity] | |];
      (destruct l as [| l]; cbn in I; [destruct I as [<- | []]; discriminate | destruct I]). }
  assert (K : forall evs x t, arrives sysB initB 1%nat evs x t -> x = 10).
  { intros evs x t H. remember 1%nat as l eqn:El. destruct H as [x t I | l evs x t tr Ar Iv I Kd G | l evs x t d tr Ar Ev I Kd G Im]; [discriminate | |].
    - destruct l; cbn in I; [| destruct I]. destruct I as [<- | []]. destruct (K0 _ _ _ Ar) as [B _]. cbn in *. lra.
    - destruct l; cbn in I; [| destruct I]. destruct I as [<- | []]. destruct (K0 _ _ _ Ar) as [B _]. destruct Ev as [D _]. cbn in *. lra. }
  intros H. remember (1%nat, [7%nat], 9, 0) as p eqn:Ep. destruct H as [l evs x t d Ar Ev | l evs x t tr Ar Iv I].
  - injection Ep as -> -> Ex _. cbn in Ex. subst x. apply K in Ar. lra.
  - injection Ep as -> -> -> ->. apply K in Ar. lra.
Qed.
End B.

(** ** Guards which are grazed: [x'=1], guards [c-(x-1)^2>=0] with [c=-1] or [c=1], from [x=0] *)
Definition XD : Type := R * bool * bool.
Definition amp (b : bool) : R := if b then 1 else -1.
Definition flowD (x : XD) (s : R) : XD := (fst (fst x) + s, snd (fst x), snd x).
Definition trD1 : transition nat XD := mkTransition 1 INVARIANT (fun x => amp (snd (fst x)) - (fst (fst x) - 1) * (fst (fst x) - 1)) (fun x => -2 * (fst (fst x) - 1)) (fun _ => -2) 1%nat (fun x => x).
Definition trD2 : transition nat XD := mkTransition 2 INVARIANT (fun x => amp (snd x) - (fst (fst x) - 1) * (fst (fst x) - 1)) (fun x => -2 * (fst (fst x) - 1)) (fun _ => -2) 1%nat (fun x => x).
Definition setD : enclosure nat XD := mkEnclosure 0%nat [] (fun x t => fst (fst x) = 0 /\ t = 0).
Lemma trD_derive tr : In tr [trD1; trD2] -> forall x s, is_derive (fun s => tr_guard tr (flowD x s)) s (tr_lie tr (flowD x s)) /\ is_derive (fun s => tr_lie tr (flowD x s)) s (tr_lie2 tr (flowD x s)).
Proof. intros [<- | [<- | []]] [[x b1] b2] s; cbn; (split; auto_derive; trivial; ring). Qed.
Lemma sysD_ok trs : incl trs [trD1; trD2] -> flow_ok (two flowD trs).
Proof.
  intros I. apply two_ok.
  - intros [[x b1] b2]. unfold flowD. cbn. rewrite Rplus_0_r. reflexivity.
  - intros [[x b1] b2] s d. unfold flowD. cbn. rewrite Rplus_assoc. reflexivity.
  - intros tr Q. apply trD_derive, I, Q.
Qed.
Section D.
Variable trs : list (transition nat XD).
Hypothesis I : incl trs [trD1; trD2].
Notation sys := (two flowD trs).
Notation o := (best sys 0 true 2).
Lemma D_in b1 b2 : e_set setD (0, b1, b2) 0. Proof. split; reflexivity. Qed.
Lemma D_time : time_range o (lift (e_set setD)) = Some (0, 0).
Proof.
  apply best_time; [exists (0, true, true), 0, 0; split; [split; [reflexivity | apply D_in] | ring] | exists (0, true, true), 0, 0; split; [split; [reflexivity | apply D_in] | ring] |].
  intros x t d (-> & _ & ->). lra.
Qed.
(** A guard whose height depends on one of the booleans *)
Definition muD (tr : transition nat XD) : XD -> R := solution (fun x t => tr_lie tr (phi sys setD x t)) 2.
Lemma D_mu tr : In tr [trD1; trD2] -> implicit o setD (fun x t => tr_lie tr (phi sys setD x t)) 2 = Some (muD tr) /\ forall b1 b2, muD tr (0, b1, b2) = 1.
Proof.
  intros Q. destruct (best_implicit sys 0 true 2 setD (fun x t => tr_lie tr (phi sys setD x t)) 2 (fun _ => 1)) as [A B].
  - intros [[x b1] b2] t [Ex _]. cbn in Ex. subst x. destruct Q as [<- | [<- | []]]; cbn; (split; [lra | split; [lra | intros s _ H; lra]]).
  - split; [exact A | intros b1 b2; apply (B (0, b1, b2) 0 (D_in b1 b2))].
Qed.
Lemma D_active : compute_active_events sys o setD 2 = trs.
Proof.
  unfold compute_active_events. change (transitions sys (e_loc setD)) with trs.
  assert (F : forall l, (forall tr, In tr l -> In tr [trD1; trD2]) ->
    filter (fun tr => negb (upper_below (fun hi => Rltb hi 0) (value_range o setD 2 (tr_guard tr))) && negb (surely_empty o (fun x t d => full_reach setD 2 x t d /\ 0 <= tr_guard tr (phi sys setD x d)))) l = l).
  { induction l as [| tr l IH]; [reflexivity |]. intros Q. cbn [filter]. rewrite IH by (intros; apply Q; right; assumption).
    specialize (Q tr (or_introl eq_refl)).
    rewrite (best_value sys 0 true 2 setD 2 (tr_guard tr) (-2) 1).
    - cbn [upper_below]. rewrite Rltb_f by lra. rewrite (best_nonempty _ 0 true 2 _ (0, true, true) 0 1); [reflexivity |].
      split; [split; [apply D_in | lra] |]. destruct Q as [<- | [<- | []]]; cbn; lra.
    - exists (0, false, false), 0, 0. split; [apply D_in | split; [lra |]]. destruct Q as [<- | [<- | []]]; cbn; ring.
    - exists (0, true, true), 0, 1. split; [apply D_in | split; [lra |]]. destruct Q as [<- | [<- | []]]; cbn; ring.
    - intros [[x b1] b2] t d [Ex _] B. cbn in Ex. subst x. destruct Q as [<- | [<- | []]]; cbn; (destruct b1, b2; cbn; pose proof (Rle_0_sqr (d-1)) as Sq; unfold Rsqr in Sq; assert (0 <= d * (2 - d)) by (apply Rmult_le_pos; lra); split; nra). }
  apply F. exact I.
Qed.
Lemma D_classify tr : In tr [trD1; trD2] -> classify sys o setD 2 tr = Crossing (Grazing (muD tr) false).
Proof.
  intros Q. unfold classify. rewrite (best_value sys 0 true 2 setD 2 (tr_lie tr) (-2) 2).
  - cbn [lower_above upper_below]. rewrite !Rltb_f by lra. rewrite (best_value sys 0 true 2 setD 2 (tr_lie2 tr) (-2) (-2)).
    + cbn [lower_above upper_below]. rewrite Rltb_f by lra. rewrite Rltb_t by lra. destruct (D_mu tr Q) as [-> M].
      rewrite (best_function sys 0 true 2 setD _ (-1) 1).
      * cbn [lower_above upper_below]. rewrite !Rltb_f by lra. reflexivity.
      * exists (0, false, false), 0. split; [apply D_in |]. rewrite M. destruct Q as [<- | [<- | []]]; cbn; ring.
      * exists (0, true, true), 0. split; [apply D_in |]. rewrite M. destruct Q as [<- | [<- | []]]; cbn; ring.
      * intros [[x b1] b2] t [Ex _]. cbn in Ex. subst x. rewrite M. destruct Q as [<- | [<- | []]]; cbn; (destruct b1, b2; cbn; lra).
    + exists (0, true, true), 0, 0. split; [apply D_in | split; [lra |]]. destruct Q as [<- | [<- | []]]; reflexivity.
    + exists (0, true, true), 0, 0. split; [apply D_in | split; [lra |]]. destruct Q as [<- | [<- | []]]; reflexivity.
    + intros x t d _ _. destruct Q as [<- | [<- | []]]; cbn; lra.
  - exists (0, true, true), 0, 2. split; [apply D_in | split; [lra |]]. destruct Q as [<- | [<- | []]]; cbn; ring.
  - exists (0, true, true), 0, 0. split; [apply D_in | split; [lra |]]. destruct Q as [<- | [<- | []]]; cbn; ring.
  - intros [[x b1] b2] t d [Ex _] B. cbn in Ex. subst x. destruct Q as [<- | [<- | []]]; cbn; lra.
Qed.
Definition grazes : list (transition nat XD * crossing XD) := map (fun tr => (tr, Grazing (muD tr) false)) trs.
Lemma D_crossings : compute_crossings sys o setD 2 trs = Some grazes.
Proof.
  unfold grazes. assert (F : forall l, (forall tr, In tr l -> In tr [trD1; trD2]) -> compute_crossings sys o setD 2 l = Some (map (fun tr => (tr, Grazing (muD tr) false)) l)).
  { induction l as [| tr l IH]; [reflexivity |]. intros Q. cbn [compute_crossings map]. rewrite (D_classify tr (Q tr (or_introl eq_refl))).
    rewrite IH by (intros; apply Q; right; assumption). reflexivity. }
  apply F. exact I.
Qed.
Definition timeD : timing XD := mkTiming (fun _ _ => 2 * (2 / 2)) true BEFORE_FINAL_TIME.
Lemma D_timing : estimate_timing sys o setD 2 cfg0 10 grazes = Some (timeD, grazes).
Proof.
  unfold estimate_timing. rewrite D_time. unfold temporal. rewrite Rltb_f by lra. rewrite Rleb_f by lra. cbn [andb].
  assert (W : wants_creep sys o setD 2 grazes = false).
  { assert (F : forall l, (forall tr, In tr l -> In tr [trD1; trD2]) -> forall P, snd (creep_test sys o setD 2 (map (fun tr => (tr, Grazing (muD tr) false)) l) P false) = false).
    { induction l as [| tr l IH]; [reflexivity |]. intros Q P. specialize (IH (fun tr i => Q tr (or_intror i))). specialize (Q tr (or_introl eq_refl)). destruct Q as [<- | [<- | []]]; cbn; apply IH. }
    unfold wants_creep, grazes. specialize (F trs I (fun x t d => e_set setD x t /\ d = 2)). destruct (creep_test _ _ _ _ _ _ _) as [P cr]. cbn in F. subst cr. destruct (surely_empty o P); reflexivity. }
  rewrite W. rewrite !andb_false_r. cbn [allow_unwind cfg0 andb]. reflexivity.
Qed.
Lemma D_step sem : evolution_step sys o cfg0 10 sem setD = apply_evolution_step sys o setD 2 sem timeD 10 grazes.
Proof.
  unfold evolution_step. rewrite (best_nonempty _ 0 true 2 (lift (e_set setD)) (0, true, true) 0 0) by (split; [reflexivity | apply D_in]). rewrite D_time.
  cbn [lower_above]. rewrite Rleb_f by lra. rewrite best_large, best_step. cbn [cfg0 enable_reconditioning andb]. fold cfg0. rewrite D_active, D_crossings, D_timing. reflexivity.
Qed.
(** One set is split in two if some points are missing the guard and others are hitting it. *)
Lemma D_split sem tr (P : pset XD) xm xh : In tr [trD1; trD2] -> (forall x t d, P x t d -> fst (fst x) = 0) ->
  P xm 0 1 -> tr_guard tr (phi sys setD xm 1) <= 0 -> P xh 0 0 -> 0 <= tr_guard tr (phi sys setD xh 1) -> tr_guard tr (phi sys setD xh 0) <= 0 ->
  guard_set sys o setD sem (tr_guard tr) (Grazing (muD tr) false) P =
  (constrain P (fun x t d => tr_guard tr (phi sys setD x (muD tr x)) <= 0),
   [constrain (constrain (constrain P (fun x t d => 0 <= tr_guard tr (phi sys setD x (muD tr x)))) (fun x t d => d <= muD tr x)) (fun x t d => tr_guard tr (phi sys setD x d) <= 0)]).
Proof.
  intros Q Z M1 M2 H1 H2 H3. cbn [guard_set]. destruct (D_mu tr Q) as [_ Mu].
  assert (MM : forall x t d, P x t d -> muD tr x = 1). { intros [[x b1] b2] t d Pd. specialize (Z _ _ _ Pd). cbn in Z. subst x. apply Mu. }
  pose proof (MM _ _ _ M1) as Em. pose proof (MM _ _ _ H1) as Eh.
  rewrite (best_nonempty _ 0 true 2 _ xh 0 0) by (split; [split; [exact H1 | rewrite Eh; lra] | rewrite Eh; exact H2]).
  rewrite (best_nonempty _ 0 true 2 _ xm 0 1) by (split; [split; [exact M1 | rewrite Em; lra] | exact M2]).
  rewrite (best_nonempty _ 0 true 2 _ xm 0 1) by (split; [exact M1 | rewrite Em; exact M2]).
  rewrite best_empty by (intros x t d [[Pd _] Mz]; rewrite (MM _ _ _ Pd) in Mz; lra).
  rewrite (best_nonempty _ 0 true 2 _ xh 0 0) by (split; [split; [split; [exact H1 | rewrite Eh; exact H2] | rewrite Eh; lra] | exact H3]). reflexivity.
Qed.
End D.

(** Two such guards *)
Definition sysD : system nat XD := two flowD [trD1; trD2].
Lemma D_fails : evolution_step sysD (best sysD 0 true 2) cfg0 10 UPPER setD = None.
Proof.
  unfold sysD. rewrite (D_step [trD1; trD2] (fun x i => i) UPPER). unfold apply_evolution_step.
  change (filter (fun tc : transition nat XD * crossing XD => is_blocking (tr_kind (fst tc))) (grazes [trD1; trD2])) with (grazes [trD1; trD2]).
  set (o := best (two flowD [trD1; trD2]) 0 true 2).
  assert (E : apply_guards (two flowD [trD1; trD2]) o setD UPPER (grazes [trD1; trD2]) (1%nat, [reach_set setD 2 timeD]) = None); [| rewrite E; reflexivity].
  pose proof (D_split [trD1; trD2] UPPER trD1 (reach_set setD 2 timeD) (0, false, false) (0, true, true)) as S1.
  pose proof (proj2 (D_mu [trD1; trD2] trD1 (or_introl eq_refl))) as Mu.
  set (ms := constrain (reach_set setD 2 timeD) (fun x t d => tr_guard trD1 (phi (two flowD [trD1; trD2]) setD x (muD [trD1; trD2] trD1 x)) <= 0)) in S1.
  set (hs := constrain (constrain (constrain (reach_set setD 2 timeD) _) _) _) in S1.
  pose proof (D_split [trD1; trD2] UPPER trD2 ms (0, false, false) (0, false, true)) as S2.
  set (ms' := constrain ms _) in S2. set (hs' := constrain (constrain (constrain ms _) _) _) in S2. fold o in S1, S2.
  assert (Z : forall b2 d, 0 <= d <= 1 -> ms (0, false, b2) 0 d).
  { intros b2 d Bd. split; [split; [apply D_in | cbn; lra] |]. rewrite Mu. cbn. lra. }
  assert (A1 : apply_guard (two flowD [trD1; trD2]) o setD UPPER (trD1, Grazing (muD [trD1; trD2] trD1) false) (1%nat, [reach_set setD 2 timeD]) = Some (2%nat, [ms; hs])).
  { unfold apply_guard, fst, snd, guard_loop. rewrite S1; [reflexivity | left; reflexivity | intros x t d [[Ex _] _]; exact Ex | split; [apply D_in | cbn; lra] | cbn; lra | split; [apply D_in | cbn; lra] | cbn; lra | cbn; lra]. }
  assert (A2 : apply_guard (two flowD [trD1; trD2]) o setD UPPER (trD2, Grazing (muD [trD1; trD2] trD2) false) (2%nat, [ms; hs]) = None).
  { unfold apply_guard, fst, snd, guard_loop. rewrite S2; [reflexivity | right; left; reflexivity | intros x t d [[[Ex _] _] _]; exact Ex | apply Z; lra | cbn; lra | apply Z; lra | cbn; lra | cbn; lra]. }
  unfold apply_guards, grazes, map, fold_left. rewrite A1. exact A2.
Qed.

(** One such guard: the evolution goes on through it *)
Definition sysG : system nat XD := two flowD [trD1].
Lemma inclG : incl [trD1] [trD1; trD2]. Proof. intros x [<- | []]. left. reflexivity. Qed.
Definition nextG : enclosure nat XD := enclosure_of sysG setD (evolve_set setD timeD).
Lemma G_continues : exists es, evolution_step sysG (best sysG 0 true 2) cfg0 10 LOWER setD = Some es /\ In (Append nextG false) es.
Proof.
  unfold sysG at 1 2. rewrite (D_step [trD1] inclG LOWER). unfold apply_evolution_step, grazes. cbn [map].
  set (gr := Grazing (muD [trD1] trD1) false). set (o := best (two flowD [trD1]) 0 true 2).
  change (filter (fun tc : transition nat XD * crossing XD => is_activating (tr_kind (fst tc))) [(trD1, gr)]) with (@nil (transition nat XD * crossing XD)).
  change (filter (fun tc : transition nat XD * crossing XD => is_blocking (tr_kind (fst tc))) [(trD1, gr)]) with [(trD1, gr)].
  change (filter (fun tc : transition nat XD * crossing XD => negb (delayed (snd tc))) [(trD1, gr)]) with [(trD1, gr)].
  change (filter (fun tc : transition nat XD * crossing XD => delayed (snd tc)) [(trD1, gr)]) with (@nil (transition nat XD * crossing XD)).
  assert (R1 : exists k reach, apply_guards (two flowD [trD1]) o setD LOWER [(trD1, gr)] (1%nat, [reach_set setD 2 timeD]) = Some (k, reach)).
  { unfold apply_guards. cbn [fold_left]. unfold apply_guard. cbn [fst snd guard_loop]. destruct (guard_set _ _ _ _ _ _ _) as [P new]. rewrite andb_false_r. eauto. }
  destruct R1 as (k & reach & ->).
  assert (R2 : apply_guards (two flowD [trD1]) o setD LOWER [(trD1, gr)] (1%nat, [evolve_set setD timeD]) = Some (1%nat, [evolve_set setD timeD])).
  { unfold apply_guards. cbn [fold_left]. unfold apply_guard. cbn [fst snd guard_loop]. unfold gr. cbn [guard_set]. unfold o.
    rewrite best_empty; [reflexivity |]. intros [[x b1] b2] t d [[[[Ex _] ->] Le] _]. cbn in Ex. subst x.
    rewrite (proj2 (D_mu [trD1] trD1 (or_introl eq_refl))) in Le. cbn in Le. lra. }
  rewrite R2. change (apply_guards (two flowD [trD1]) o setD LOWER [] (1%nat, [evolve_set setD timeD])) with (Some (1%nat, [evolve_set setD timeD])). cbn iota.
  cbn [map all_effects]. eexists. split; [reflexivity |]. apply in_or_app. left. unfold finishing_effects. change (t_finishing timeD) with BEFORE_FINAL_TIME. cbn iota.
  apply in_or_app. left. cbn [combine map concat]. rewrite app_nil_r. unfold evolve_effects.
  assert (Tm : time_range o (evolve_set setD timeD) = Some (2, 2)).
  { apply best_time; [exists (0, true, true), 0, 2; split; [split; [apply D_in | cbn; lra] | ring] | exists (0, true, true), 0, 2; split; [split; [apply D_in | cbn; lra] | ring] |].
    intros x t d [[_ ->] ->]. cbn. lra. }
  unfold surely_after, surely_by. rewrite Tm. cbn [lower_above upper_below]. rewrite Rltb_f by lra. rewrite Rleb_t by lra.
  unfold o. rewrite (best_nonempty _ 0 true 2 _ (0, true, true) 0 2) by (split; [apply D_in | cbn; lra]). left. reflexivity.
Qed.

(** ** A guard which is not reached, but cannot be told to be: [x'=1], guard [-1/4-(x-1)^2>=0] *)
Definition trE : transition nat R := mkTransition 1 INVARIANT (fun x => - (1/4) - (x - 1) * (x - 1)) (fun x => -2 * (x - 1)) (fun _ => -2) 1%nat (fun x => x).
Definition sysE : system nat R := two (fun x s => x + s) [trE].
Definition setE : enclosure nat R := mkEnclosure 0%nat [] (fun x t => x = 0 /\ t = 0).
Lemma sysE_ok : flow_ok sysE.
Proof. apply two_ok; [intros; ring | intros; ring |]. intros tr [<- | []] x s. cbn [trE tr_guard tr_lie tr_lie2]. split; auto_derive; trivial; ring. Qed.
Lemma E_fails sem : evolution_step sysE (best sysE (1/2) false 2) cfg0 10 sem setE = None.
Proof.
  set (o := best sysE (1/2) false 2).
  assert (Tm : time_range o (lift (e_set setE)) = Some (0, 0)).
  { apply best_time; [exists 0, 0, 0; split; [repeat split | ring] | exists 0, 0, 0; split; [repeat split | ring] |]. intros x t d (-> & _ & ->). lra. }
  unfold evolution_step. change (surely_empty o (lift (e_set setE))) with false. rewrite Tm. cbn [lower_above]. rewrite Rleb_f by lra.
  subst o. rewrite best_large, best_step. cbn [cfg0 enable_reconditioning andb]. set (o := best sysE (1/2) false 2).
  assert (Ac : compute_active_events sysE o setE 2 = [trE]).
  { unfold compute_active_events. change (transitions sysE (e_loc setE)) with [trE]. cbn [filter]. unfold o.
    rewrite (best_value sysE (1/2) false 2 setE 2 (tr_guard trE) (-5/4) (-1/4)).
    - cbn [upper_below]. rewrite Rltb_f by lra. reflexivity.
    - exists 0, 0, 0. cbn. split; [split; reflexivity | split; lra].
    - exists 0, 0, 1. cbn. split; [split; reflexivity | split; lra].
    - intros x t d [-> _] B. cbn. pose proof (Rle_0_sqr (d-1)) as Sq; unfold Rsqr in Sq; assert (0 <= d * (2 - d)) by (apply Rmult_le_pos; lra); split; nra. }
  rewrite Ac. cbn [compute_crossings].
  assert (Er : classify sysE o setE 2 trE = Erased); [| rewrite Er; reflexivity].
  unfold classify, o. rewrite (best_value sysE (1/2) false 2 setE 2 (tr_lie trE) (-2) 2).
  - cbn [lower_above upper_below]. rewrite !Rltb_f by lra. rewrite (best_value sysE (1/2) false 2 setE 2 (tr_lie2 trE) (-2) (-2)).
    + cbn [lower_above upper_below]. rewrite Rltb_f by lra. rewrite Rltb_t by lra.
      destruct (best_implicit sysE (1/2) false 2 setE (fun x t => tr_lie trE (phi sysE setE x t)) 2 (fun _ => 1)) as [A B].
      { intros x t [-> _]. cbn. split; [lra | split; [lra | intros s _ H; lra]]. }
      rewrite A. specialize (B 0 0 (conj eq_refl eq_refl)).
      rewrite (best_function sysE (1/2) false 2 setE _ (-1/4) (-1/4)).
      * cbn [upper_below]. rewrite Rltb_t by lra. reflexivity.
      * exists 0, 0. split; [split; reflexivity |]. rewrite B. cbn. lra.
      * exists 0, 0. split; [split; reflexivity |]. rewrite B. cbn. lra.
      * intros x t [-> _]. rewrite B. cbn. lra.
    + exists 0, 0, 0. cbn. split; [split; reflexivity | split; lra].
    + exists 0, 0, 0. cbn. split; [split; reflexivity | split; lra].
    + intros x t d _ _. cbn. lra.
  - exists 0, 0, 2. cbn. split; [split; reflexivity | split; lra].
  - exists 0, 0, 0. cbn. split; [split; reflexivity | split; lra].
  - intros x t d [-> _] B. cbn. lra.
Qed.

(** ** A step which passes the final time: [x'=1], invariant [x<=1/2], from [-1/2<=x<=1/4] at times
    up to 3, with final time 5/2 *)
Definition trF : transition nat R := mkTransition 1 INVARIANT (fun x => x - 1/2) (fun _ => 1) (fun _ => 0) 1%nat (fun x => x).
Definition sysF : system nat R := two (fun x s => x + s) [trF].
Definition setF : enclosure nat R := mkEnclosure 0%nat [] (fun x t => -1/2 <= x <= 1/4 /\ 0 <= t <= 3).
Lemma sysF_ok : flow_ok sysF.
Proof. apply two_ok; [intros; ring | intros; ring |]. intros tr [<- | []] x s. cbn [trF tr_guard tr_lie tr_lie2]. split; auto_derive; trivial; ring. Qed.
Lemma F_passes : exists cs tm, compute_crossings sysF (best sysF 0 true 1) setF 1 (compute_active_events sysF (best sysF 0 true 1) setF 1) = Some cs /\
  estimate_timing sysF (best sysF 0 true 1) setF 1 cfg0 (5/2) cs = Some (tm, cs) /\ t_finishing tm = BEFORE_FINAL_TIME /\
  forall x t, t_evolution tm x t = 15/16.
Proof.
  set (o := best sysF 0 true 1).
  assert (In0 : forall x t, -1/2 <= x <= 1/4 -> 0 <= t <= 3 -> e_set setF x t) by (intros; split; assumption).
  assert (Gv : value_range o setF 1 (tr_guard trF) = Some (-1 - 0, 3/4 + 0)).
  { apply best_value.
    - exists (-1/2), 0, 0. split; [apply In0; lra | cbn; split; lra].
    - exists (1/4), 0, 1. split; [apply In0; lra | cbn; split; lra].
    - intros x t d [B _] Bd. cbn. lra. }
  assert (Lv : value_range o setF 1 (tr_lie trF) = Some (1 - 0, 1 + 0)).
  { apply best_value.
    - exists 0, 0, 0. split; [apply In0; lra | cbn; split; lra].
    - exists 0, 0, 0. split; [apply In0; lra | cbn; split; lra].
    - intros x t d _ _. cbn. lra. }
  assert (Ac : compute_active_events sysF o setF 1 = [trF]).
  { unfold compute_active_events. change (transitions sysF (e_loc setF)) with [trF]. cbn [filter]. rewrite Gv. cbn [upper_below]. rewrite Rltb_f by lra.
    unfold o. rewrite (best_nonempty _ 0 true 1 _ 0 0 1); [reflexivity |]. split; [split; [apply In0; lra | lra] | cbn; lra]. }
  set (gm := solution (fun x t => tr_guard trF (phi sysF setF x t)) 1).
  destruct (best_implicit sysF 0 true 1 setF (fun x t => tr_guard trF (phi sysF setF x t)) 1 (fun x => 1/2 - x)) as [Im Sg].
  { intros x t [B _]. cbn. split; [lra | split; [lra | intros s _ H; lra]]. }
  fold gm in Im, Sg.
  exists [(trF, Transverse gm)], (mkTiming (fun x t => 1 * (15/16) * (1 / 1)) false BEFORE_FINAL_TIME). split; [| split; [| split; [reflexivity |]]].
  - fold o. rewrite Ac. cbn [compute_crossings]. unfold classify. rewrite Lv. cbn [lower_above]. rewrite Rltb_t by lra. unfold o. rewrite Im. reflexivity.
  - fold o. unfold estimate_timing.
    assert (Tm : time_range o (lift (e_set setF)) = Some (0, 3)).
    { apply best_time.
      - exists 0, 0, 0. split; [split; [reflexivity | apply In0; lra] | ring].
      - exists 0, 3, 0. split; [split; [reflexivity | apply In0; lra] | ring].
      - intros x t d (-> & _ & B). lra. }
    rewrite Tm. unfold temporal. rewrite Rltb_t by lra. rewrite Rleb_f by lra. cbn [allow_creep cfg0 andb negb].
    assert (W : wants_creep sysF o setF 1 [(trF, Transverse gm)] = true).
    { unfold wants_creep. cbn [creep_test trF tr_kind]. fold trF.
      assert (Fr : function_range o setF gm = Some (1/4, 1)).
      { apply best_function.
        - exists (1/4), 0. split; [apply In0; lra |]. rewrite (Sg (1/4) 0) by (apply In0; lra). lra.
        - exists (-1/2), 0. split; [apply In0; lra |]. rewrite (Sg (-1/2) 0) by (apply In0; lra). lra.
        - intros x t Sx. rewrite (Sg x t Sx). destruct Sx. lra. }
      rewrite Fr. cbn [upper_below lower_above]. rewrite Rltb_f by lra. rewrite Rltb_t by lra. cbn [negb]. rewrite Rleb_f by lra. cbn [creep_test].
      unfold o. rewrite (best_nonempty _ 0 true 1 _ (-1/2) 0 1); [reflexivity |]. split; [split; [apply In0; lra | reflexivity] | cbn; lra]. }
    rewrite W. cbn [guard_creep]. change (tr_kind trF) with INVARIANT. cbn iota. rewrite Gv, Lv. rewrite Rltb_t by lra.
    replace (1 + 1 * (1 - 0) / (-1 - 0)) with 0 by field. rewrite (Rltb_f 0 0) by lra. cbn [andb]. reflexivity.
  - intros x t. cbn. field.
Qed.
