(** Properties of the hybrid evolver (GeneralHybridEvolver): the theorems, for any system whose
    flow and guards satisfy [flow_ok], and any numerical operations which satisfy [sound]. *)
From Coq Require Import List Bool Arith Reals Lra Lia.
From Coquelicot Require Import Coquelicot.
From Verif Require Import Automaton_Model Evolver_Model HybridEvolver_Model HybridEvolver_Spec HybridEvolver_Proofs HybridEvolver_Exact_Proofs HybridEvolver_Lower_Proofs HybridEvolver_Total_Proofs HybridEvolver_Witness HybridEvolver_Examples.
Import ListNotations.
Local Open Scope R_scope.

(** * C94: the kind found for the crossing of a guard is right for every trajectory from the set *)
Theorem C94_crossings {L X : Type} (sys : system L X) (o : oracles L X) (S : enclosure L X) h cs :
  flow_ok sys -> sound sys o -> compute_crossings sys o S h (compute_active_events sys o S h) = Some cs ->
  (** every crossing is that of a transition of the location, and is as described *)
  (forall tr c, In (tr, c) cs -> In tr (transitions sys (e_loc S)) /\
     forall x t, e_set S x t ->
       crossing_ok c h x (fun s => tr_guard tr (flow sys (e_loc S) x s)) (fun s => tr_lie tr (flow sys (e_loc S) x s)) (fun s => tr_lie2 tr (flow sys (e_loc S) x s))) /\
  (** a guard for which there is none stays negative *)
  (forall tr, In tr (transitions sys (e_loc S)) -> ~ In tr (map fst cs) ->
     forall x t s, e_set S x t -> 0 <= s <= h -> tr_guard tr (flow sys (e_loc S) x s) < 0).
Proof.
  intros FO SO E.
  destruct (compute_crossings_ok sys o FO SO S h _ cs ltac:(intros tr I; unfold compute_active_events in I; apply filter_In in I; apply I) E) as [F M].
  rewrite List.Forall_forall in F. split.
  - intros tr c I. apply (F _ I).
  - intros tr I N x t s Sx B. rewrite M in N. exact (active_complete sys o SO S h tr x t s I Sx B N).
Qed.
Print Assumptions C94_crossings.
(** System A: from [x=0] with step 1/2, the guard [x>=1/4] is crossed at time 1/4. *)
Example C94_nonvacuous : compute_crossings sysA (best sysA 0 true (1/2)) initA (1/2) (compute_active_events sysA (best sysA 0 true (1/2)) initA (1/2)) = Some [(trA, Transverse gammaA)] /\
  gammaA 0 = 1/4 /\ flow_ok sysA /\ sound sysA (best sysA 0 true (1/2)).
Proof.
  split; [rewrite A_active; apply A_crossings | split; [apply (proj2 A_gamma) | split; [apply sysA_ok | apply best_sound; lra]]].
Qed.

(** * C95: an orbit with upper semantics contains all states passed by runs of the system *)
(** Not all: runs which start at the final time are not in the orbit. *)
Theorem C95_final_start_refuted : exists (sys : system nat R) o cfg c S x t p,
  flow_ok sys /\ sound sys o /\ events_ok sys /\ orbit sys o cfg c UPPER S [] /\ e_set S x t /\ t <= maximum_time c /\ goes_on c (e_events S) /\
  passes_in_flow sys c (e_loc S) (e_events S) x t p.
Proof.
  exists sysA, (best sysA 0 true (1/2)), cfg0, (mkTermination 0 5 []), initA, 0, 0, (0%nat, [], flow sysA 0%nat 0 0, 0 + 0).
  split; [apply sysA_ok | split; [apply best_sound; lra | split; [apply sysA_events |]]].
  split; [| split; [split; reflexivity | split; [cbn; lra | split; [split; [cbn; lia | intros e []] |]]]].
  - unfold orbit. eapply run_first.
    + unfold process. cbn [fst snd]. unfold process_jumped_set. rewrite A_time. cbn [lower_above maximum_time]. rewrite Rleb_t by lra. reflexivity.
    + cbn [appended recorded map concat app]. apply steps_0.
  - apply flows_to; [| cbn; lra]. split; [lra |]. intros tr [<- | []] _ s B. cbn. lra.
Qed.
Print Assumptions C95_final_start_refuted.
(** What holds: a run which starts, and jumps, before the final time is in the orbit up to and
    including the final time. *)
Theorem C95_orbit_covers_partial {L X : Type} (sys : system L X) (o : oracles L X) cfg c S lg x t p :
  flow_ok sys -> sound sys o -> events_ok sys -> orbit sys o cfg c UPPER S lg ->
  e_set S x t -> passes_after_jump sys c (e_loc S) (e_events S) x t p ->
  exists R, In (Reach R) lg /\ point_in p R.
Proof. intros FO SO EV. apply (orbit_covers sys o FO SO EV). Qed.
Print Assumptions C95_orbit_covers_partial.
(** System A: the run from 0 which jumps at time 1/4 to 41/4 and stays there. *)
Example C95_nonvacuous : orbit sysA (best sysA 0 true (1/2)) cfg0 (at_half 5) UPPER initA logA /\ e_set initA 0 0 /\
  passes_after_jump sysA (at_half 5) (e_loc initA) (e_events initA) 0 0 (1%nat, [7%nat], 41/4, 1/2) /\ flow_ok sysA /\ events_ok sysA /\ sound sysA (best sysA 0 true (1/2)).
Proof.
  split; [apply (orbitA UPPER true) | split; [split; reflexivity | split; [apply runA | split; [apply sysA_ok | split; [apply sysA_events | apply best_sound; lra]]]]].
Qed.

(** * C96: the sets of an orbit are within the limits on time and events, and final sets are final *)
Theorem C96_orbit_entries {L X : Type} (sys : system L X) (o : oracles L X) cfg c sem init lg :
  flow_ok sys -> sound sys o -> allowed c (e_events init) -> (forall x t, e_set init x t -> t <= maximum_time c) ->
  orbit sys o cfg c sem init lg -> forall en, In en lg -> entry_ok sys c en.
Proof. intros FO SO. apply (orbit_entries sys o FO SO). Qed.
Print Assumptions C96_orbit_entries.
Example C96_nonvacuous sem : allowed (at_half 5) (e_events initA) /\ (forall x t, e_set initA x t -> t <= maximum_time (at_half 5)) /\
  orbit sysA (best sysA 0 true (1/2)) cfg0 (at_half 5) sem initA logA /\ In (Final (enclosure_of sysA JA (evolve_set JA rest_timing))) logA.
Proof.
  split; [intros evs' e r H; destruct evs'; discriminate | split; [intros x t [_ ->]; cbn; lra | split; [apply (orbitA sem true) | right; left; reflexivity]]].
Qed.

(** * C97: the evolver jumps from states in which the guard of the transition holds *)
Theorem C97_jumps_refuted : exists (sys : system nat R) o cfg T S es J y s,
  flow_ok sys /\ sound sys o /\ (forall sem, evolution_step sys o cfg T sem S = Some es) /\ In (Append J true) es /\ e_set J y s /\
  forall tr x t d, In tr (transitions sys (e_loc S)) -> e_set S x t -> 0 <= d -> y = tr_reset tr (flow sys (e_loc S) x d) -> tr_guard tr (flow sys (e_loc S) x d) < 0.
Proof.
  do 4 eexists. exists FB. eexists. exists JB, 9, 0. split; [apply sysB_ok | split; [apply (best_sound sysB 0 true (1/2)); lra | split; [intros sem; apply B_flows |]]].
  split; [right; right; left; reflexivity | split; [apply JB_in |]].
  intros tr x t d [<- | []] _ _ E. cbn in *. lra.
Qed.
Print Assumptions C97_jumps_refuted.
(** The other conditions hold, and the guard does if its derivative is nonnegative somewhere on
    the way of the set. *)
Theorem C97_jumps_partial {L X : Type} (sys : system L X) (o : oracles L X) cfg T sem S es J y s :
  flow_ok sys -> sound sys o -> evolution_step sys o cfg T sem S = Some es -> In (Append J true) es -> e_set J y s ->
  exists tr x t d, In tr (transitions sys (e_loc S)) /\ jumps (tr_kind tr) /\ e_loc J = tr_target tr /\ e_events J = e_events S ++ [tr_event tr] /\
    e_set S x t /\ 0 <= d /\ y = tr_reset tr (flow sys (e_loc S) x d) /\ s = t + d /\ s <= T /\
    (tr_kind tr = IMPACT -> 0 <= tr_lie tr (flow sys (e_loc S) x d)) /\
    ((forall h, flow_step o S = Some h -> exists x' t' d', e_set S x' t' /\ 0 <= d' <= h /\ 0 <= tr_lie tr (flow sys (e_loc S) x' d')) ->
     0 <= tr_guard tr (flow sys (e_loc S) x d)).
Proof. intros FO SO. apply (step_jumps sys o FO SO). Qed.
Print Assumptions C97_jumps_partial.
Example C97_nonvacuous sem : exists es, evolution_step sysA (best sysA 0 true (1/2)) cfg0 (1/2) sem initA = Some es /\ In (Append JA true) es /\ e_set JA (41/4) (1/4) /\
  forall h, flow_step (best sysA 0 true (1/2)) initA = Some h -> exists x' t' d', e_set initA x' t' /\ 0 <= d' <= h /\ 0 <= tr_lie trA (flow sysA (e_loc initA) x' d').
Proof.
  eexists. split; [exact (A_flows sem true) | split; [right; left; reflexivity | split; [apply JA_iff; split; reflexivity |]]].
  intros h E. injection E as <-. exists 0, 0, 0. cbn. repeat split; lra.
Qed.

(** * C98: all states of an orbit with lower semantics are visited by runs of the system *)
Theorem C98_lower_orbit_refuted : exists (sys : system nat R) o cfg c init lg R p,
  flow_ok sys /\ sound sys o /\ events_ok sys /\ convex_guards sys /\ orbit sys o cfg c LOWER init lg /\ In (Reach R) lg /\ point_in p R /\ ~ visits sys init p.
Proof.
  destruct (orbitB LOWER) as (lg & O & I & P).
  exists sysB, (best sysB 0 true (1/2)), cfg0, (at_half 5), initB, lg, RB, (1%nat, [7%nat], 9, 0).
  split; [apply sysB_ok | split; [apply best_sound; lra | split; [apply sysB_events | split; [| split; [exact O | split; [exact I | split; [exact P | apply notB]]]]]]].
  intros [| l] tr Q; [destruct Q as [<- | []] | destruct Q]. intros _ x. cbn. lra.
Qed.
Print Assumptions C98_lower_orbit_refuted.
(** The evolution also goes on through an invariant which is violated for a time during the step. *)
Theorem C98_grazing_refuted : exists (sys : system nat XD) o cfg T S es N y s,
  flow_ok sys /\ sound sys o /\ evolution_step sys o cfg T LOWER S = Some es /\ In (Append N false) es /\ e_set N y s /\
  (exists x t, e_set S x t /\ flow sys (e_loc S) x (s - t) = y /\ invariants_hold sys (e_loc S) x) /\
  forall x t, e_set S x t -> flow sys (e_loc S) x (s - t) = y -> ~ evolves sys (e_loc S) x (s - t).
Proof.
  destruct G_continues as (es & E & I). exists sysG, (best sysG 0 true 2), cfg0, 10, setD, es, nextG, (2, true, true), 2.
  split; [apply (sysD_ok [trD1] inclG) | split; [apply best_sound; lra | split; [exact E | split; [exact I |]]]].
  split; [exists (0, true, true), 0, 2; split; [split; [apply D_in | cbn; lra] | split; [cbn; unfold flowD; cbn; f_equal; f_equal; lra | lra]] |]. split.
  - exists (0, true, true), 0. split; [apply D_in | split; [cbn; unfold flowD; cbn; f_equal; f_equal; lra |]]. intros tr [<- | []] _. cbn. lra.
  - intros [[x b1] b2] t [Ex ->] F [_ Ev]. cbn in Ex, F. subst x. unfold flowD in F. cbn in F. injection F as _ -> ->.
    specialize (Ev trD1 (or_introl eq_refl) ltac:(discriminate) 1 ltac:(lra)). cbn in Ev. lra.
Qed.
Print Assumptions C98_grazing_refuted.
(** What holds: if guards which block the evolution are convex along trajectories, those of
    urgent transitions and impacts are also nondecreasing, and sets are not replaced by larger ones. *)
Theorem C98_lower_orbit_partial {L X : Type} (sys : system L X) (o : oracles L X) cfg c init lg R p :
  flow_ok sys -> sound sys o -> events_ok sys -> convex_guards sys -> increasing_guards sys ->
  allow_creep cfg = false \/ (forall S f h ct x t, implicit o S f h = Some ct -> e_set S x t -> 0 < ct x) ->
  enable_reconditioning cfg = false -> (forall S (P : X -> Rdefinitions.R -> Prop) x t, In P (split_set o S) -> P x t -> e_set S x t) ->
  (forall x t, e_set init x t -> t <= maximum_time c) ->
  orbit sys o cfg c LOWER init lg -> In (Reach R) lg -> point_in p R -> visits sys init p.
Proof. intros FO SO EV CV IG CR NR SP T0 O. apply (orbit_real sys o FO SO EV CV IG cfg CR NR SP c init T0 lg O). Qed.
Print Assumptions C98_lower_orbit_partial.
Example C98_nonvacuous : convex_guards sysA /\ increasing_guards sysA /\ allow_creep (cfgc false) = false /\ enable_reconditioning (cfgc false) = false /\
  (forall S (P : R -> R -> Prop) x t, In P (split_set (best sysA 0 true (1/2)) S) -> P x t -> e_set S x t) /\
  (forall x t, e_set initA x t -> t <= maximum_time (at_half 5)) /\ orbit sysA (best sysA 0 true (1/2)) (cfgc false) (at_half 5) LOWER initA logA /\
  exists R, In (Reach R) logA /\ point_in (1%nat, [7%nat], 41/4, 1/4) R.
Proof.
  split; [apply sysA_convex | split; [apply sysA_convex | split; [reflexivity | split; [reflexivity | split; [| split; [| split; [apply (orbitA LOWER false) |]]]]]]].
  - intros S P x t [<- | []] Px. exact Px.
  - intros x t [_ ->]. cbn. lra.
  - eexists. split; [right; right; left; reflexivity |].
    apply (rest_contains (fun x s => x + s) [trA] JA (1/4) eq_refl); [intros x t Q; apply JA_iff in Q; apply Q | lra | reflexivity | reflexivity | apply JA_iff; split; reflexivity].
Qed.

(** * C99: the time of evolution chosen for a step *)
(** A step which is announced to end before the final time may pass it. *)
Theorem C99_before_final_time_refuted : exists (sys : system nat R) o cfg T S h cs tm cs' x t,
  flow_ok sys /\ sound sys o /\ 0 < h /\ compute_crossings sys o S h (compute_active_events sys o S h) = Some cs /\
  estimate_timing sys o S h cfg T cs = Some (tm, cs') /\ t_finishing tm = BEFORE_FINAL_TIME /\ e_set S x t /\ t <= T /\ T < t + t_evolution tm x t.
Proof.
  destruct F_passes as (cs & tm & E1 & E2 & E3 & E4). exists sysF, (best sysF 0 true 1), cfg0, (5/2), setF, 1, cs, tm, cs, 0, 2.
  split; [apply sysF_ok | split; [apply best_sound; lra | split; [lra | split; [exact E1 | split; [exact E2 | split; [exact E3 |]]]]]].
  split; [split; lra | split; [lra | rewrite E4; lra]].
Qed.
Print Assumptions C99_before_final_time_refuted.
(** What holds: the evolution time is at least zero and at most the step size, a step said to be
    at the final time ends there, one said to be constant has the step size, and an event which
    is dropped is not reached. *)
Theorem C99_timing_partial {L X : Type} (sys : system L X) (o : oracles L X) cfg T S h cs tm cs' :
  flow_ok sys -> sound sys o -> 0 < h -> (forall tr c, In (tr, c) cs -> In tr (transitions sys (e_loc S))) ->
  estimate_timing sys o S h cfg T cs = Some (tm, cs') ->
  incl cs' cs /\
  (forall x t, e_set S x t -> t <= T -> 0 <= t_evolution tm x t <= h) /\
  (t_finishing tm = AT_FINAL_TIME -> forall x t, e_set S x t -> t_evolution tm x t = T - t) /\
  (t_constant tm = true -> forall x t, e_set S x t -> t <= T -> t_evolution tm x t = h) /\
  (forall tr c, In (tr, c) cs -> ~ In (tr, c) cs' -> forall x t, e_set S x t -> t <= T -> tr_guard tr (flow sys (e_loc S) x 0) <= 0 ->
     forall d, 0 <= d <= t_evolution tm x t -> tr_guard tr (flow sys (e_loc S) x d) < 0 \/ t_evolution tm x t = 0).
Proof.
  intros FO SO Hh A E. destruct (estimate_ok sys o FO SO S h Hh cfg T cs tm cs' ltac:(intros [tr c] I; apply (A tr c I)) E) as (I1 & I2 & I3 & I4 & I5).
  split; [exact I1 | split; [exact I2 | split; [exact I3 | split; [exact I4 |]]]].
  intros tr c I N x t Sx Tt G d B. exact (proj2 (I5 (tr, c) I N) x t Sx Tt G d B).
Qed.
Print Assumptions C99_timing_partial.
Example C99_nonvacuous : exists cs tm, compute_crossings sysF (best sysF 0 true 1) setF 1 (compute_active_events sysF (best sysF 0 true 1) setF 1) = Some cs /\
  estimate_timing sysF (best sysF 0 true 1) setF 1 cfg0 (5/2) cs = Some (tm, cs) /\ e_set setF 0 2 /\ t_evolution tm 0 2 = 15/16.
Proof. destruct F_passes as (cs & tm & E1 & E2 & _ & E4). exists cs, tm. split; [exact E1 | split; [exact E2 | split; [split; lra | apply E4]]]. Qed.

(** * C100: a step of the evolver is performed without undefined behaviour *)
(** If a crossing is found impossible by its maximum, the set of events which is iterated over is changed. *)
Theorem C100_erased_refuted : exists (sys : system nat R) o cfg T S x t,
  flow_ok sys /\ sound sys o /\ e_set S x t /\ t < T /\ flow_step o S <> None /\ time_range o (lift (e_set S)) <> None /\
  forall sem, evolution_step sys o cfg T sem S = None.
Proof.
  exists sysE, (best sysE (1/2) false 2), cfg0, 10, setE, 0, 0.
  split; [apply sysE_ok | split; [apply best_sound; lra | split; [split; reflexivity | split; [lra | split; [discriminate | split; [| apply E_fails]]]]]].
  rewrite (best_time sysE (1/2) false 2 (lift (e_set setE)) 0 0); [discriminate | exists 0, 0, 0; split; [repeat split | ring] | exists 0, 0, 0; split; [repeat split | ring] |].
  intros x t d (-> & _ & ->). lra.
Qed.
Print Assumptions C100_erased_refuted.
(** If two guards are grazed, the list of sets which is iterated over is reallocated. *)
Theorem C100_grazing_refuted : exists (sys : system nat XD) o cfg T S x t,
  flow_ok sys /\ sound sys o /\ e_set S x t /\ t < T /\ flow_step o S <> None /\ time_range o (lift (e_set S)) <> None /\
  evolution_step sys o cfg T UPPER S = None.
Proof.
  exists sysD, (best sysD 0 true 2), cfg0, 10, setD, (0, true, true), 0.
  split; [apply (sysD_ok [trD1; trD2] (fun x i => i)) | split; [apply best_sound; lra | split; [apply D_in | split; [lra | split; [discriminate | split; [| apply D_fails]]]]]].
  unfold sysD. rewrite (D_time [trD1; trD2]). discriminate.
Qed.
Print Assumptions C100_grazing_refuted.
(** What holds: with convex guards, which are nondecreasing for urgent transitions and impacts,
    and without creep steps, an upper step from a nonempty set whose flow can be computed is performed. *)
Theorem C100_step_partial {L X : Type} (sys : system L X) (o : oracles L X) cfg T S :
  sound sys o -> (forall l tr, In tr (transitions sys l) -> forall x, 0 <= tr_lie2 tr x) -> increasing_guards sys ->
  allow_creep cfg = false -> (exists x t, e_set S x t) -> flow_step o S <> None -> time_range o (lift (e_set S)) <> None ->
  exists es, evolution_step sys o cfg T UPPER S = Some es.
Proof. intros SO CV IG. apply (evolution_step_total sys o SO CV IG). Qed.
Print Assumptions C100_step_partial.
Example C100_nonvacuous : (forall l tr, In tr (transitions sysA l) -> forall x, 0 <= tr_lie2 tr x) /\ increasing_guards sysA /\ allow_creep (cfgc false) = false /\
  e_set initA 0 0 /\ flow_step (best sysA 0 true (1/2)) initA <> None /\ time_range (best sysA 0 true (1/2)) (lift (e_set initA)) <> None /\
  evolution_step sysA (best sysA 0 true (1/2)) (cfgc false) (1/2) UPPER initA = Some [Record_ (Reach (enclosure_of sysA initA reachA)); Append JA true].
Proof.
  split; [| split; [apply sysA_convex | split; [reflexivity | split; [split; reflexivity | split; [discriminate | split; [rewrite A_time; discriminate | exact (A_flows UPPER false)]]]]]].
  intros [| l] tr Q; [destruct Q as [<- | []] | destruct Q]. intros x. cbn. lra.
Qed.
