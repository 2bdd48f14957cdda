From Coq Require Import List Bool Arith Reals Lra Lia Classical.
From Coquelicot Require Import Coquelicot.
From Verif Require Import Automaton_Model Evolver_Model HybridEvolver_Model HybridEvolver_Spec HybridEvolver_Proofs.
Import ListNotations.
Local Open Scope R_scope.

Section EX.
Context {L X : Type}.
Variable sys : system L X.
Variable o : oracles L X.

(** ** Guards only take away points *)
Section SUB.
Variable S : enclosure L X.
Variable sem : semantics.
Lemma guard_set_sub g c (P : pset X) x t d :
  holds_in (fst (guard_set sys o S sem g c P) :: snd (guard_set sys o S sem g c P)) x t d -> P x t d.
Proof.
  intros (Q & I & Qd).
  destruct c as [gamma | | | | | | mu pos]; cbn [guard_set] in I; try (destruct sem);
    repeat match type of I with context [if ?b then _ else _] => destruct b end;
    cbn [fst snd app] in I; destruct I as [<- | I];
    try (destruct I as [<- | I]); try (destruct I as [<- | I]); try (destruct I);
    unfold constrain in Qd; tauto.
Qed.
Lemma guard_loop_sub g c x t d : forall todo done extra cap cap' sets, guard_loop sys o S sem g c todo done extra cap = Some (cap', sets) ->
  holds_in sets x t d -> holds_in (done ++ todo ++ extra) x t d.
Proof.
  induction todo as [| P r IH]; cbn [guard_loop]; intros done extra cap cap' sets H Q.
  - injection H as <- <-. exact Q.
  - pose proof (guard_set_sub g c P x t d) as K. destruct (guard_set sys o S sem g c P) as [P' new]. cbn [fst snd] in K.
    destruct (_ && _); [discriminate |]. destruct (IH _ _ _ _ _ H Q) as (W & I & Wd). clear IH H Q.
    rewrite !in_app_iff in I. destruct I as [[I | [<- | []]] | [I | [I | I]]].
    + exists W. rewrite !in_app_iff. tauto.
    + exists P. split; [rewrite !in_app_iff; right; left; left; reflexivity |]. apply K. exists P'. split; [left; reflexivity | exact Wd].
    + exists W. split; [rewrite !in_app_iff; right; left; right; exact I | exact Wd].
    + exists W. split; [rewrite !in_app_iff; right; right; exact I | exact Wd].
    + exists P. split; [rewrite !in_app_iff; right; left; left; reflexivity |]. apply K. exists W. split; [right; exact I | exact Wd].
Qed.
Lemma apply_guards_cons tc tcs sets res : apply_guards sys o S sem (tc :: tcs) sets = Some res ->
  exists s, apply_guard sys o S sem tc sets = Some s /\ apply_guards sys o S sem tcs s = Some res.
Proof.
  unfold apply_guards. cbn [fold_left]. destruct (apply_guard sys o S sem tc sets) as [s |]; intros H; [exists s; split; [reflexivity | exact H] |].
  exfalso. clear - H. induction tcs; [discriminate | apply IHtcs; exact H].
Qed.
Lemma apply_guards_sub tcs x t d : forall sets res, apply_guards sys o S sem tcs sets = Some res -> holds_in (snd res) x t d -> holds_in (snd sets) x t d.
Proof.
  induction tcs as [| tc r IH]; intros sets res H Q.
  - injection H as <-. exact Q.
  - destruct (apply_guards_cons _ _ _ _ H) as ([cap s] & E & H'). apply (IH _ _ H') in Q.
    unfold apply_guard in E. apply (guard_loop_sub _ _ x t d _ _ _ _ _ _ E) in Q. cbn [app] in Q. rewrite app_nil_r in Q. exact Q.
Qed.
(** Points which are kept satisfy what each of the guards asks. *)
Lemma guard_loop_post g c x t d (post : Prop) :
  (forall P : pset X, holds_in (fst (guard_set sys o S sem g c P) :: snd (guard_set sys o S sem g c P)) x t d -> post) ->
  forall todo done extra cap cap' sets, guard_loop sys o S sem g c todo done extra cap = Some (cap', sets) ->
  (holds_in (done ++ extra) x t d -> post) -> holds_in sets x t d -> post.
Proof.
  intros A. induction todo as [| P r IH]; cbn [guard_loop]; intros done extra cap cap' sets H B Q.
  - injection H as <- <-. apply B, Q.
  - pose proof (A P) as K. destruct (guard_set sys o S sem g c P) as [P' new]. cbn [fst snd] in K.
    destruct (_ && _); [discriminate |]. apply (IH _ _ _ _ _ H); [| exact Q]. intros (W & I & Wd).
    rewrite !in_app_iff in I. destruct I as [[I | [<- | []]] | [I | I]].
    + apply B. exists W. rewrite in_app_iff. tauto.
    + apply K. exists P'. split; [left; reflexivity | exact Wd].
    + apply B. exists W. rewrite in_app_iff. tauto.
    + apply K. exists W. split; [right; exact I | exact Wd].
Qed.
Lemma apply_guards_post x t d (post : transition L X * crossing X -> Prop) tcs :
  (forall tc, In tc tcs -> forall P : pset X, holds_in (fst (guard_set sys o S sem (tr_guard (fst tc)) (snd tc) P) :: snd (guard_set sys o S sem (tr_guard (fst tc)) (snd tc) P)) x t d -> post tc) ->
  forall sets res, apply_guards sys o S sem tcs sets = Some res -> holds_in (snd res) x t d -> forall tc, In tc tcs -> post tc.
Proof.
  induction tcs as [| tc r IH]; intros A sets res H Q tc' I; [destruct I |].
  destruct (apply_guards_cons _ _ _ _ H) as ([cap s] & E & H').
  destruct I as [<- | I].
  - apply (apply_guards_sub _ x t d _ _ H') in Q. unfold apply_guard in E.
    eapply (guard_loop_post _ _ x t d (post tc)); [| exact E | | exact Q].
    + apply A. left. reflexivity.
    + intros (W & [] & _).
  - eapply IH; [| exact H' | exact Q | exact I]. intros tc0 I0. apply A. right. exact I0.
Qed.
End SUB.

Lemma all_effects_inv (rs : list (option (list (effect L X)))) es e : all_effects rs = Some es -> In e es -> exists l, In (Some l) rs /\ In e l.
Proof.
  revert es. induction rs as [| [l |] rs IH]; cbn [all_effects]; intros es H I.
  - injection H as <-. destruct I.
  - destruct (all_effects rs) as [es' |]; [| discriminate]. injection H as <-. apply in_app_or in I. destruct I as [I | I].
    + exists l. split; [left; reflexivity | exact I].
    + destruct (IH es' eq_refl I) as (l' & I' & J). exists l'. split; [right; exact I' | exact J].
  - discriminate.
Qed.

Lemma in_one (P : pset X) x t d : holds_in [P] x t d -> P x t d.
Proof. intros (Q & [<- | []] & H). exact H. Qed.

(** ** The effects of a step: where the sets come from *)
Section STEP.
Variable S : enclosure L X.
Variable h : R.
Variable sem : semantics.
Variable tm : timing X.
Variable T : R.
Variable cs : list (transition L X * crossing X).
Variable es : list (effect L X).
Hypothesis STEP : apply_evolution_step sys o S h sem tm T cs = Some es.
Notation blocking := (filter (fun tc => is_blocking (tr_kind (fst tc))) cs).

Definition from_reach (P : pset X) : Prop := exists cap reach, apply_guards sys o S sem blocking (1%nat, [reach_set S h tm]) = Some (cap, reach) /\ In P reach.
Definition from_evolve (P : pset X) : Prop := forall x t d, P x t d -> evolve_set S tm x t d.
Definition from_jump (tc : transition L X * crossing X) (J : pset X) : Prop :=
  In tc cs /\ is_activating (tr_kind (fst tc)) = true /\
  exists P' : pset X, (forall x t d, P' x t d -> fst (guard_step sys S h sem tm (fst tc) (snd tc)) x t d) /\
    (forall x t d, P' x t d -> surely_by o T (fst (guard_step sys S h sem tm (fst tc) (snd tc))) = true \/ t + d <= T) /\
    exists cap sets, apply_guards sys o S sem (filter (fun tc' => negb (Nat.eqb (tr_event (fst tc')) (tr_event (fst tc)))) blocking) (1%nat, [P']) = Some (cap, sets) /\ In J sets.
Lemma jump_effects_inv tc l e : In tc cs -> is_activating (tr_kind (fst tc)) = true -> jump_effects sys o S h sem tm T blocking tc = Some l -> In e l ->
  exists J, e = Append (reset_enclosure sys S (fst tc) J) true /\ from_jump tc J.
Proof.
  intros I A H Ie. unfold jump_effects in H. unfold from_jump. destruct (guard_step sys S h sem tm (fst tc) (snd tc)) as [P ok] eqn:Eg. cbn [fst].
  set (P' := if surely_by o T P then P else bound_time T P) in *.
  assert (Q1 : forall x t d, P' x t d -> P x t d) by (intros x t d; unfold P'; destruct (surely_by o T P); [auto | intros [? _]; assumption]).
  assert (Q2 : forall x t d, P' x t d -> surely_by o T P = true \/ t + d <= T) by (intros x t d; unfold P'; destruct (surely_by o T P); [auto | intros [_ ?]; right; assumption]).
  set (others := filter (fun tc' => negb (Nat.eqb (tr_event (fst tc')) (tr_event (fst tc)))) blocking) in *.
  assert (E : exists cap sets, apply_guards sys o S sem others (1%nat, [P']) = Some (cap, sets) /\
     l = concat (map (fun J => if surely_empty o J then [] else [Append (reset_enclosure sys S (fst tc) J) true]) sets)).
  { destruct ok.
    - destruct (apply_guards sys o S sem others (1%nat, [P'])) as [[cap sets] |]; [| discriminate]. injection H as <-. exists cap, sets. split; reflexivity.
    - destruct others; [| discriminate]. injection H as <-. exists 1%nat, [P']. split; reflexivity. }
  destruct E as (cap & sets & E & ->). apply in_concat in Ie. destruct Ie as (l0 & Il & Ie). apply in_map_iff in Il. destruct Il as (J & <- & IJ).
  destruct (surely_empty o J); [destruct Ie |]. destruct Ie as [<- | []]. exists J. split; [reflexivity |].
  split; [exact I | split; [exact A |]]. exists P'. split; [exact Q1 | split; [exact Q2 |]]. exists cap, sets. split; assumption.
Qed.

Inductive origin : effect L X -> Prop :=
  | or_final_at : forall P, t_finishing tm = AT_FINAL_TIME -> from_evolve P -> origin (Record_ (Final (enclosure_of sys S P)))
  | or_reach_at : forall P, t_finishing tm = AT_FINAL_TIME -> from_reach P -> origin (Record_ (Reach (enclosure_of sys S P)))
  | or_next : forall P, t_finishing tm <> AT_FINAL_TIME -> from_evolve P -> origin (Append (enclosure_of sys S P) false)
  | or_intermediate : forall P, t_finishing tm <> AT_FINAL_TIME -> from_evolve P -> (forall x t d, P x t d -> surely_by o T P = true \/ t + d <= T) ->
      origin (Record_ (Intermediate (enclosure_of sys S P)))
  | or_final : forall P, t_finishing tm = STRADDLE_FINAL_TIME -> from_reach P -> origin (Record_ (Final (enclosure_of sys S (set_time T P))))
  | or_reach : forall P, t_finishing tm <> AT_FINAL_TIME -> from_reach P -> origin (Record_ (Reach (enclosure_of sys S (bound_time T P))))
  | or_jump : forall tc J, from_jump tc J -> origin (Append (reset_enclosure sys S (fst tc) J) true).

Lemma step_origin e : In e es -> origin e.
Proof.
  intros Ie. unfold apply_evolution_step in STEP.
  destruct (apply_guards sys o S sem (filter _ cs) (1%nat, [reach_set S h tm])) as [[r1 reach] |] eqn:E1; [| discriminate].
  destruct (apply_guards sys o S sem (filter _ (filter _ cs)) (1%nat, [evolve_set S tm])) as [[r2 next] |] eqn:E2; [| discriminate].
  destruct (apply_guards sys o S sem (filter (fun tc => delayed (snd tc)) (filter _ cs)) (r2, next)) as [[r3 evolve] |] eqn:E3; [| discriminate].
  assert (NX : forall P, In P next -> from_evolve P).
  { intros P I x t d Pd. apply in_one. apply (apply_guards_sub S sem _ x t d _ _ E2). exists P. split; assumption. }
  assert (EV : forall P, In P evolve -> from_evolve P).
  { intros P I x t d Pd. assert (Q : holds_in next x t d) by (apply (apply_guards_sub S sem _ x t d _ _ E3); exists P; split; assumption).
    destruct Q as (P' & I' & Pd'). apply (NX P' I' x t d Pd'). }
  assert (RE : forall P, In P reach -> from_reach P) by (intros P I; exists r1, reach; split; [exact E1 | exact I]).
  destruct (all_effects_inv _ _ _ STEP Ie) as (l & [El | Il] & I).
  - injection El as <-. unfold finishing_effects in I. destruct (t_finishing tm) eqn:Ef.
    + apply in_app_or in I. destruct I as [I | I].
      * apply in_concat in I. destruct I as (l0 & Il & I). apply in_map_iff in Il. destruct Il as (P & <- & IP).
        destruct (surely_empty o P); [destruct I |]. destruct I as [<- | []]. apply or_final_at; [exact Ef | apply EV, IP].
      * apply in_map_iff in I. destruct I as (P & <- & IP). apply or_reach_at; [exact Ef | apply RE, IP].
    + apply in_app_or in I. destruct I as [I | I].
      * apply in_concat in I. destruct I as (l0 & Il & I). apply in_map_iff in Il. destruct Il as ([P N] & <- & IP).
        pose proof (in_combine_l _ _ _ _ IP) as I1. pose proof (in_combine_r _ _ _ _ IP) as I2.
        unfold evolve_effects in I. destruct (surely_after o T P); [destruct I |].
        destruct (surely_empty o (if surely_by o T P then P else bound_time T P)); [destruct I |].
        destruct I as [<- | [<- | []]]; [apply or_next; [rewrite Ef; discriminate | apply NX, I2] |].
        destruct (surely_by o T P) eqn:Eb.
        -- apply or_intermediate; [rewrite Ef; discriminate | apply EV, I1 | intros; left; exact Eb].
        -- apply or_intermediate; [rewrite Ef; discriminate | intros x t d [Pd _]; apply (EV P I1 x t d Pd) | intros x t d [_ Bd]; right; exact Bd].
      * apply in_concat in I. destruct I as (l0 & Il & I). apply in_map_iff in Il. destruct Il as (P & <- & IP).
        unfold reach_effects in I. rewrite Ef in I. apply in_app_or in I. destruct I as [I | [<- | []]].
        -- destruct (surely_by o T P); destruct I.
        -- apply or_reach; [rewrite Ef; discriminate | apply RE, IP].
    + apply in_app_or in I. destruct I as [I | I].
      * apply in_concat in I. destruct I as (l0 & Il & I). apply in_map_iff in Il. destruct Il as ([P N] & <- & IP).
        pose proof (in_combine_l _ _ _ _ IP) as I1. pose proof (in_combine_r _ _ _ _ IP) as I2.
        unfold evolve_effects in I. destruct (surely_after o T P); [destruct I |].
        destruct (surely_empty o (if surely_by o T P then P else bound_time T P)); [destruct I |].
        destruct I as [<- | [<- | []]]; [apply or_next; [rewrite Ef; discriminate | apply NX, I2] |].
        destruct (surely_by o T P) eqn:Eb.
        -- apply or_intermediate; [rewrite Ef; discriminate | apply EV, I1 | intros; left; exact Eb].
        -- apply or_intermediate; [rewrite Ef; discriminate | intros x t d [Pd _]; apply (EV P I1 x t d Pd) | intros x t d [_ Bd]; right; exact Bd].
      * apply in_concat in I. destruct I as (l0 & Il & I). apply in_map_iff in Il. destruct Il as (P & <- & IP).
        unfold reach_effects in I. rewrite Ef in I. apply in_app_or in I. destruct I as [I | [<- | []]].
        -- destruct (surely_by o T P); [destruct I |]. destruct (surely_empty o (set_time T P)); [destruct I |]. destruct I as [<- | []].
           apply or_final; [exact Ef | apply RE, IP].
        -- apply or_reach; [rewrite Ef; discriminate | apply RE, IP].
  - apply in_map_iff in Il. destruct Il as (tc & El & Itc). apply filter_In in Itc. destruct Itc as [Itc A].
    destruct (jump_effects_inv tc l e Itc A El I) as (J & -> & FJ). apply or_jump, FJ.
Qed.
Lemma from_reach_sub P x t d : from_reach P -> P x t d -> reach_set S h tm x t d.
Proof.
  intros (cap & reach & E & I) Pd. apply in_one. apply (apply_guards_sub S sem _ x t d _ _ E). exists P. split; assumption.
Qed.
Lemma from_jump_sub tc J x t d : from_jump tc J -> J x t d -> fst (guard_step sys S h sem tm (fst tc) (snd tc)) x t d /\
  (surely_by o T (fst (guard_step sys S h sem tm (fst tc) (snd tc))) = true \/ t + d <= T).
Proof.
  intros (_ & _ & P' & Q1 & Q2 & cap & sets & E & I) Jd.
  assert (K : P' x t d) by (apply in_one; apply (apply_guards_sub S sem _ x t d _ _ E); exists J; split; assumption).
  split; [apply Q1, K | apply (Q2 x t d K)].
Qed.
End STEP.

Lemma orbit_invariant cfg c sem (I : enclosure L X * bool -> Prop) (G : entry L X -> Prop) :
  (forall w es, I w -> process sys o cfg c sem w = Some es -> forall e, In e es -> match e with Record_ en => G en | Append A j => I (A, j) end) ->
  forall init lg, I (init, true) -> orbit sys o cfg c sem init lg -> forall en, In en lg -> G en.
Proof.
  intros A init lg I0 H.
  set (Q := fun s : state L X => (forall en, In en (log s) -> G en) /\
    forall i, In i (items s) -> match i with Waiting w => I w | Running es => forall e, In e es -> match e with Record_ en => G en | Append A j => I (A, j) end end).
  assert (P : forall s s', steps sys o cfg c sem s s' -> Q s -> Q s').
  { intros s s' St. induction St as [| s s' s'' St _ IH]; [auto |]. intros [Q1 Q2]. apply IH. clear IH.
    destruct St as [b1 b2 l w es Hp | b1 b2 l en r | b1 b2 l S j r | b1 b2 l]; cbn [items log] in *.
    - split; [exact Q1 |]. cbn [items]. intros i Hi. apply in_app_or in Hi. destruct Hi as [Hi | [<- | Hi]].
      + apply Q2. apply in_or_app. left. exact Hi.
      + apply (A w es); [apply (Q2 (Waiting w)); apply in_or_app; right; left; reflexivity | exact Hp].
      + apply Q2. apply in_or_app. right. right. exact Hi.
    - assert (Qr : forall e, In e (Record_ en :: r) -> match e with Record_ en => G en | Append A j => I (A, j) end).
      { apply (Q2 (Running (Record_ en :: r))). apply in_or_app. right. left. reflexivity. }
      split; cbn [items log].
      + intros en' He. apply in_app_or in He. destruct He as [He | [<- | []]]; [apply Q1, He | apply (Qr (Record_ en)); left; reflexivity].
      + intros i Hi. apply in_app_or in Hi. destruct Hi as [Hi | [<- | Hi]].
        * apply Q2. apply in_or_app. left. exact Hi.
        * intros e He. apply Qr. right. exact He.
        * apply Q2. apply in_or_app. right. right. exact Hi.
    - assert (Qr : forall e, In e (Append S j :: r) -> match e with Record_ en => G en | Append A j => I (A, j) end).
      { apply (Q2 (Running (Append S j :: r))). apply in_or_app. right. left. reflexivity. }
      split; cbn [items log]; [exact Q1 |]. intros i Hi. apply in_app_or in Hi. destruct Hi as [Hi | [<- | Hi]].
      + apply Q2. apply in_or_app. left. exact Hi.
      + intros e He. apply Qr. right. exact He.
      + apply in_app_or in Hi. destruct Hi as [Hi | [<- | []]].
        * apply Q2. apply in_or_app. right. right. exact Hi.
        * apply (Qr (Append S j)). left. reflexivity.
    - split; cbn [items log]; [exact Q1 |]. intros i Hi. apply Q2. apply in_app_or in Hi. apply in_or_app. destruct Hi as [Hi | Hi]; [left | right; right]; exact Hi. }
  destruct (P _ _ H) as [R _]; [| exact R]. split; [intros en [] |]. intros i [<- | []]. exact I0.
Qed.

Hypothesis FO : flow_ok sys.
Hypothesis SO : sound sys o.

(** ** The cases of a step *)
Record full_step cfg T sem (S : enclosure L X) es h cs0 tm cs : Prop := mkFull {
  fs_flow : flow_step o S = Some h;
  fs_pos : 0 < h;
  fs_crossings : compute_crossings sys o S h (compute_active_events sys o S h) = Some cs0;
  fs_timing : estimate_timing sys o S h cfg T cs0 = Some (tm, cs);
  fs_sound : forall tc, In tc cs0 -> crossing_sound sys S h tc;
  fs_tsound : timing_sound sys S h T tm cs0 cs;
  fs_inactive : forall tr, In tr (transitions sys (e_loc S)) -> ~ In tr (map fst cs0) -> forall x t d, e_set S x t -> 0 <= d <= h -> u sys S tr x d < 0;
  fs_step : apply_evolution_step sys o S h sem tm T cs = Some es }.
Lemma evolution_step_cases cfg T sem S es : evolution_step sys o cfg T sem S = Some es ->
  (forall e, In e es -> exists P, e = Append (with_set S P) false /\
     ((P = recondition o S /\ enable_reconditioning cfg = true) \/ In P (split_set o S))) \/
  exists h cs0 tm cs, full_step cfg T sem S es h cs0 tm cs.
Proof.
  unfold evolution_step. intros H.
  destruct (surely_empty o _); [injection H as <-; left; intros e [] |].
  destruct (lower_above _ _); [injection H as <-; left; intros e [] |].
  destruct (enable_reconditioning cfg && large_errors o S) eqn:E.
  { injection H as <-. left. intros e [<- | []]. eexists. split; [reflexivity |]. left. split; [reflexivity | apply andb_prop in E; apply E]. }
  destruct (too_large o S && match sem with LOWER => true | UPPER => false end); [injection H as <-; left; intros e [] |].
  destruct (too_large o S && enable_subdivisions cfg).
  { injection H as <-. left. intros e I. apply in_concat in I. destruct I as (l & Il & I). apply in_map_iff in Il. destruct Il as (P & <- & IP).
    destruct (surely_empty o (lift P)); [destruct I |]. destruct I as [<- | []]. exists P. split; [reflexivity | right; exact IP]. }
  right. destruct (flow_step o S) as [h |] eqn:Eh; [| discriminate]. pose proof (step_positive _ _ SO S h Eh) as Hh.
  destruct (compute_crossings sys o S h (compute_active_events sys o S h)) as [cs0 |] eqn:Ec; [| discriminate].
  destruct (estimate_timing sys o S h cfg T cs0) as [[tm cs] |] eqn:Et; [| discriminate].
  assert (AI : forall tr, In tr (compute_active_events sys o S h) -> In tr (transitions sys (e_loc S))) by (intros tr I; unfold compute_active_events in I; apply filter_In in I; apply I).
  destruct (compute_crossings_ok sys o FO SO S h _ _ AI Ec) as [CF CM].
  assert (CS : forall tc, In tc cs0 -> crossing_sound sys S h tc) by (apply Forall_forall; exact CF).
  exists h, cs0, tm, cs. constructor; auto.
  - apply (estimate_ok sys o FO SO S h Hh cfg T); [intros tc I; apply (CS tc I) | exact Et].
  - intros tr I N x' t' d Sx' Bd. rewrite CM in N. apply (active_complete sys o SO S h tr x' t' d I Sx' Bd N).
Qed.
Lemma surely_by_sound T (P : pset X) x t d : surely_by o T P = true -> P x t d -> t + d <= T.
Proof. intros E Pd. destruct (upper_sound _ _ _ E (time_sound _ _ SO P x t d Pd)) as (hi & Q & Le). apply Rleb_true in Q. lra. Qed.

(** ** Jumped sets *)
Lemma apply_invariants_holds trs : forall (P : X -> R -> Prop) x t, @apply_invariants L X o trs P x t ->
  P x t /\ forall tr, In tr trs -> tr_kind tr = INVARIANT -> tr_guard tr x <= 0.
Proof.
  unfold apply_invariants. induction trs as [| tr r IH]; cbn [fold_left]; intros P x t H; [split; [exact H | intros tr []] |].
  apply IH in H. destruct H as [H1 H2].
  assert (K : P x t /\ (tr_kind tr = INVARIANT -> tr_guard tr x <= 0)).
  { destruct (tr_kind tr); try (split; [exact H1 | discriminate]).
    destruct (possibly_active o P (tr_guard tr)) eqn:E; [split; [apply H1 | intros _; apply H1] |].
    split; [exact H1 |]. intros _. apply Rnot_lt_le. intros N. rewrite (possibly_active_true sys o SO P (tr_guard tr) x t H1 ltac:(lra)) in E. discriminate. }
  split; [apply K |]. intros tr' [<- | I] Ki; [apply K, Ki | apply H2; assumption].
Qed.
Lemma flowable_holds S trs : forall (P : X -> R -> Prop) x t, (forall x t, P x t -> e_set S x t) -> fold_left (@starting_flowable L X o S) trs P x t ->
  P x t /\ forall tr, In tr trs -> tr_kind tr = URGENT \/ tr_kind tr = PROGRESS -> tr_guard tr x <= 0.
Proof.
  induction trs as [| tr r IH]; cbn [fold_left]; intros P x t Sub H; [split; [exact H | intros tr []] |].
  assert (Sub' : forall x t, starting_flowable o S P tr x t -> P x t).
  { intros x' t'. unfold starting_flowable. destruct (tr_kind tr); try tauto; destruct (possibly_active o (e_set S) (tr_guard tr)); tauto. }
  apply IH in H; [| intros x' t' Q; apply Sub, Sub', Q]. destruct H as [H1 H2].
  assert (K : tr_kind tr = URGENT \/ tr_kind tr = PROGRESS -> tr_guard tr x <= 0).
  { intros Kd. pose proof (Sub' _ _ H1) as P1. unfold starting_flowable in H1.
    assert (H1' : (if possibly_active o (e_set S) (tr_guard tr) then (fun x t => P x t /\ tr_guard tr x <= 0) else P) x t) by (destruct Kd as [Kd | Kd]; rewrite Kd in H1; exact H1).
    destruct (possibly_active o (e_set S) (tr_guard tr)) eqn:E; [apply H1' |].
    apply Rnot_lt_le. intros N. rewrite (possibly_active_true sys o SO (e_set S) (tr_guard tr) x t (Sub _ _ P1) ltac:(lra)) in E. discriminate. }
  split; [apply Sub', H1 |]. intros tr' [<- | I] Ki; [apply K, Ki | apply H2; assumption].
Qed.
Lemma terminated_stops c evs : terminated c evs = true <-> ~ goes_on c evs.
Proof.
  split.
  - intros E G. rewrite (goes_on_terminated c evs G) in E. discriminate.
  - intros N. destruct (terminated c evs) eqn:E; [reflexivity | exfalso; apply N]. unfold terminated in E. apply orb_false_elim in E. destruct E as [E1 E2].
    split; [apply Nat.leb_gt, E1 |]. intros e I evs' ->. rewrite rev_app_distr in E2. cbn [rev app] in E2.
    assert (Q : existsb (Nat.eqb e) (terminating_events c) = true) by (apply existsb_exists; exists e; split; [exact I | apply Nat.eqb_refl]). congruence.
Qed.

(** ** What an orbit consists of *)
Lemma allowed_snoc c evs e : allowed c evs -> goes_on c evs -> allowed c (evs ++ [e]).
Proof.
  intros A G evs' e' r E. destruct r as [| e2 r] using rev_ind.
  - apply app_inj_tail in E. destruct E as [<- _]. exact G.
  - rewrite app_comm_cons, app_assoc in E. apply app_inj_tail in E. destruct E as [E _]. apply (A evs' e' r E).
Qed.
Lemma orbit_entries cfg c sem init lg : allowed c (e_events init) -> (forall x t, e_set init x t -> t <= maximum_time c) ->
  orbit sys o cfg c sem init lg -> forall en, In en lg -> entry_ok sys c en.
Proof.
  intros A0 T0. set (T := maximum_time c).
  apply (orbit_invariant cfg c sem
    (fun w => allowed c (e_events (fst w)) /\ if snd w then forall x t, e_set (fst w) x t -> t <= T else goes_on c (e_events (fst w)))).
  2: split; assumption.
  intros [S j] es [Al I] H e Ie. unfold process in H. cbn [fst snd] in *. destruct j.
  - injection H as <-. unfold process_jumped_set in Ie. fold T in Ie.
    destruct (lower_above _ _); [destruct Ie |]. destruct (terminated c (e_events S)) eqn:Et.
    { destruct Ie as [<- | []]. split; [exact Al |]. cbn [entry_set with_set e_set e_loc e_events]. split.
      - intros x t Q. apply apply_invariants_holds in Q. apply (I x t), Q.
      - left. split; [apply terminated_stops, Et |]. intros x t Q. apply apply_invariants_holds in Q. exact (proj2 Q). }
    assert (G : goes_on c (e_events S)) by (apply NNPP; intros N; apply terminated_stops in N; congruence).
    unfold process_starting_events in Ie. apply in_app_or in Ie. destruct Ie as [Ie | Ie].
    + apply in_concat in Ie. destruct Ie as (l & Il & Ie). apply in_map_iff in Il. destruct Il as (tr & <- & Itr). unfold starting_jump in Ie.
      assert (K : In e [] \/ In e (let jump := fun x t => apply_invariants o (transitions sys (e_loc S)) (e_set S) x t /\ 0 <= tr_guard tr x in
         [Record_ (Reach (with_set S jump)); Record_ (Intermediate (reset_points tr S jump)); Append (reset_points tr S jump) true])).
      { destruct (tr_kind tr); auto; destruct (possibly_active o (e_set S) (tr_guard tr)); auto; cbn zeta in *; destruct (surely_empty o _); auto. }
      clear Ie. destruct K as [[] | [<- | [<- | [<- | []]]]].
      * split; [exact Al | split; [| exact Logic.I]]. intros x t [Q _]. apply apply_invariants_holds in Q. apply (I x t), Q.
      * split; [apply allowed_snoc; assumption | split; [| exact Logic.I]]. intros y t (x & [Q _] & _). apply apply_invariants_holds in Q. apply (I x t), Q.
      * split; [apply allowed_snoc; assumption |]. intros y t (x & [Q _] & _). apply apply_invariants_holds in Q. apply (I x t), Q.
    + destruct (surely_empty o _); [destruct Ie |]. destruct Ie as [<- | []]. split; [exact Al | exact G].
  - fold T in H. destruct (evolution_step_cases cfg T sem S es H) as [C | (h & cs0 & tm & cs & F)].
    { destruct (C e Ie) as (P & -> & _). split; [exact Al | exact I]. }
    destruct F as [_ _ _ _ _ TS _ F].
    destruct (step_origin S h sem tm T cs es F e Ie) as [P Ef FE | P Ef FR | P Ef FE | P Ef FE Bd | P Ef FR | P Ef FR | tc J FJ].
    + assert (Q : forall x t, e_set (enclosure_of sys S P) x t -> t = T).
      { intros y s (x & t & d & Pd & _ & ->). destruct (FE x t d Pd) as [Sx ->]. rewrite (proj1 (proj2 (proj2 TS)) Ef x t Sx). ring. }
      split; [exact Al | split; [intros y s Hy; rewrite (Q y s Hy); fold T; lra | right; exact Q]].
    + split; [exact Al | split; [| exact Logic.I]]. intros y s (x & t & d & Pd & _ & ->).
      destruct (from_reach_sub S h sem tm cs P x t d FR Pd) as (Sx & _ & Le). rewrite (proj1 (proj2 (proj2 TS)) Ef x t Sx) in Le. fold T. lra.
    + split; [exact Al | exact I].
    + split; [exact Al | split; [| exact Logic.I]]. intros y s (x & t & d & Pd & _ & ->). fold T.
      destruct (Bd x t d Pd) as [Sb | Le]; [apply (surely_by_sound T P x t d Sb Pd) | exact Le].
    + assert (Q : forall x t, e_set (enclosure_of sys S (set_time T P)) x t -> t = T) by (intros y s (x & t & d & [_ E] & _ & ->); exact E).
      split; [exact Al | split; [intros y s Hy; rewrite (Q y s Hy); fold T; lra | right; exact Q]].
    + split; [exact Al | split; [| exact Logic.I]]. intros y s (x & t & d & [_ Le] & _ & ->). exact Le.
    + split; [apply allowed_snoc; assumption |]. intros y s (x & t & d & Jd & _ & ->).
      destruct (from_jump_sub S h sem tm T cs tc J x t d FJ Jd) as [Pd [Sb | Le]]; [apply (surely_by_sound T _ x t d Sb Pd) | exact Le].
Qed.

(** ** Where a step jumps *)
Lemma not_decreasing S h tr x t d : In tr (transitions sys (e_loc S)) -> crossing_sound sys S h (tr, Decreasing) -> e_set S x t -> 0 <= d <= h -> 0 <= tr_lie tr (flow sys (e_loc S) x d) -> False.
Proof. intros _ [_ C] Sx Bd Le. specialize (C x t Sx d Bd). cbn [snd] in C. unfold du, HybridEvolver_Model.phi in C. cbn [fst] in C. lra. Qed.
Lemma step_jumps cfg T sem S es J y s : evolution_step sys o cfg T sem S = Some es -> In (Append J true) es -> e_set J y s ->
  exists tr x t d, In tr (transitions sys (e_loc S)) /\ jumps (tr_kind tr) /\ e_loc J = tr_target tr /\ e_events J = e_events S ++ [tr_event tr] /\
    e_set S x t /\ 0 <= d /\ y = tr_reset tr (flow sys (e_loc S) x d) /\ s = t + d /\ s <= T /\
    (tr_kind tr = IMPACT -> 0 <= tr_lie tr (flow sys (e_loc S) x d)) /\
    ((forall h, flow_step o S = Some h -> exists x t d, e_set S x t /\ 0 <= d <= h /\ 0 <= tr_lie tr (flow sys (e_loc S) x d)) -> 0 <= tr_guard tr (flow sys (e_loc S) x d)).
Proof.
  intros H Ie Jy.
  destruct (evolution_step_cases cfg T sem S es H) as [C | (h & cs0 & tm & cs & F)].
  { destruct (C _ Ie) as (P & E & _). discriminate. }
  destruct F as [Fh Hh _ _ CS TS _ F].
  remember (Append J true) as e eqn:Ee.
  destruct (step_origin S h sem tm T cs es F e Ie) as [P Ef FE | P Ef FR | P Ef FE | P Ef FE Bd | P Ef FR | P Ef FR | tc J' FJ]; try discriminate.
  injection Ee as <-. destruct Jy as (x & t & d & Jd & -> & ->).
  destruct (from_jump_sub S h sem tm T cs tc J' x t d FJ Jd) as [Pd By].
  assert (Le : t + d <= T) by (destruct By as [Sb | Le]; [apply (surely_by_sound T _ x t d Sb Pd) | exact Le]).
  destruct FJ as (Itc & Act & _). pose proof (CS tc (proj1 TS tc Itc)) as C. destruct tc as [tr c]. cbn [fst snd] in *.
  pose proof (proj1 C) as Itr. cbn [fst] in Itr.
  exists tr, x, t, d. split; [exact Itr |]. split; [destruct (tr_kind tr); try discriminate; unfold jumps; tauto |].
  split; [reflexivity | split; [reflexivity |]].
  unfold guard_step in Pd. fold (HybridEvolver_Model.phi sys S x d). destruct C as [_ C]. cbn [fst snd] in C.
  (* the set before the constraint of an impact *)
  set (js := match c with
      | Transverse gamma => ((fun x t d => e_set S x t /\ d = gamma x /\ (if t_constant tm then True else d <= t_evolution tm x t)) : pset X, true)
      | Increasing | Convex => (constrain (reach_set S h tm) (fun x t d => tr_guard tr (HybridEvolver_Model.phi sys S x d) = 0), true)
      | Grazing _ _ | Concave =>
        (constrain (constrain (reach_set S h tm) (fun x t d => tr_guard tr (HybridEvolver_Model.phi sys S x d) = 0)) (fun x t d => - tr_lie tr (HybridEvolver_Model.phi sys S x d) <= 0), true)
      | Degenerate =>
        match sem with
        | UPPER => (constrain (constrain (reach_set S h tm) (fun x t d => tr_guard tr (HybridEvolver_Model.phi sys S x d) = 0)) (fun x t d => - tr_lie tr (HybridEvolver_Model.phi sys S x d) <= 0), true)
        | LOWER => (lift (fun x t => e_set S x t /\ tr_guard tr x * 0 + 1 <= 0), false)
        end
      | Decreasing => (lift (e_set S), false)
      end) in *.
  assert (JS : fst js x t d -> e_set S x t /\ 0 <= d /\
    ((forall h, flow_step o S = Some h -> exists x t d, e_set S x t /\ 0 <= d <= h /\ 0 <= tr_lie tr (flow sys (e_loc S) x d)) -> 0 <= tr_guard tr (HybridEvolver_Model.phi sys S x d))).
  { unfold js. destruct c as [gamma | | | | | | mu pos]; cbn [fst].
    - intros (Sx & -> & _). split; [exact Sx |]. destruct (C x t Sx) as (G0 & Gz & _). split; [exact G0 |]. intros _. unfold u in Gz. rewrite Gz. lra.
    - intros [(Sx & Bd & _) G]. split; [exact Sx | split; [lra | intros _; rewrite G; lra]].
    - intros (-> & Sx). split; [exact Sx | split; [lra |]]. intros NH. exfalso. destruct (NH h Fh) as (x' & t' & d' & Sx' & Bd & Lie).
      specialize (C x' t' Sx' d' Bd). unfold du, HybridEvolver_Model.phi in C. lra.
    - intros [(Sx & Bd & _) G]. split; [exact Sx | split; [lra | intros _; rewrite G; lra]].
    - intros [[(Sx & Bd & _) G] _]. split; [exact Sx | split; [lra | intros _; rewrite G; lra]].
    - destruct sem; cbn [fst].
      + intros (_ & _ & F1). exfalso. rewrite Rmult_0_r in F1. lra.
      + intros [[(Sx & Bd & _) G] _]. split; [exact Sx | split; [lra | intros _; rewrite G; lra]].
    - intros [[(Sx & Bd & _) G] _]. split; [exact Sx | split; [lra | intros _; rewrite G; lra]]. }
  assert (K : fst js x t d /\ tr_kind tr <> IMPACT \/ fst js x t d /\ 0 <= tr_lie tr (HybridEvolver_Model.phi sys S x d) \/ (reach_set S h tm x t d /\ 0 <= tr_guard tr (HybridEvolver_Model.phi sys S x d) /\ tr_kind tr = PERMISSIVE)).
  { destruct (tr_kind tr); try (left; split; [exact Pd | discriminate]).
    - right. right. destruct Pd as [P1 P2]. split; [exact P1 | split; [exact P2 | reflexivity]].
    - right. left. exact Pd. }
  destruct K as [[Q NI] | [[Q NI] | ((Sx & Bd & _) & G & Kp)]].
  - destruct (JS Q) as (Sx & D0 & G). split; [exact Sx |]. do 4 (split; [first [exact D0 | reflexivity | exact Le] |]). split; [intros; contradiction | exact G].
  - destruct (JS Q) as (Sx & D0 & G). split; [exact Sx |]. do 4 (split; [first [exact D0 | reflexivity | exact Le] |]). split; [intros; exact NI | exact G].
  - split; [exact Sx |]. do 4 (split; [first [apply Bd | reflexivity | exact Le] |]). split; [rewrite Kp; discriminate | intros _; exact G].
Qed.
End EX.
