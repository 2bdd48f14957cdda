(** Proofs that a step of the hybrid evolver is performed for systems with convex guards. *)
From Coq Require Import List Bool Arith Reals Lra Lia.
From Coquelicot Require Import Coquelicot.
From Verif Require Import Automaton_Model Evolver_Model HybridEvolver_Model HybridEvolver_Spec.
Import ListNotations.
Local Open Scope R_scope.

Section TOTAL.
Context {L X : Type}.
Variables (sys : system L X) (o : oracles L X).
Hypothesis SO : sound sys o.
Hypothesis CV : forall l tr, In tr (transitions sys l) -> forall x, 0 <= tr_lie2 tr x.
Hypothesis IG : increasing_guards sys.

(** Crossings which add no sets, and for which the time of a jump is known *)
Definition simple_crossing (c : crossing X) : Prop := match c with Transverse _ | Increasing | Convex | Degenerate | Decreasing => True | _ => False end.
Definition good_crossing (tc : transition L X * crossing X) : Prop :=
  simple_crossing (snd tc) /\ (snd tc = Decreasing -> tr_kind (fst tc) <> URGENT /\ tr_kind (fst tc) <> IMPACT).

Lemma classify_total S h tr : 0 <= h -> (exists x t, e_set S x t) -> In tr (transitions sys (e_loc S)) ->
  exists c, classify sys o S h tr = Crossing c /\ good_crossing (tr, c).
Proof.
  intros Hh (x & t & Sx) I. unfold classify.
  pose proof (value_sound _ _ SO S h (tr_lie tr) x t 0 Sx ltac:(lra)) as V1.
  pose proof (value_sound _ _ SO S h (tr_lie2 tr) x t 0 Sx ltac:(lra)) as V2.
  pose proof (CV _ _ I (flow sys (e_loc S) x 0)) as C2.
  destruct (lower_above _ (value_range o S h (tr_lie tr))) eqn:E1.
  { destruct (implicit o S _ h); eexists; (split; [reflexivity | split; [exact Logic.I | discriminate]]). }
  destruct (upper_below _ (value_range o S h (tr_lie tr))) eqn:E2.
  { exists Decreasing. split; [reflexivity | split; [exact Logic.I |]]. intros _. cbn [fst].
    destruct (value_range o S h (tr_lie tr)) as [[lo hi] |]; cbn in E2; try discriminate. cbn in V1.
    unfold Rltb in E2. destruct (Rlt_dec hi 0) as [Lt |]; [| discriminate].
    split; intros K; pose proof (IG _ _ I) as G; rewrite K in G; [specialize (G (or_introl eq_refl)) | specialize (G (or_intror eq_refl))];
      specialize (G (flow sys (e_loc S) x 0)); lra. }
  destruct (lower_above _ (value_range o S h (tr_lie2 tr))) eqn:E3.
  { eexists; (split; [reflexivity | split; [exact Logic.I | discriminate]]). }
  destruct (upper_below _ (value_range o S h (tr_lie2 tr))) eqn:E4.
  { exfalso. destruct (value_range o S h (tr_lie2 tr)) as [[lo hi] |]; cbn in E4; try discriminate. cbn in V2.
    unfold Rltb in E4. destruct (Rlt_dec hi 0) as [Lt |]; [| discriminate]. lra. }
  eexists; (split; [reflexivity | split; [exact Logic.I | discriminate]]).
Qed.
Lemma crossings_total S h l : 0 <= h -> (exists x t, e_set S x t) -> (forall tr, In tr l -> In tr (transitions sys (e_loc S))) ->
  exists cs, compute_crossings sys o S h l = Some cs /\ List.Forall good_crossing cs.
Proof.
  intros Hh NE. induction l as [| tr l IH]; intros Q.
  - exists []. split; [reflexivity | constructor].
  - destruct IH as (cs & E & F); [intros; apply Q; right; assumption |].
    destruct (classify_total S h tr Hh NE (Q tr (or_introl eq_refl))) as (c & Ec & G).
    exists ((tr, c) :: cs). cbn [compute_crossings]. rewrite Ec, E. split; [reflexivity | constructor; assumption].
Qed.
Lemma guards_total S tcs : List.Forall good_crossing tcs -> forall cap P, exists P' : pset X, apply_guards sys o S UPPER tcs (Datatypes.S cap, [P]) = Some (Datatypes.S cap, [P']).
Proof.
  intros F. induction F as [| tc tcs [Sm _] F IH]; intros cap P; [exists P; reflexivity |].
  assert (A : exists P' : pset X, apply_guard sys o S UPPER tc (Datatypes.S cap, [P]) = Some (Datatypes.S cap, [P'])).
  { destruct tc as [tr c]. cbn [snd] in Sm. unfold apply_guard. cbn [fst snd guard_loop].
    assert (N : exists P', guard_set sys o S UPPER (tr_guard tr) c P = (P', [])) by (destruct c; try contradiction; eexists; reflexivity).
    destruct N as [P' ->]. exists P'. rewrite andb_false_r. cbn. reflexivity. }
  destruct A as [P' A]. destruct (IH cap P') as [P'' E]. exists P''. unfold apply_guards in *. cbn [fold_left]. rewrite A. exact E.
Qed.
Lemma good_filter f cs : List.Forall good_crossing cs -> List.Forall good_crossing (filter f cs).
Proof. rewrite !List.Forall_forall. intros F tc Q. apply filter_In in Q. apply F, Q. Qed.
Lemma jump_total S h tm T blocking tc : List.Forall good_crossing blocking -> good_crossing tc -> is_activating (tr_kind (fst tc)) = true ->
  exists es, jump_effects sys o S h UPPER tm T blocking tc = Some es.
Proof.
  intros F [Sm Dc] Ac. unfold jump_effects.
  assert (K : snd (guard_step sys S h UPPER tm (fst tc) (snd tc)) = true).
  { destruct tc as [tr c]. cbn [fst snd] in *. unfold guard_step. destruct (tr_kind tr) eqn:K; try discriminate; try reflexivity;
      destruct c; try contradiction; try reflexivity; exfalso; destruct (Dc eq_refl) as [D1 D2]; congruence. }
  destruct (guard_step sys S h UPPER tm (fst tc) (snd tc)) as [P ok]. cbn in K. subst ok.
  edestruct (guards_total S (filter (fun tc' => negb (Nat.eqb (tr_event (fst tc')) (tr_event (fst tc)))) blocking) (good_filter _ _ F) 0) as [P' E]. rewrite E. eauto.
Qed.
Lemma effects_total rs : (forall r : option (list (effect L X)), In r rs -> exists es, r = Some es) -> exists es, all_effects rs = Some es.
Proof.
  induction rs as [| r rs IH]; intros Q; [exists []; reflexivity |].
  destruct (Q r (or_introl eq_refl)) as [es ->]. destruct IH as [es' E]; [intros; apply Q; right; assumption |]. cbn. rewrite E. eauto.
Qed.
Lemma apply_total S h tm T cs : List.Forall good_crossing cs -> exists es, apply_evolution_step sys o S h UPPER tm T cs = Some es.
Proof.
  intros F. unfold apply_evolution_step.
  destruct (guards_total S (filter (fun tc => is_blocking (tr_kind (fst tc))) cs) (good_filter _ _ F) 0 (reach_set S h tm)) as [P1 ->].
  destruct (guards_total S (filter (fun tc => negb (delayed (snd tc))) (filter (fun tc => is_blocking (tr_kind (fst tc))) cs)) (good_filter _ _ (good_filter _ _ F)) 0 (evolve_set S tm)) as [P2 ->].
  destruct (guards_total S (filter (fun tc => delayed (snd tc)) (filter (fun tc => is_blocking (tr_kind (fst tc))) cs)) (good_filter _ _ (good_filter _ _ F)) 0 P2) as [P3 ->].
  apply effects_total. intros r [<- | Q]; [eauto |]. apply in_map_iff in Q. destruct Q as (tc & <- & Q). apply filter_In in Q.
  apply jump_total; [apply good_filter, F | rewrite List.Forall_forall in F; apply F, Q | apply Q].
Qed.

Theorem evolution_step_total cfg T S : allow_creep cfg = false -> (exists x t, e_set S x t) ->
  flow_step o S <> None -> time_range o (lift (e_set S)) <> None -> exists es, evolution_step sys o cfg T UPPER S = Some es.
Proof.
  intros NC NE Fl Tm. unfold evolution_step.
  destruct (surely_empty o _); [eauto |]. destruct (lower_above _ _); [eauto |]. destruct (_ && _); [eauto |]. destruct (_ && _); [eauto |]. destruct (_ && _); [eauto |].
  destruct (flow_step o S) as [h |] eqn:Eh; [| contradiction]. apply (step_positive _ _ SO) in Eh.
  destruct (crossings_total S h (compute_active_events sys o S h) ltac:(lra) NE) as (cs & -> & F).
  { intros tr Q. unfold compute_active_events in Q. apply filter_In in Q. apply Q. }
  unfold estimate_timing. destruct (time_range o (lift (e_set S))) as [[tl tu] |]; [| contradiction].
  destruct (temporal h (allow_creep cfg) T tl tu) as [[temp cst] fin]. rewrite NC. cbn [andb].
  destruct (_ && _); apply apply_total, F.
Qed.
End TOTAL.
