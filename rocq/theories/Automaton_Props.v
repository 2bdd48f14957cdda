(** Properties C84 - C93: hybrid automata and their composition. *)
From Coq Require Import List Bool Arith Lia Sorted Permutation ZArith Reals Lra.
From Verif Require Import Logical_Model Expr_Model Expr_Spec Expr_Proofs Expr_Props LRU_Model LRU_Spec LRU_Proofs
  Automaton_Model Automaton_Spec Automaton_Proofs Automaton_Build_Proofs Automaton_Sort_Proofs Automaton_Comp_Proofs Automaton_Check_Proofs.
Import ListNotations.
Open Scope nat_scope.

(** * C84: locations *)

(** Two locations compare equal when they are the same, unequal when some variable has
    different values; otherwise the comparison throws. *)
Theorem C84_equality : forall q1 q2, wf_map q1 -> wf_map q2 ->
  (loc_eq q1 q2 = Some true <-> q1 = q2) /\ (loc_eq q1 q2 = Some false <-> differ q1 q2) /\
  (loc_eq q1 q2 = None <-> q1 <> q2 /\ ~ differ q1 q2).
Proof.
  intros q1 q2 W1 W2. pose proof (loc_eq_go_spec q1 q2 true W1 W2) as H.
  assert (D : differ q1 q2 -> q1 <> q2).
  { intros D ->. eapply (within_differ q2 q2 q2 W2); eauto; intros k v; auto. }
  unfold loc_eq in *. destruct (loc_eq_go q1 q2 true) as [[|]|].
  - destruct H as [_ H]. split; [ tauto | ]. split; (split; [ discriminate | ]); [ intros Q; now apply D in Q | tauto ].
  - pose proof (D H). split; [ split; [ discriminate | contradiction ] | ]. split; [ tauto | split; [ discriminate | tauto ] ].
  - destruct H as [H1 H2]. assert (N : q1 <> q2) by (destruct H1; [ discriminate | assumption ]).
    split; [ split; [ discriminate | contradiction ] | ]. split; [ split; [ discriminate | contradiction ] | tauto ].
Qed.
Print Assumptions C84_equality.

(** [<] is a strict total order, also of locations with different variables. *)
Theorem C84_order : (forall q, loc_lt q q = false) /\
  (forall q1 q2 q3, loc_lt q1 q2 = true -> loc_lt q2 q3 = true -> loc_lt q1 q3 = true) /\
  (forall q1 q2, loc_lt q1 q2 = true \/ q1 = q2 \/ loc_lt q2 q1 = true).
Proof.
  split; [ apply loc_lt_irrefl | ]. split; [ intros; eapply loc_lt_trans; eauto | ]. intros q1 q2.
  destruct (loc_lt q1 q2) eqn:E1; [ auto | ]. destruct (loc_lt q2 q1) eqn:E2; [ auto | ]. right. left. now apply loc_lt_total.
Qed.
Print Assumptions C84_order.

Theorem C84_queries : forall q1 q2, wf_map q1 -> wf_map q2 ->
  (are_distinguishable q1 q2 = true <-> differ q1 q2) /\ (is_restriction q1 q2 = true <-> within q1 q2) /\ (are_same q1 q2 = true <-> q1 = q2).
Proof.
  intros q1 q2 W1 W2. split; [ now apply distinguishable_spec | ]. split; [ now apply restriction_spec | apply are_same_eq ].
Qed.
Print Assumptions C84_queries.

(** The join of two locations has the variables of both; where they differ, the value of the first. *)
Theorem C84_join : forall q1 q2, wf_map q1 -> wf_map q2 ->
  wf_map (join_loc q1 q2) /\ within q1 (join_loc q1 q2) /\
  (forall k v, In (k, v) (join_loc q1 q2) <-> In (k, v) q1 \/ (In (k, v) q2 /\ ~ In k (map fst q1))) /\
  (~ differ q1 q2 -> within q2 (join_loc q1 q2)).
Proof.
  intros q1 q2 W1 W2. assert (J : forall k v, In (k, v) (join_loc q1 q2) <-> In (k, v) q1 \/ (In (k, v) q2 /\ ~ In k (map fst q1))).
  { intros k v. apply (nadjoin_in q1 q2 (k, v) W1 W2). }
  split; [ now apply join_wf | ]. split; [ intros k v H; apply J; auto | ]. split; [ exact J | ].
  intros D k v H. apply J. destruct (in_dec Nat.eq_dec k (map fst q1)) as [I|I]; [ left | auto ]. apply keys_in in I as (v' & I).
  destruct (Nat.eq_dec v' v) as [->|N]; [ exact I | ]. exfalso. apply D. exists k, v', v. auto.
Qed.
Print Assumptions C84_join.

(** Restricting a location to some of its variables is to keep those variables.  It fails
    instead, whenever there is a variable to drop. *)
Theorem C84_restrict_refuted :
  (exists q vars, wf_map q /\ NoDup vars /\ restrict_loc q vars = None) /\
  forall q vars k, In k (map fst q) -> ~ In k vars -> restrict_loc q vars = None.
Proof.
  assert (G : forall q vars k, In k (map fst q) -> ~ In k vars -> restrict_loc q vars = None).
  { intros q vars k H N. unfold restrict_loc. destruct (subset (nkeys q) vars) eqn:S; [ | reflexivity ]. apply subset_incl in S. exfalso. apply N. now apply S. }
  split; [ | exact G ]. exists [(0, 5); (1, 7)], [0]. split; [ | split ].
  - apply wf_cons. split; [ intros k v [E|[]]; injection E as <- _; lia | ]. apply wf_cons. split; [ intros k v [] | constructor ].
  - repeat constructor; simpl; tauto.
  - reflexivity.
Qed.
Print Assumptions C84_restrict_refuted.
(** Partial: it is right when there is nothing to drop. *)
Theorem C84_restrict_partial : forall q vars, incl (map fst q) vars -> restrict_loc q vars = Some q.
Proof.
  intros q vars I. unfold restrict_loc. rewrite (proj2 (subset_incl (nkeys q) vars) I). f_equal. unfold nkeys in *.
  assert (G : forall x, In x q -> mem (fst x) vars = true) by (intros x H; apply mem_in, I; now apply in_map).
  clear I. induction q as [|x q IH]; simpl; [ reflexivity | ]. rewrite (G x) by (left; reflexivity). f_equal. apply IH. intros y Hy. apply G. right. exact Hy.
Qed.
Print Assumptions C84_restrict_partial.

Example C84_nonvacuous :
  loc_eq [(0, 1); (2, 3)] [(0, 1); (2, 4)] = Some false /\ loc_eq [(0, 1); (2, 3)] [(0, 1)] = None /\
  loc_eq [(0, 1); (2, 3)] [(1, 1); (2, 4)] = Some false /\ join_loc [(0, 1); (2, 3)] [(1, 5); (2, 4)] = [(0, 1); (1, 5); (2, 3)] /\
  is_restriction [(2, 3)] [(0, 1); (2, 3)] = true /\ loc_lt [(0, 1)] [(0, 1); (2, 3)] = true.
Proof. vm_compute. repeat split; reflexivity. Qed.

(** * C85: building an automaton *)

Section BUILDING.
Context (C : RealConst).
(** Whatever calls were made, and whether they succeeded or threw: no two modes match the same
    location, and every mode is as its constructor calls said (see [mode_ok]). *)
Theorem C85_built : forall a : @automaton C, built a ->
  (forall l m1 m2, wf_map l -> mode_in a l m1 -> mode_in a l m2 -> m1 = m2) /\
  (forall l m, In (l, m) a -> mode_ok a l m).
Proof.
  intros a B. apply built_ok in B. split.
  - intros l m1 m2 W (l1 & H1 & W1) (l2 & H2 & W2). destruct (loc_dec l1 l2) as [->|N]; [ eapply ok_fun; eauto | ].
    exfalso. eapply (within_differ l1 l2 l); eauto. eapply ok_differ; eauto.
  - intros l m H. eapply ok_modes; eauto.
Qed.

(** A call never removes or changes what earlier calls added. *)
Theorem C85_extends : forall (a : @automaton C) b, built a -> wf_build b -> extends a (fst (build_step a b)).
Proof. intros a b B W. apply built_ok in B. now apply build_step_ok. Qed.

(** When a mode can be added, and what is added. *)
Theorem C85_new_mode : forall (a : @automaton C) l aux dyn, built a -> wf_map l ->
  (snd (new_mode a l aux dyn) = None <->
     (forall l' m', In (l', m') a -> differ l l') /\ NoDup (map fst aux ++ map fst dyn) /\ ~ circular aux) /\
  (snd (new_mode a l aux dyn) = None -> exists sorted, algebraic_sort aux = Ok sorted /\
     forall x, In x (fst (new_mode a l aux dyn)) <-> In x a \/ x = (l, mkMode l aux sorted dyn [] [] [] [] [])).
Proof.
  intros a l aux dyn B W. apply built_ok in B. pose proof (new_mode_cases a l aux dyn B W) as H. split.
  - split.
    + intros E. destruct (new_mode a l aux dyn) as [a' [e|]]; [ discriminate | ]. destruct H as (H1 & H2 & sorted & H3 & _). split; [ exact H1 | ]. split; [ exact H2 | ].
      assert (ND : NoDup (map fst aux)) by (clear - H2; induction (map fst aux) as [|v r IH]; [ constructor | ]; simpl in H2; inversion H2 as [|? ? Q1 Q2]; subst; constructor; [ intros X; apply Q1; apply in_or_app; auto | auto ]).
      apply sort_ok in H3 as [P O]; [ | exact ND ]. now apply (circular_not_ordered aux ND sorted).
    + intros (H1 & H2 & H3). unfold new_mode. destruct (existsb _ a) eqn:E.
      * apply existsb_exists in E as ([l' m'] & Hl & E). apply negb_true_iff in E. cbn [fst] in E. rewrite (proj2 (distinguishable_spec l l' (ok_wf _ B _ _ Hl)) (H1 _ _ Hl)) in E. discriminate.
      * unfold twice_defined. apply unique_nodup in H2. rewrite H2. simpl. apply unique_nodup in H2. destruct (algebraic_sort aux) as [s|e] eqn:S; [ reflexivity | ].
        exfalso. apply H3. eapply sort_throws; [ | exact S ]. clear - H2. induction (map fst aux) as [|v r IH]; [ constructor | ]. simpl in H2. inversion H2 as [|? ? Q1 Q2]; subst. constructor; [ intros X; apply Q1; apply in_or_app; auto | auto ].
  - intros E. destruct (new_mode a l aux dyn) as [a' [e|]]; [ discriminate | ]. destruct H as (H1 & H2 & sorted & H3 & -> & H4). exists sorted. split; [ exact H3 | ].
    intros x. simpl fst. rewrite minsert_in; [ | apply loc_lt_irrefl | apply loc_lt_trans | apply loc_lt_total | apply B ]. unfold new_record. intuition.
Qed.

(** A successful call adds the transition to the mode of its source. *)
Theorem C85_new_transition : forall (a : @automaton C) src e tgt rst grd k, built a -> snd (new_transition a src e tgt rst grd k) = None ->
  exists m m', In (src, m) a /\ In (src, m') (fst (new_transition a src e tgt rst grd k)) /\ mode_extends m m' /\ (exists tm, In (tgt, tm) a) /\
    In (e, grd) (m_guards m') /\ In (e, k) (m_kinds m') /\ In (e, tgt) (m_targets m') /\ In (e, rst) (m_resets m') /\
    (k = URGENT \/ k = IMPACT -> In (e, KNot grd) (m_invariants m')) /\
    (forall l m0, l <> src -> (In (l, m0) (fst (new_transition a src e tgt rst grd k)) <-> In (l, m0) a)).
Proof.
  intros a src e tgt rst grd k B. apply built_ok in B. unfold new_transition.
  set (inv := match k with URGENT | IMPACT => Some (KNot grd) | _ => None end).
  set (r := match k with URGENT | IMPACT => _ | PERMISSIVE => _ | _ => _ end).
  assert (R : snd r = None -> k <> INVARIANT /\ k <> PROGRESS /\ r = new_constraint a src inv (Some grd) e k).
  { unfold r, inv. destruct k; simpl; intros E; try discriminate; repeat split; try discriminate; reflexivity. }
  destruct (snd r) eqn:Er; [ intros E; congruence | ]. destruct (R eq_refl) as (_ & _ & Rr). intros E.
  pose proof (new_constraint_cases a src inv (Some grd) e k B) as K. rewrite <- Rr in K. destruct r as [a1 er]. simpl in Er, E, Rr. subst er. destruct K as (m & Hm & He & ->).
  set (a1 := mupdate loc_lt src (add_constraint inv (Some grd) e k) a) in *.
  assert (O1 : ok a1). { pose proof (new_constraint_ok a src inv (Some grd) e k) as Q. rewrite <- Rr in Q. apply Q; [ right; discriminate | exact B ]. }
  simpl fst. pose proof (new_update_cases a1 src e tgt rst O1) as K. destruct (new_update a1 src e tgt rst) as [a2 er]. simpl in E |- *. subst er.
  destruct K as (sm & tm & Hs & Ht & Hnt & Hn & Hd & ->).
  pose proof (ok_maps _ B _ _ Hm) as Wm. destruct Wm as (W1 & W2 & W3 & W4 & W5).
  assert (Es : sm = add_constraint inv (Some grd) e k m).
  { unfold a1 in Hs. apply (mupdate_in' _ _ _ _ B) in Hs as [[_ Q]|(m1 & Hm1 & Q)]; [ simpl in Q; congruence | ]. injection Q as ->. rewrite (ok_fun a src m1 m B Hm1 Hm). reflexivity. }
  assert (Wk : wf_map (m_kinds sm) /\ wf_map (m_guards sm) /\ wf_map (m_invariants sm) /\ wf_map (m_targets sm) /\ wf_map (m_resets sm)).
  { destruct (ok_maps _ O1 _ _ Hs) as (Q1 & Q2 & Q3 & Q4 & Q5). repeat split; assumption. }
  destruct Wk as (V1 & V2 & V3 & V4 & V5).
  exists m, (add_update e tgt rst sm). split; [ exact Hm | ]. split; [ | split; [ | split; [ | split; [ | split; [ | split; [ | split; [ | split ] ] ] ] ] ] ].
  - apply mupdate_in'; [ exact O1 | ]. right. eauto.
  - eapply mode_extends_trans; [ apply (add_constraint_extends inv (Some grd) e k m); repeat split; assumption | ]. rewrite <- Es. apply add_update_extends. eapply ok_maps; eauto.
  - unfold a1 in Ht. apply (mupdate_in' _ _ _ _ B) in Ht as [[Q _]|(m1 & Hm1 & Q)]; [ eauto | ]. injection Q as -> _. eauto.
  - rewrite Es. simpl. apply ninsert_in; [ exact W2 | ]. right. split; [ reflexivity | ]. intros Q. apply He. destruct (ok_modes _ B _ _ Hm) as (_ & _ & _ & _ & _ & _ & _ & _ & K & _). apply K. auto.
  - rewrite Es. simpl. apply ninsert_in; [ exact W3 | ]. right. auto.
  - simpl. apply ninsert_in; [ exact V4 | ]. right. auto.
  - simpl. apply ninsert_in; [ exact V5 | ]. right. split; [ reflexivity | ]. intros Q. apply Hnt. destruct (ok_modes _ O1 _ _ Hs) as (_ & _ & _ & _ & _ & _ & _ & _ & _ & K & _). now apply K.
  - intros Hk. rewrite Es. assert (Ei : inv = Some (KNot grd)) by (unfold inv; destruct Hk as [-> | ->]; reflexivity). rewrite Ei. simpl. apply ninsert_in; [ exact W1 | ].
    right. split; [ reflexivity | ]. intros Q. apply He. destruct (ok_modes _ B _ _ Hm) as (_ & _ & _ & _ & _ & _ & _ & _ & K & _). apply K. auto.
  - intros l m0 Nl. rewrite mupdate_in' by exact O1. unfold a1. rewrite mupdate_in' by exact B. simpl. split.
    + intros [[[[Q _]|(m1 & _ & Q)] _]|(m1 & _ & Q)]; [ exact Q | injection Q as -> _; congruence | injection Q as -> _; congruence ].
    + intros Q. left. split; [ | exact Nl ]. left. auto.
Qed.

(** Partial: a call which throws changes nothing, unless it is new_transition. *)
Theorem C85_failed_partial : forall (a : @automaton C) b er, built a -> wf_build b ->
  (forall src e tgt rst grd k, b <> NewTransition src e tgt rst grd k) -> snd (build_step a b) = Some er -> fst (build_step a b) = a.
Proof.
  intros a b er B W N E. apply built_ok in B. destruct b; simpl in *.
  - pose proof (new_mode_cases a l aux dyn B (W l (or_introl eq_refl))) as H. destruct (new_mode a l aux dyn) as [a' [x|]]; [ exact H | discriminate ].
  - pose proof (new_constraint_cases a l (Some inv) None e INVARIANT B) as H. unfold new_invariant in *. destruct (new_constraint a l (Some inv) None e INVARIANT) as [a' [x|]]; [ exact H | discriminate ].
  - pose proof (new_constraint_cases a l None (Some grd) e k B) as H. unfold new_guard in *. destruct (new_constraint a l None (Some grd) e k) as [a' [x|]]; [ exact H | discriminate ].
  - pose proof (new_constraint_cases a l (Some inv) (Some grd) e k B) as H. unfold new_action in *. destruct (new_constraint a l (Some inv) (Some grd) e k) as [a' [x|]]; [ exact H | discriminate ].
  - pose proof (new_update_cases a src e tgt rst B) as H. destruct (new_update a src e tgt rst) as [a' [x|]]; [ exact H | discriminate ].
  - exfalso. eapply N. reflexivity.
Qed.
End BUILDING.
Print Assumptions C85_built.
Print Assumptions C85_extends.
Print Assumptions C85_new_mode.
Print Assumptions C85_new_transition.
Print Assumptions C85_failed_partial.

(** An automaton used below: a switch [0] with two positions; in position 1 the variable x is
    driven through the auxiliary variable y. *)
Definition off : loc := [(0, 0)].
Definition on : loc := [(0, 1)].
Definition heater : @automaton sym_reals := build_all
  [ NewMode off [] [(0, Un Neg sx)];
    NewMode on [(1, Bin Add sx (snum 2))] [(0, Bin Mul sy sy)];
    NewTransition off 7 on [(0, sx)] (KCmp Leq sx (snum 1)) URGENT;
    NewTransition on 8 off [(0, sx)] (KCmp Geq sx (snum 5)) PERMISSIVE;
    NewInvariant on (KCmp Leq sx (snum 6)) 9 ].
Lemma wf_single k v : @wf_map nat [(k, v)].
Proof. repeat constructor. Qed.
Lemma heater_built : built heater.
Proof.
  eexists. split; [ | reflexivity ]. intros b Hb l Hl. simpl in Hb.
  repeat (destruct Hb as [<-|Hb]; [ simpl in Hl; repeat (destruct Hl as [<-|Hl]; [ apply wf_single | ]); contradiction | ]). contradiction.
Qed.

(** A transition to a location which does not exist yet throws, but leaves its guard in the
    mode: adding the mode and trying again throws another exception, and the transition can
    never be added. *)
Theorem C85_failed_refuted : exists (a : @automaton sym_reals) src e tgt rst grd k, built a /\
  snd (new_transition a src e tgt rst grd k) = Some NonExistentMode /\ fst (new_transition a src e tgt rst grd k) <> a /\
  let a' := fst (new_mode (fst (new_transition a src e tgt rst grd k)) tgt [] [(0, sx)]) in
  snd (new_mode (fst (new_transition a src e tgt rst grd k)) tgt [] [(0, sx)]) = None /\
  snd (new_transition a' src e tgt rst grd k) = Some MultipleGuard /\
  snd (new_transition (fst (new_mode a tgt [] [(0, sx)])) src e tgt rst grd k) = None.
Proof.
  exists (build_all [NewMode off [] [(0, Un Neg sx)]]), off, 7, on, [(0, sx)], (KCmp Leq sx (snum 1)), URGENT. split.
  - eexists. split; [ | reflexivity ]. intros b [<-|[]] l [<-|[]]. apply wf_single.
  - split; [ reflexivity | ]. split; [ vm_compute; discriminate | ]. vm_compute. repeat split; reflexivity.
Qed.
Print Assumptions C85_failed_refuted.

Example C85_nonvacuous :
  map fst heater = [off; on] /\ has_transition heater off 7 = true /\ has_guard heater on 8 = true /\ has_invariant heater on 9 = true /\
  has_invariant heater off 7 = true /\ target heater off 7 = on /\ event_kind heater off 7 = Some URGENT /\
  snd (new_mode heater [(0, 1); (1, 1)] [] []) = Some IndistinguishableMode.
Proof. vm_compute. repeat split; reflexivity. Qed.

(** * C86: sorting algebraic equations *)
Section SORTING.
Context (C : RealConst) (val : C -> R).
(** The result has the same equations, each after those it depends on; performing them in this
    order gives the one solution of the equations. *)
Theorem C86_sort : forall (eqs sorted : list (nat * expr C)), NoDup (map fst eqs) -> algebraic_sort eqs = Ok sorted ->
  Permutation eqs sorted /\ ordered sorted /\
  (forall rho rho', perform val rho sorted = Some rho' -> solves val rho' eqs /\ agree_except (map fst eqs) rho rho') /\
  (forall rho sigma, solves val sigma eqs -> agree_except (map fst eqs) rho sigma ->
     exists rho', perform val rho sorted = Some rho' /\ forall w, rho' w = sigma w).
Proof.
  intros eqs sorted N E. destruct (sort_ok eqs N sorted E) as [P O]. split; [ exact P | ]. split; [ exact O | ].
  assert (N' : NoDup (map fst sorted)) by (eapply Permutation_NoDup; [ apply Permutation_map; exact P | exact N ]).
  assert (K : forall w, In w (map fst eqs) <-> In w (map fst sorted)) by (intros w; split; apply Permutation_in, Permutation_map; auto using Permutation_sym).
  pose proof (ordered_fresh sorted N' O) as F. split.
  - intros rho rho' Q. destruct (perform_solves val sorted rho rho' N' F Q) as [S A]. split.
    + intros v s H. apply S. eapply Permutation_in; eauto.
    + intros w H. apply A. rewrite <- K. exact H.
  - intros rho sigma S A. apply perform_complete; auto.
    + intros v s H. apply S. eapply Permutation_in; [ apply Permutation_sym; exact P | exact H ].
    + intros w H. apply A. rewrite K. exact H.
Qed.
(** It throws exactly when there is a circle. *)
Theorem C86_fails : forall eqs : list (nat * expr C), NoDup (map fst eqs) ->
  ((exists e, algebraic_sort eqs = Throw e) <-> circular eqs).
Proof.
  intros eqs N. split.
  - intros (e & E). eapply sort_throws; eauto.
  - intros Q. destruct (algebraic_sort eqs) as [s|e] eqn:E; [ | eauto ]. apply sort_ok in E as [P O]; [ | exact N ]. exfalso. eapply circular_not_ordered; eauto.
Qed.
End SORTING.
Print Assumptions C86_sort.
Print Assumptions C86_fails.

(** A circle is to be reported as an AlgebraicLoopError.  It is, if no equation can be sorted; otherwise an assertion fails. *)
Theorem C86_error_refuted : exists eqs : list (nat * expr sym_reals), NoDup (map fst eqs) /\ circular eqs /\ algebraic_sort eqs = Throw AssertFailure.
Proof.
  exists [(0, Var 1); (1, Var 0); (2, snum 3)]. split; [ repeat constructor; simpl; intuition discriminate | ]. split; [ | reflexivity ].
  exists [0; 1]. split; [ discriminate | ]. intros v [<-|[<-|[]]].
  - exists (Var 1), 1. simpl. auto.
  - exists (Var 0), 0. simpl. auto.
Qed.
Print Assumptions C86_error_refuted.
Example C86_nonvacuous :
  algebraic_sort (C := sym_reals) [(2, Bin Add (Var 1) (Var 0)); (1, Un Neg (Var 0)); (3, Bin Mul (Var 2) (Var 1))] =
    Ok [(1, Un Neg (Var 0)); (2, Bin Add (Var 1) (Var 0)); (3, Bin Mul (Var 2) (Var 1))] /\
  algebraic_sort (C := sym_reals) [(1, Var 2); (2, Var 1)] = Throw AlgebraicLoop.
Proof. vm_compute. split; reflexivity. Qed.

(** * C87: dynamic and auxiliary functions *)
Section FUNCTIONS.
Context (C : RealConst) (val : C -> R).
Hypothesis CS : consts_sound val.

Lemma sorted_solves (m : @mode C) (a : @automaton C) l rho : ok a -> In (l, m) a -> solves val rho (m_auxiliary m) -> solves val rho (m_sorted m) /\ NoDup (map fst (m_sorted m)) /\ NoDup (map fst (m_dynamic m)) /\ NoDup (map fst (m_auxiliary m)).
Proof using.
  intros O H S. destruct (ok_modes _ O _ _ H) as (_ & N & E & _).
  assert (NA : NoDup (map fst (m_auxiliary m)) /\ NoDup (map fst (m_dynamic m))).
  { clear - N. induction (map fst (m_auxiliary m)) as [|v r IH]; simpl in N; [ split; [ constructor | exact N ] | ]. inversion N as [|? ? Q1 Q2]; subst. destruct (IH Q2). split; [ constructor; [ intros X; apply Q1; apply in_or_app; auto | auto ] | auto ]. }
  destruct NA as [NA ND]. apply sort_ok in E as [P _]; [ | exact NA ]. split; [ | split; [ | split; assumption ] ].
  - intros v s Q. apply S. eapply Permutation_in; [ apply Permutation_sym; exact P | exact Q ].
  - eapply Permutation_NoDup; [ apply Permutation_map; exact P | exact NA ].
Qed.

(** If the function is made, its value at the state variables, in any state where the auxiliary
    equations hold, is the derivative the equations of the mode say. *)
Theorem C87_dynamic_function : forall (a : @automaton C) l m f rho, built a -> wf_map l -> mode_in a l m ->
  dynamic_function a l = Some f -> solves val rho (m_auxiliary m) ->
  fn_space f = map fst (m_dynamic m) /\
  forall v rhs y, In (v, rhs) (m_dynamic m) -> eval val rho rhs = Some y -> gives val f (map fst (m_dynamic m)) rho v y.
Proof using CS.
  intros a l m f rho B W M E S. apply built_ok in B. destruct M as (l' & Hl & Hw). destruct (sorted_solves m a l' rho B Hl S) as (S' & _ & ND & _).
  unfold dynamic_function in E. rewrite (mode_at_in a l l' m B W Hl Hw) in E. unfold make_dynamic_function in E.
  destruct (set_results _ _ _ _) as [es|] eqn:R; [ | discriminate ]. split.
  - apply make_function_spec in E as (_ & -> & _). reflexivity.
  - eapply results_give; eauto.
Qed.
(** The same for the auxiliary variables, at their places in the sorted space. *)
Theorem C87_auxiliary_function : forall (a : @automaton C) l m f rho, built a -> wf_map l -> mode_in a l m ->
  auxiliary_function a l = Some f -> solves val rho (m_auxiliary m) ->
  forall v rhs, In (v, rhs) (m_auxiliary m) -> gives val f (map fst (m_sorted m)) rho v (rho v).
Proof using CS.
  intros a l m f rho B W M E S v rhs H. apply built_ok in B. destruct M as (l' & Hl & Hw). destruct (sorted_solves m a l' rho B Hl S) as (S' & NS & ND & NA).
  unfold auxiliary_function in E. rewrite (mode_at_in a l l' m B W Hl Hw) in E. unfold make_auxiliary_function in E.
  destruct (algebraic_sort (m_sorted m)) as [s2|] eqn:Q; [ | discriminate ]. destruct (set_results _ _ _ _) as [es|] eqn:R; [ | discriminate ].
  destruct (unique _ && unique _); [ | discriminate ]. apply sort_ok in Q as [P2 _]; [ | exact NS ].
  assert (N2 : NoDup (map fst s2)) by (eapply Permutation_NoDup; [ apply Permutation_map; exact P2 | exact NS ]).
  assert (S2 : solves val rho s2) by (intros v' r' X; apply S'; eapply Permutation_in; [ apply Permutation_sym; exact P2 | exact X ]).
  assert (PA : Permutation (m_auxiliary m) (m_sorted m)). { destruct (ok_modes _ B _ _ Hl) as (_ & _ & X & _). apply sort_ok in X; tauto. }
  apply (results_give val CS _ _ s2 s2 _ es f rho N2 R E S2 v rhs (rho v)); [ | now apply S ].
  eapply Permutation_in; [ exact P2 | ]. eapply Permutation_in; [ exact PA | exact H ].
Qed.

(** The functions of a composition: the state variables of the components in order. *)
Lemma c_aux_solves (c : @composite C) l aux rho : (forall a, In a c -> ok a) -> wf_map l -> c_auxiliary_assignments c l = Some aux ->
  (forall a m, In a c -> mode_in a l m -> solves val rho (m_auxiliary m)) -> solves val rho aux.
Proof using.
  intros O W E S v s H. apply concat_some_in in E as [_ E]. apply E in H as (a & ys & Ha & Ey & H). unfold auxiliary_assignments in Ey.
  destruct (mode_at a l) as [m|] eqn:Em; [ | discriminate ]. injection Ey as <-. eapply S; [ exact Ha | apply mode_at_some; eauto | exact H ].
Qed.
Theorem C87_composite_dynamic_function : forall (c : @composite C) l f sv rho, (forall a, In a c -> built a) -> wf_map l ->
  c_dynamic_function c l = Some f -> c_state_variables c l = Some sv ->
  (forall a m, In a c -> mode_in a l m -> solves val rho (m_auxiliary m)) ->
  fn_space f = sv /\ NoDup sv /\ (forall v, In v sv <-> exists a m, In a c /\ mode_in a l m /\ In v (map fst (m_dynamic m))) /\
  forall a m v rhs y, In a c -> mode_in a l m -> In (v, rhs) (m_dynamic m) -> eval val rho rhs = Some y -> gives val f sv rho v y.
Proof using CS.
  intros c l f sv rho B W E SV S. assert (O : forall a, In a c -> ok a) by (intros; apply built_ok; auto).
  unfold c_dynamic_function in E. rewrite SV in E. destruct (c_auxiliary_assignments c l) as [aux|] eqn:EA; [ | discriminate ].
  destruct (c_dynamic_assignments c l) as [dyn|] eqn:ED; [ | discriminate ]. destruct (unique sv) eqn:U; [ | discriminate ]. apply unique_nodup in U.
  assert (SD : sv = map fst dyn) by (rewrite c_state_dynamic, ED in SV; simpl in SV; congruence).
  unfold make_dynamic_function in E. destruct (set_results _ _ _ _) as [es|] eqn:R; [ | discriminate ].
  pose proof (c_aux_solves c l aux rho O W EA S) as SA. apply concat_some_in in ED as [_ ED].
  assert (DI : forall x, In x dyn <-> exists a m, In a c /\ mode_in a l m /\ In x (m_dynamic m)).
  { intros x. rewrite ED. unfold dynamic_assignments. split.
    - intros (a & ys & Ha & Ey & H). destruct (mode_at a l) as [m|] eqn:Em; [ | discriminate ]. injection Ey as <-. exists a, m. split; [ exact Ha | ]. split; [ now apply mode_at_some | exact H ].
    - intros (a & m & Ha & Hm & H). apply mode_at_in_iff in Hm; auto. exists a, (m_dynamic m). rewrite Hm. auto. }
  split; [ apply make_function_spec in E as (_ & -> & _); reflexivity | ]. split; [ exact U | ]. split.
  - intros v. subst sv. rewrite keys_in. split.
    + intros (x & Hx). apply DI in Hx as (a & m & Ha & Hm & H). exists a, m. split; [ exact Ha | ]. split; [ exact Hm | apply keys_in; eauto ].
    + intros (a & m & Ha & Hm & H). apply keys_in in H as (x & H). exists x. apply DI. eauto.
  - intros a m v rhs y Ha Hm H Ey. subst sv. eapply results_give; eauto. apply DI. eauto.
Qed.
Theorem C87_composite_auxiliary_function : forall (c : @composite C) l f aux sorted rho, (forall a, In a c -> built a) -> wf_map l ->
  c_auxiliary_function c l = Some f -> c_auxiliary_assignments c l = Some aux -> NoDup (map fst aux) -> algebraic_sort aux = Ok sorted ->
  (forall a m, In a c -> mode_in a l m -> solves val rho (m_auxiliary m)) ->
  forall a m v rhs, In a c -> mode_in a l m -> In (v, rhs) (m_auxiliary m) -> gives val f (map fst sorted) rho v (rho v).
Proof using CS.
  intros c l f aux sorted rho B W E EA NA ES S a m v rhs Ha Hm H. assert (O : forall a, In a c -> ok a) by (intros; apply built_ok; auto).
  pose proof (c_aux_solves c l aux rho O W EA S) as SA.
  unfold c_auxiliary_function in E. rewrite EA, ES in E. destruct (c_state_variables c l) as [sv|]; [ | discriminate ].
  apply sort_ok in ES as [P _]; [ | exact NA ].
  assert (NS : NoDup (map fst sorted)) by (eapply Permutation_NoDup; [ apply Permutation_map; exact P | exact NA ]).
  unfold make_auxiliary_function in E. destruct (algebraic_sort sorted) as [s2|] eqn:Q; [ | discriminate ]. destruct (set_results _ _ _ _) as [es|] eqn:R; [ | discriminate ].
  destruct (unique _ && unique _); [ | discriminate ]. apply sort_ok in Q as [P2 _]; [ | exact NS ].
  assert (N2 : NoDup (map fst s2)) by (eapply Permutation_NoDup; [ apply Permutation_map; exact P2 | exact NS ]).
  assert (PP : forall x, In x s2 <-> In x aux). { intros x. split; intros X; [ eapply Permutation_in; [ apply Permutation_sym; exact P | eapply Permutation_in; [ apply Permutation_sym; exact P2 | exact X ] ] | eapply Permutation_in; [ exact P2 | eapply Permutation_in; [ exact P | exact X ] ] ]. }
  assert (S2 : solves val rho s2) by (intros v' r' X; apply SA, PP; exact X).
  apply (results_give val CS _ _ s2 s2 _ es f rho N2 R E S2 v rhs (rho v)); [ | eapply S; eauto ].
  apply PP. apply concat_some_in in EA as [_ EA]. apply EA. apply mode_at_in_iff in Hm; auto. exists a, (m_auxiliary m). unfold auxiliary_assignments. rewrite Hm. auto.
Qed.

(** Partial: the dynamic function of a mode exists, if the mode passes check_mode and the
    equations of its auxiliary variables use only state variables. *)
Theorem C87_exists_partial : forall (a : @automaton C) l m, built a -> wf_map l -> mode_in a l m -> check_mode a l = None ->
  (forall v rhs, In (v, rhs) (m_auxiliary m) -> incl (arguments rhs) (map fst (m_dynamic m))) ->
  exists f, dynamic_function a l = Some f.
Proof using val.
  intros a l m B W M K H. apply built_ok in B. pose proof M as M'. apply mode_at_in_iff in M'; auto. rewrite (check_mode_spec a l m B W M') in K.
  destruct K as (_ & K & _). destruct M as (l' & Hl & Hw). unfold dynamic_function. rewrite M'. unfold make_dynamic_function.
  destruct (ok_modes _ B _ _ Hl) as (_ & N & E & _).
  assert (NA : NoDup (map fst (m_auxiliary m)) /\ NoDup (map fst (m_dynamic m)) /\ forall v, In v (map fst (m_auxiliary m)) -> ~ In v (map fst (m_dynamic m))).
  { clear - N. induction (map fst (m_auxiliary m)) as [|v r IH]; simpl in N |- *; [ split; [ constructor | split; [ exact N | tauto ] ] | ]. inversion N as [|? ? Q1 Q2]; subst. destruct (IH Q2) as (I1 & I2 & I3).
    split; [ constructor; [ intros X; apply Q1; apply in_or_app; auto | auto ] | ]. split; [ auto | ]. intros w [<-|X]; [ intros Y; apply Q1; apply in_or_app; auto | auto ]. }
  destruct NA as (NA & ND & DJ). apply sort_ok in E as [P _]; [ | exact NA ].
  destruct (set_results_some (map fst (m_dynamic m)) (m_sorted m) (m_dynamic m) (repeat (num BinNums.Z0) (length (m_dynamic m)))) as (es & R); [ auto | rewrite repeat_length, map_length; lia | ].
  rewrite R. exists (mkFn (map fst (m_dynamic m)) es). apply make_function_some; [ exact ND | ]. intros e.
  assert (Bk : forall rhs, incl (arguments rhs) (map fst (m_dynamic m) ++ map fst (m_auxiliary m)) -> incl (arguments (subst_list rhs (m_sorted m))) (map fst (m_dynamic m))).
  { assert (HS : forall v s, In (v, s) (m_sorted m) -> incl (arguments s) (map fst (m_dynamic m))) by (intros v s X; apply (H v s); eapply Permutation_in; [ apply Permutation_sym; exact P | exact X ]).
    assert (KS : forall v, In v (map fst (m_sorted m)) <-> In v (map fst (m_auxiliary m))) by (intros v; split; apply Permutation_in, Permutation_map; auto using Permutation_sym).
    intros rhs I. apply (subst_closed val).
    - apply reverse_backward; [ eapply Permutation_NoDup; [ apply Permutation_map; exact P | exact NA ] | ]. intros p v s q Es w Hx Hs. exfalso.
      apply KS in Hs. apply (DJ w Hs). apply (HS v s); [ rewrite Es; apply in_or_app; right; left; reflexivity | exact Hx ].
    - intros w Hx. apply I in Hx. apply in_app_or in Hx as [Hx|Hx]; apply in_or_app; [ auto | right; now apply KS ].
    - intros v s X w Hx. apply in_or_app. left. eapply HS; eauto. }
  revert e. apply (set_results_all _ _ _ _ _ (fun e => incl (arguments e) (map fst (m_dynamic m))) R).
  - intros v rhs X. apply Bk. eapply K; eauto.
  - intros e X. apply repeat_spec in X. subst e. intros w [].
Qed.
End FUNCTIONS.
Print Assumptions C87_dynamic_function.
Print Assumptions C87_auxiliary_function.
Print Assumptions C87_composite_dynamic_function.
Print Assumptions C87_composite_auxiliary_function.
Print Assumptions C87_exists_partial.

(** A mode that passes check_mode should have a dynamic function.  With y=x, z=y and x'=z it has
    none: the equations are substituted in the wrong order.  A composition substitutes in the
    order in which they were written: the same equations fail in this order, and succeed in
    the other. *)
Definition chain (aux : list (nat * sexpr)) : @automaton sym_reals := build_all [ NewMode off aux [(0, Var 2)] ].
Theorem C87_exists_refuted :
  let y := (1, sx) in let z := (2, sy) in
  (built (chain [y; z]) /\ check_mode (chain [y; z]) off = None /\ dynamic_function (chain [y; z]) off = None) /\
  (check_mode (chain [z; y]) off = None /\ dynamic_function (chain [z; y]) off = None) /\
  (c_check_mode [0] [chain [y; z]] off = None /\ c_dynamic_function [chain [y; z]] off = None) /\
  (c_check_mode [0] [chain [z; y]] off = None /\ c_dynamic_function [chain [z; y]] off <> None).
Proof.
  cbv zeta. split; [ split; [ | vm_compute; split; reflexivity ] | ].
  - eexists. split; [ | reflexivity ]. intros b [<-|[]] l [<-|[]]. apply wf_single.
  - split; [ vm_compute; split; reflexivity | ]. split; [ vm_compute; split; reflexivity | ]. vm_compute. split; [ reflexivity | discriminate ].
Qed.
Print Assumptions C87_exists_refuted.
Example C87_nonvacuous : exists f m, dynamic_function heater on = Some f /\ mode_in heater on m /\ check_mode heater on = None /\
  solves sval (at_xy 3 5) (m_auxiliary m) /\ gives sval f [0] (at_xy 3 5) 0 25%R.
Proof.
  assert (M : exists m, mode_at heater on = Some m /\ m_auxiliary m = [(1, Bin Add sx (snum 2))]) by (eexists; split; reflexivity).
  destruct M as (m & M & A). do 2 eexists. split; [ reflexivity | ]. split; [ apply mode_at_some; [ apply wf_single | exact M ] | ]. split; [ reflexivity | ].
  rewrite A. split.
  - intros v s [E|[]]. injection E as <- <-. simpl. f_equal. unfold sval. simpl. lra.
  - exists 0. eexists. split; [ reflexivity | ]. split; [ reflexivity | ]. intros sigma G. simpl in G. simpl.
    rewrite (G 0) by (left; reflexivity). f_equal. unfold at_xy, sval. simpl. lra.
Qed.
