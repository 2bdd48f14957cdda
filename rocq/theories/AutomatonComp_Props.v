(** Properties C88 - C93: resets, guards, kinds of events, reachability, composition, checks. *)
From Coq Require Import List Bool Arith Lia Sorted Permutation ZArith Reals Lra.
From Verif Require Import Logical_Model Expr_Model Expr_Spec Expr_Proofs Expr_Props LRU_Model LRU_Spec LRU_Proofs
  Automaton_Model Automaton_Spec Automaton_Proofs Automaton_Build_Proofs Automaton_Sort_Proofs Automaton_Comp_Proofs Automaton_Check_Proofs Automaton_Props.
Import ListNotations.
Open Scope nat_scope.

Section FUNCTIONS.
Context (C : RealConst) (val : C -> R).
Hypothesis CS : consts_sound val.

(** * C88: reset functions *)
(** In a composition which passes check_mode: for each event, each component with a transition
    sets its variables as its reset says, the others keep their values, and every state variable of the
    target gets a value at its place. *)
Theorem C88_composite_reset : forall names (c : @composite C) src e es tgt tv f rho, (forall a, In a c -> built a) -> wf_map src ->
  c_check_mode names c src = None -> c_events c src = Some es -> In e es ->
  c_reset_function c src e = Some f -> c_target c src e = Some tgt -> c_state_variables c tgt = Some tv ->
  (forall a m, In a c -> mode_in a src m -> solves val rho (m_auxiliary m)) ->
  (forall a m r v rhs y, In a c -> mode_in a src m -> In (e, r) (m_resets m) -> In (v, rhs) r -> eval val rho rhs = Some y -> gives val f tv rho v y) /\
  (forall a m v, In a c -> mode_in a src m -> ~ In e (map fst (m_targets m)) -> In v (map fst (m_dynamic m)) -> gives val f tv rho v (rho v)) /\
  (forall v, In v tv -> exists a m, In a c /\ mode_in a src m /\
     ((exists r, In (e, r) (m_resets m) /\ In v (map fst r)) \/ (~ In e (map fst (m_targets m)) /\ In v (map fst (m_dynamic m))))).
Proof using CS.
  intros names c src e es tgt tv f rho B W K ES He F ET EV S. assert (O : forall a, In a c -> ok a) by (intros; apply built_ok; auto).
  apply c_check_parts in K as (aux & dyn & es' & EA & ED & ES' & K). cbv zeta in K. destruct K as (_ & _ & _ & _ & K).
  assert (es' = es) by congruence. subst es'. destruct (K e He) as [_ CE]. apply check_event_parts in CE as (tgt' & grd & rst & tv' & ET' & _ & ER & EV' & _ & _ & _ & _ & NR & SET).
  assert (tgt' = tgt) by congruence. subst tgt'. assert (tv' = tv) by congruence. subst tv'.
  unfold c_reset_function in F. rewrite ET, EV, EA, ER in F. destruct (c_state_variables c src) as [sv|]; [ | discriminate ].
  destruct (unique tv); [ | discriminate ]. destruct (set_results _ _ _ _) as [out|] eqn:SR; [ | discriminate ].
  pose proof (c_aux_solves C val c src aux rho O W EA S) as SA.
  apply concat_some_in in ER as [_ ER].
  assert (RI : forall x, In x rst <-> exists a m, In a c /\ mode_in a src m /\
     ((exists r, In (e, r) (m_resets m) /\ In x r) \/ (~ In e (map fst (m_targets m)) /\ In x (map (fun d => (fst d, Var (fst d))) (m_dynamic m))))).
  { intros x. rewrite ER. split.
    - intros (a & ys & Ha & Ey & H). unfold reset_assignments in Ey. destruct (mode_at a src) as [m|] eqn:Em; [ | discriminate ].
      exists a, m. split; [ exact Ha | ]. split; [ now apply mode_at_some | ]. apply mode_at_some in Em as (l' & Hl & _); [ | exact W ].
      destruct (ok_maps _ (O a Ha) _ _ Hl) as (_ & _ & _ & _ & Wr). destruct (nhas e (m_targets m)) eqn:Nh.
      + left. exists ys. split; [ now apply nfind_in | exact H ].
      + right. split; [ intros Q; apply nhas_in in Q; congruence | congruence ].
    - intros (a & m & Ha & Hm & H). exists a. pose proof Hm as (l' & Hl & _). apply mode_at_in_iff in Hm; auto. unfold reset_assignments. rewrite Hm.
      destruct (ok_maps _ (O a Ha) _ _ Hl) as (_ & _ & _ & _ & Wr).
      destruct (ok_modes _ (O a Ha) _ _ Hl) as (_ & _ & _ & _ & _ & _ & _ & _ & _ & TR & _).
      destruct (nhas e (m_targets m)) eqn:Nh.
      + destruct H as [(r & Hr & Hx)|[N _]]; [ exists r; split; [ exact Ha | ]; split; [ now apply nfind_in | exact Hx ] | ]. apply nhas_in in Nh. contradiction.
      + destruct H as [(r & Hr & Hx)|[N Hx]]; [ | eauto ]. exfalso. assert (Q : nhas e (m_targets m) = true) by (apply nhas_in, TR, keys_in; eauto). congruence. }
  assert (G : forall v rhs y, In (v, rhs) rst -> eval val rho rhs = Some y -> gives val f tv rho v y) by (intros; eapply results_give; eauto).
  split; [ | split ].
  - intros a m r v rhs y Ha Hm Hr H Ey. apply (G v rhs y); [ apply RI; exists a, m; do 2 (split; [ assumption | ]); left; exists r; auto | exact Ey ].
  - intros a m v Ha Hm N H. apply (G v (Var v)); [ | reflexivity ]. apply RI. exists a, m. split; [ exact Ha | ]. split; [ exact Hm | ]. right. split; [ exact N | ].
    apply in_map_iff in H as ([v' s] & <- & H). apply in_map_iff. exists (v', s). auto.
  - intros v Hv. apply SET in Hv. apply keys_in in Hv as (s & Hs). apply RI in Hs as (a & m & Ha & Hm & [(r & Hr & Hx)|[N Hx]]).
    + exists a, m. split; [ exact Ha | ]. split; [ exact Hm | ]. left. exists r. split; [ exact Hr | apply keys_in; eauto ].
    + exists a, m. split; [ exact Ha | ]. split; [ exact Hm | ]. right. split; [ exact N | ]. apply in_map_iff in Hx as (d & E & Hd). injection E as <- _. now apply in_map.
Qed.

(** Partial: the reset function of one automaton is right if the reset lists the variables in
    the order of the state variables of the target. *)
Theorem C88_reset_partial : forall (a : @automaton C) l m e r t tm f rho, built a -> wf_map l -> mode_in a l m ->
  In (e, r) (m_resets m) -> In (e, t) (m_targets m) -> mode_in a t tm -> map fst r = map fst (m_dynamic tm) ->
  reset_function a l e = Some f -> solves val rho (m_auxiliary m) ->
  forall v rhs y, In (v, rhs) r -> eval val rho rhs = Some y -> gives val f (map fst (m_dynamic tm)) rho v y.
Proof using CS.
  intros a l m e r t tm f rho B W M Hr Ht Mt Eo F S v rhs y H Ey. apply built_ok in B. destruct M as (l' & Hl & Hw).
  destruct (sorted_solves C val m a l' rho B Hl S) as (S' & _).
  unfold reset_function in F. rewrite (mode_at_in a l l' m B W Hl Hw) in F. destruct (ok_maps _ B _ _ Hl) as (_ & _ & _ & _ & Wr).
  apply (nfind_in _ _ _ Wr) in Hr. rewrite Hr in F. unfold make_reset_function in F.
  apply In_nth_error in H as (i & Hi). eapply component_gives; [ exact F | | | ].
  - rewrite <- Eo. rewrite nth_error_map, Hi. reflexivity.
  - rewrite nth_error_map, Hi. reflexivity.
  - simpl. now apply (subst_list_solved val CS).
Qed.

(** * C87, continued: compositions *)
(** Partial: the dynamic function of a composition which passes check_mode exists, if each
    auxiliary variable uses only state variables and auxiliary variables which come later. *)
Theorem C87_composite_exists_partial : forall names (c : @composite C) l aux, c_check_mode names c l = None ->
  c_auxiliary_assignments c l = Some aux -> reverse_ordered aux -> exists f, c_dynamic_function c l = Some f.
Proof using val.
  intros names c l aux K EA RO. apply c_check_parts in K as (aux' & dyn & es & EA' & ED & _ & K). cbv zeta in K. destruct K as (N & U1 & U2 & _).
  assert (aux' = aux) by congruence. subst aux'. unfold c_dynamic_function. rewrite EA, ED, c_state_dynamic, ED. simpl.
  assert (NN : NoDup (map fst dyn) /\ NoDup (map fst aux)).
  { clear - N. induction (map fst dyn) as [|v r IH]; simpl in N; [ split; [ constructor | exact N ] | ]. inversion N as [|? ? Q1 Q2]; subst. destruct (IH Q2). split; [ constructor; [ intros X; apply Q1; apply in_or_app; auto | auto ] | auto ]. }
  destruct NN as [ND NA]. rewrite (proj2 (unique_nodup _) ND). unfold make_dynamic_function.
  destruct (set_results_some (map fst dyn) aux dyn (repeat (num BinNums.Z0) (length dyn))) as (out & R); [ auto | rewrite repeat_length, map_length; lia | ].
  rewrite R. exists (mkFn (map fst dyn) out). apply make_function_some; [ exact ND | ].
  apply (set_results_all _ _ _ _ _ (fun e => incl (arguments e) (map fst dyn)) R).
  - intros v rhs X. apply (subst_closed val); [ now apply reverse_backward | eapply U2; eauto | intros; eapply U1; eauto ].
  - intros e X. apply repeat_spec in X. subst e. intros w [].
Qed.

(** * C89: guards and invariants *)
(** The guard of a composition holds exactly when the guards of all components with this event hold. *)
Theorem C89_guard : forall (c : @composite C) l e p und rho, (forall a, In a c -> built a) -> wf_map l ->
  (forall a m q, In a c -> mode_in a l m -> In (e, q) (m_guards m) -> plain q) -> c_guard_predicate c l e = Some p ->
  (ptrue val und rho p <-> forall a m q, In a c -> mode_in a l m -> In (e, q) (m_guards m) -> ptrue val und rho q).
Proof using.
  intros c l e p und rho B W PL E. assert (O : forall a, In a c -> ok a) by (intros; apply built_ok; auto).
  unfold c_guard_predicate, c_predicate in E. destruct (all_some _) as [ps|] eqn:Q; [ | discriminate ]. simpl in E. injection E as <-. apply all_some_map in Q.
  assert (PS : forall q, In q ps -> q = KCst TRUE \/ exists a m, In a c /\ mode_in a l m /\ In (e, q) (m_guards m)).
  { intros q Hq. destruct (Forall2_nth _ _ _ Q q Hq) as (i & a & Ha & _ & E). apply nth_error_In in Ha. unfold guard_predicate, predicate_of in E. destruct (mode_at a l) as [m|] eqn:Em; [ | discriminate ].
    destruct (nfind e (m_guards m)) as [q'|] eqn:Fq; [ | left; congruence ]. injection E as <-. right. exists a, m. split; [ exact Ha | ]. split; [ now apply mode_at_some | ].
    apply mode_at_some in Em as (l' & Hl & _); [ | exact W ]. destruct (ok_maps _ (O a Ha) _ _ Hl) as (_ & Wg & _). now apply nfind_in. }
  assert (SP : forall a m q, In a c -> mode_in a l m -> In (e, q) (m_guards m) -> In q ps).
  { intros a m q Ha Hm Hq. pose proof Hm as (l' & Hl & _). apply mode_at_in_iff in Hm; auto. apply In_nth_error in Ha as (i & Ha). destruct (Forall2_nth_l _ _ _ Q i a Ha) as (q' & Hq' & E).
    destruct (ok_maps _ (O a (nth_error_In _ _ Ha)) _ _ Hl) as (_ & Wg & _). unfold guard_predicate, predicate_of in E. rewrite Hm in E. apply (nfind_in _ _ _ Wg) in Hq. rewrite Hq in E.
    injection E as <-. eapply nth_error_In; eauto. }
  rewrite conjoin_all.
  - split.
    + intros [_ H] a m q Ha Hm Hq. apply H. eapply SP; eauto.
    + intros H. split; [ exact I | ]. intros q Hq. apply PS in Hq as [->|(a & m & Ha & Hm & Hq)]; [ exact I | eauto ].
  - exact I.
  - intros q Hq. apply PS in Hq as [->|(a & m & Ha & Hm & Hq)]; [ exact I | eauto ].
Qed.

(** The guard function is positive only where all the guards hold, and negative only where they do not. *)
Theorem C89_guard_function : forall (c : @composite C) l e f und rho, (forall a, In a c -> built a) -> wf_map l ->
  c_guard_function c l e = Some f ->
  (forall a m, In a c -> mode_in a l m -> solves val rho (m_auxiliary m)) ->
  (forall a m q, In a c -> mode_in a l m -> In (e, q) (m_guards m) -> plain q /\ pdefined val rho q) ->
  exists x, scalar_value val f rho x /\
    (Rlt 0 x -> forall a m q, In a c -> mode_in a l m -> In (e, q) (m_guards m) -> ptrue val und rho q) /\
    (Rlt x 0 -> ~ forall a m q, In a c -> mode_in a l m -> In (e, q) (m_guards m) -> ptrue val und rho q).
Proof using CS.
  intros c l e f und rho B W F S PD. assert (O : forall a, In a c -> ok a) by (intros; apply built_ok; auto).
  unfold c_guard_function, c_constraint_function in F. destruct (c_state_variables c l) as [sv|]; [ | discriminate ].
  destruct (c_auxiliary_assignments c l) as [aux|] eqn:EA; [ | discriminate ]. destruct (c_guard_predicate c l e) as [p|] eqn:EP; [ | discriminate ].
  unfold make_constraint_function in F. destruct (indicator p true) as [i|] eqn:EI; [ | discriminate ].
  assert (DP : pdefined val rho p).
  { pose proof EP as Q. unfold c_guard_predicate, c_predicate in Q. destruct (all_some _) as [ps|] eqn:QS; [ | discriminate ]. simpl in Q. injection Q as <-. apply all_some_map in QS.
    apply conjoin_defined; [ exact I | ]. intros q Hq. destruct (Forall2_nth _ _ _ QS q Hq) as (k & a & Ha & _ & E). apply nth_error_In in Ha. unfold guard_predicate, predicate_of in E.
    destruct (mode_at a l) as [m|] eqn:Em; [ | discriminate ]. destruct (nfind e (m_guards m)) as [q'|] eqn:Fq; [ | injection E as <-; exact I ]. injection E as <-.
    apply mode_at_some in Em as (l' & Hl & Hw); [ | exact W ]. destruct (ok_maps _ (O a Ha) _ _ Hl) as (_ & Wg & _). apply (PD a m q'); [ exact Ha | exists l'; auto | now apply nfind_in ]. }
  destruct (indicator_ok val CS und rho p i EI DP) as (x & Ex & P & N). exists x. split.
  - eapply scalar_gives; [ exact CS | exact F | eapply c_aux_solves; eauto | exact Ex ].
  - assert (G := C89_guard c l e p und rho B W (fun a m q Ha Hm Hq => proj1 (PD a m q Ha Hm Hq)) EP). split; intros L; [ apply G, P, L | rewrite <- G; apply N, L ].
Qed.

(** Partial: the invariant function is negative only where the invariant holds and positive only where
    it does not, if one component has an invariant for this event and the invariant has no
    conjunction or disjunction. *)
Theorem C89_invariant_partial : forall (c1 c2 : @composite C) a m q l e f und rho, let c := c1 ++ a :: c2 in
  (forall a, In a c -> built a) -> wf_map l -> c_invariant_function c l e = Some f ->
  (forall a m, In a c -> mode_in a l m -> solves val rho (m_auxiliary m)) ->
  mode_in a l m -> In (e, q) (m_invariants m) -> plain q -> no_connective q -> pdefined val rho q ->
  (forall b mb, In b (c1 ++ c2) -> mode_in b l mb -> ~ In e (map fst (m_invariants mb))) ->
  exists x, scalar_value val f rho x /\ (Rlt x 0 -> ptrue val und rho q) /\ (Rlt 0 x -> ~ ptrue val und rho q).
Proof using CS.
  intros c1 c2 a m q l e f und rho c B W F S Hm Hq PL NC DP NO. assert (O : forall a, In a c -> ok a) by (intros; apply built_ok; auto).
  unfold c_invariant_function, c_constraint_function in F. destruct (c_state_variables c l) as [sv|]; [ | discriminate ].
  destruct (c_auxiliary_assignments c l) as [aux|] eqn:EA; [ | discriminate ]. destruct (c_invariant_predicate c l e) as [p|] eqn:EP; [ | discriminate ].
  assert (Ep : p = q).
  { unfold c_invariant_predicate, c_predicate in EP. destruct (all_some _) as [ps|] eqn:QS; [ | discriminate ]. simpl in EP. injection EP as <-. apply all_some_map in QS.
    unfold c in QS. apply Forall2_app_inv_l in QS as (p1 & p2' & F1 & F2 & ->). inversion F2 as [|? q' ? p2 E F3]; subst.
    assert (Ia : In a c) by (unfold c; apply in_or_app; right; left; reflexivity).
    assert (q' = q). { pose proof Hm as (l' & Hl & _). apply mode_at_in_iff in Hm; [ | auto | auto ]. unfold invariant_predicate, predicate_of in E. rewrite Hm in E. destruct (ok_maps _ (O a Ia) _ _ Hl) as (Wi & _). apply (nfind_in _ _ _ Wi) in Hq. rewrite Hq in E. congruence. }
    subst q'. apply conjoin_single; [ exact PL | ].
    assert (T : forall c' ps', (forall b, In b c' -> In b (c1 ++ c2)) -> Forall2 (fun b x => invariant_predicate b l e = Some x) c' ps' -> forall x, In x ps' -> x = KCst TRUE).
    { intros c' ps' Hc FF x Hx. destruct (Forall2_nth _ _ _ FF x Hx) as (k & b & Hb & _ & Eb). apply nth_error_In in Hb. apply Hc in Hb. unfold invariant_predicate, predicate_of in Eb.
      destruct (mode_at b l) as [mb|] eqn:Emb; [ | discriminate ]. apply mode_at_some in Emb; [ | exact W ]. specialize (NO b mb Hb Emb). destruct (nfind e (m_invariants mb)) eqn:Fi; [ | congruence ].
      exfalso. apply NO. apply nhas_in. unfold nhas, mhas. unfold nfind in Fi. rewrite Fi. reflexivity. }
    intros x Hx. apply in_app_or in Hx as [Hx|Hx]; [ apply (T c1 p1); [ intros; apply in_or_app; auto | exact F1 | exact Hx ] | apply (T c2 p2); [ intros; apply in_or_app; auto | exact F3 | exact Hx ] ]. }
  subst p. unfold make_constraint_function in F. destruct (indicator q false) as [i|] eqn:EI; [ | discriminate ].
  destruct (indicator_negative_ok val CS und rho q i NC EI DP) as (x & Ex & P & N). exists x. split; [ | auto ].
  eapply scalar_gives; [ exact CS | exact F | eapply c_aux_solves; eauto | exact Ex ].
Qed.

(** * C90: kinds of events *)
(** The kind of an event in a composition is that of the first component which has one. *)
Theorem C90_kind : forall (c : @composite C) l m e k, (forall a, In a c -> built a) -> wf_map l -> c_mode c l = Some m ->
  (c_event_kind c l e = Some k <->
   exists p a q, c = p ++ a :: q /\ event_kind a l e = Some k /\ forall b, In b p -> event_kind b l e = None).
Proof using.
  intros c l m e k B W M. assert (O : forall a, In a c -> ok a) by (intros; apply built_ok; auto).
  unfold c_event_kind. rewrite M. apply c_mode_fold in M as (ms & Ms & ->). unfold modes_at in Ms. apply all_some_map in Ms.
  rewrite fold_join_kinds.
  - simpl. split.
    + intros [Q|(_ & p & m1 & q & -> & H1 & H2)]; [ discriminate | ]. apply Forall2_app_inv_r in Ms as (p' & q' & F1 & F2 & ->). inversion F2 as [|a ? q'' ? E F3]; subst.
      exists p', a, q''. split; [ reflexivity | ]. split; [ unfold event_kind; rewrite E; exact H1 | ]. intros b Hb. apply In_nth_error in Hb as (i & Hb).
      destruct (Forall2_nth_l _ _ _ F1 i b Hb) as (mb & Hmb & Eb). unfold event_kind. rewrite Eb. apply H2. eapply nth_error_In; eauto.
    + intros (p & a & q & -> & H1 & H2). right. split; [ reflexivity | ]. apply Forall2_app_inv_l in Ms as (p' & q' & F1 & F2 & ->). inversion F2 as [|? m1 ? q'' E F3]; subst.
      exists p', m1, q''. split; [ reflexivity | ]. split; [ unfold event_kind in H1; rewrite E in H1; exact H1 | ]. intros mb Hmb. destruct (Forall2_nth _ _ _ F1 mb Hmb) as (i & b & Hb & _ & Eb).
      apply nth_error_In in Hb. specialize (H2 b Hb). unfold event_kind in H2. rewrite Eb in H2. exact H2.
  - constructor.
  - intros m' Hm'. destruct (Forall2_nth _ _ _ Ms m' Hm') as (i & a & Ha & _ & E). apply mode_at_some in E as (l' & Hl & _); [ | exact W ]. apply nth_error_In in Ha. destruct (ok_maps _ (O a Ha) _ _ Hl) as (_ & _ & Wk & _). exact Wk.
Qed.
(** Partial: an event which is urgent in some component is urgent, if no earlier component
    gives it another kind. *)
Theorem C90_urgent_partial : forall (c : @composite C) l m e p a q k, (forall a, In a c -> built a) -> wf_map l -> c_mode c l = Some m ->
  c = p ++ a :: q -> event_kind a l e = Some k -> (k = URGENT \/ k = IMPACT) -> (forall b k', In b p -> event_kind b l e = Some k' -> k' = k) ->
  exists k', c_event_kind c l e = Some k' /\ (k' = URGENT \/ k' = IMPACT).
Proof using.
  intros c l m e p a q k B W M Ec Ek Hk Hp. exists k. split; [ | exact Hk ]. apply (C90_kind c l m e k B W M).
  assert (G : (forall b, In b p -> event_kind b l e = None) \/ exists p1 b p2, p = p1 ++ b :: p2 /\ event_kind b l e <> None /\ forall b', In b' p1 -> event_kind b' l e = None).
  { clear. induction p as [|b p IH]; [ left; intros b [] | ]. destruct (event_kind b l e) as [k0|] eqn:E.
    - right. exists [], b, p. split; [ reflexivity | ]. split; [ congruence | intros b' [] ].
    - destruct IH as [IH|(p1 & b1 & p2 & -> & H1 & H2)]; [ left; intros b' [<-|H]; auto | ]. right. exists (b :: p1), b1, p2. split; [ reflexivity | ]. split; [ exact H1 | intros b' [<-|H]; auto ]. }
  destruct G as [G|(p1 & b & p2 & -> & H1 & H2)].
  - exists p, a, q. auto.
  - destruct (event_kind b l e) as [k0|] eqn:E; [ | congruence ]. assert (k0 = k) by (apply (Hp b k0); [ apply in_or_app; right; left; reflexivity | exact E ]). subst k0.
    exists p1, b, (p2 ++ a :: q). split; [ subst c; rewrite <- app_assoc; reflexivity | auto ].
Qed.

(** * C91: discrete reachability *)
(** For one automaton: it always ends; it throws if an initial location has no mode, and otherwise gives exactly the
    locations which transitions lead to. *)
Theorem C91_reachability : forall (a : @automaton C) initial, built a -> (forall l, In l initial -> wf_map l) ->
  exists n, forall fuel, n <= fuel ->
    match discrete_reachability a fuel initial with
    | Reached s => forall l, In l s <-> reachable (jump a) (fun x => In x initial) l
    | ReachThrows => exists l, In l initial /\ forall m, ~ mode_in a l m
    | ReachFuel => False
    end.
Proof using.
  intros a initial B WI. apply built_ok in B. set (U := initial ++ map fst a). exists (S (length U)). intros fuel Hf. unfold discrete_reachability.
  assert (WU : forall l, In l U -> wf_map l).
  { intros l Hl. apply in_app_or in Hl as [Hl|Hl]; [ auto | ]. apply keys_in in Hl as (m & Hl). eapply ok_wf; eauto. }
  assert (TS : forall l ts, In l U -> targets_of a l = Some ts -> (incl ts U /\ forall t, In t ts -> t = l \/ jump a l t) /\ forall t, jump a l t -> In t ts).
  { intros l ts Hl E. unfold targets_of, events in E. destruct (mode_at a l) as [m|] eqn:Em; [ | discriminate ]. simpl in E. injection E as <-.
    pose proof Em as Em0. apply mode_at_some in Em as (l' & Hl' & Hw); [ | auto ]. destruct (ok_maps _ B _ _ Hl') as (_ & _ & _ & Wt & _).
    assert (G : forall t, In t (map (target a l) (mode_events m)) -> t = l \/ (exists e, In (e, t) (m_targets m))).
    { intros t Ht. apply in_map_iff in Ht as (e & <- & _). unfold target. rewrite Em0. destruct (nfind e (m_targets m)) as [t'|] eqn:Q; [ right; exists e; now apply nfind_in | auto ]. }
    split; [ split | ].
    - intros t Ht. apply G in Ht as [->|(e & He)]; [ exact Hl | ]. apply in_or_app. right. destruct (ok_modes _ B _ _ Hl') as (_ & _ & _ & _ & _ & _ & _ & _ & _ & _ & T). destruct (T e t He) as (tm & Htm & _). apply keys_in. eauto.
    - intros t Ht. apply G in Ht as [->|(e & He)]; [ auto | ]. right. exists m, e. split; [ exists l'; auto | exact He ].
    - intros t (m' & e & Hm & He). apply mode_at_in_iff in Hm; [ | exact B | auto ]. assert (m' = m) by congruence. subst m'. apply in_map_iff. exists e. split.
      + unfold target. rewrite Em0. apply (nfind_in _ _ _ Wt) in He. rewrite He. reflexivity.
      + apply mode_events_in. right. right. apply keys_in. eauto. }
  pose proof (reach_terminates (targets_of a) U (fun l ts Hl E => proj1 (proj1 (TS l ts Hl E))) fuel initial initial) as T.
  assert (RU : forall l, reachable (step_of (targets_of a)) (fun y => In y initial) l -> In l U).
  { induction 1 as [l H|l t H IH (ts & E & Ht)]; [ apply in_or_app; auto | ]. apply (proj1 (TS l ts IH E)). exact Ht. }
  destruct (reach_loop (targets_of a) fuel initial initial) as [s| |] eqn:R.
  - apply (reach_loop_correct (targets_of a) initial) in R as [R1 R2]; [ | apply reach_inv_init ]. intros l. rewrite R1. split.
    + induction 1 as [l H|l t H IH (ts & E & Ht)]; [ now constructor | ]. destruct (TS l ts (RU l H) E) as [[_ T2] _]. destruct (T2 t Ht) as [->|J]; [ exact IH | eapply reach_step; eauto ].
    + induction 1 as [l H|l t H IH J]; [ now constructor | ]. destruct (R2 l (proj2 (R1 l) IH)) as (ts & E). eapply reach_step; [ exact IH | ]. exists ts. split; [ exact E | ]. apply (TS l ts (RU l IH) E). exact J.
  - apply (reach_loop_throws (targets_of a) initial) in R as (l & H & E); [ | apply reach_inv_init ].
    assert (N : mode_at a l = None). { unfold targets_of, events in E. destruct (mode_at a l); [ discriminate | reflexivity ]. }
    pose proof (RU l H) as HU. apply in_app_or in HU as [HU|HU].
    + exists l. split; [ exact HU | ]. apply mode_at_none_iff; auto.
    + apply keys_in in HU as (m & HU). rewrite (mode_at_key a l m B HU) in N. discriminate.
  - exfalso. apply T; [ intros x Hx; apply in_or_app; auto | | reflexivity ]. eapply Nat.le_lt_trans; [ apply missing_le | exact Hf ].
Qed.

(** For a composition with different discrete variables in its components: it always ends; it gives
    exactly the locations which events lead to, or throws because one of those has no mode. *)
Theorem C91_composite_reachability : forall (c : @composite C) initial, (forall a, In a c -> built a) -> independent c -> (forall l, In l initial -> wf_map l) ->
  exists n, forall fuel, n <= fuel ->
    match c_discrete_reachability c fuel initial with
    | Reached s => (forall l, In l s <-> reachable (c_jump c) (fun x => In x initial) l) /\ forall l, In l s -> c_mode c l <> None
    | ReachThrows => exists l, reachable (c_jump c) (fun x => In x initial) l /\ c_mode c l = None
    | ReachFuel => False
    end.
Proof using.
  intros c initial B IN WI. assert (O : forall a, In a c -> ok a) by (intros; apply built_ok; auto).
  assert (CT : forall l e t, wf_map l -> c_target c l e = Some t -> In t (combos c) /\ wf_map t) by (intros; eapply c_target_combo; eauto).
  assert (TE : forall l, c_targets_of c l = None <-> c_mode c l = None).
  { intros l. unfold c_targets_of. destruct (c_events c l) as [es|] eqn:E.
    - split; intros Q.
      + exfalso. assert (X : all_some (map (c_target c l) es) = None) by exact Q. apply all_some_none in X as (e & He & X). destruct (c_target_some c l e es E). congruence.
      + unfold c_events in E. rewrite Q in E. discriminate.
    - unfold c_events in E. destruct (c_mode c l); [ discriminate | tauto ]. }
  assert (TS : forall l ts, wf_map l -> c_targets_of c l = Some ts -> forall t, In t ts <-> c_jump c l t).
  { intros l ts W E t. unfold c_targets_of in E. destruct (c_events c l) as [es|] eqn:EE; [ | discriminate ]. apply all_some_map in E.
    assert (PT : forall e t', In e es -> c_target c l e = Some t' -> wf_map t' /\ forall k v, In (k, v) t' <-> exists a m, In a c /\ mode_in a l m /\ In (k, v) (part m e)).
    { intros e t' He Et. destruct (c_target_spec c l e t' IN O W Et) as (H1 & H2 & _). split; [ exact H1 | ]. intros k v. rewrite H2. split.
      - intros (a & m & Ha & Hm & H). exists a, m. split; [ exact Ha | ]. split; [ now apply mode_at_some | exact H ].
      - intros (a & m & Ha & Hm & H). exists a, m. split; [ exact Ha | ]. split; [ apply mode_at_in_iff; auto | exact H ]. }
    split.
    - intros Ht. destruct (Forall2_nth _ _ _ E t Ht) as (i & e & He & _ & Et). apply nth_error_In in He. destruct (PT e t He Et) as [P1 P2]. split; [ exact P1 | ]. exists e. split; [ | exact P2 ].
      apply (c_events_spec c l es O W EE). exact He.
    - intros (Wt & e & Hev & Hk). apply (c_events_spec c l es O W EE) in Hev. apply In_nth_error in Hev as (i & Hi). destruct (Forall2_nth_l _ _ _ E i e Hi) as (t' & Ht' & Et).
      destruct (PT e t' (nth_error_In _ _ Hi) Et) as [P1 P2]. assert (t = t') by (apply wf_ext; auto; intros [k v]; rewrite Hk, P2; tauto). subst t'. eapply nth_error_In; eauto. }
  assert (RW : forall l, reachable (step_of (c_targets_of c)) (fun y => In y initial) l -> wf_map l).
  { induction 1 as [l H|l t H IH (ts & E & Ht)]; [ auto | ]. apply (TS l ts IH E) in Ht. apply Ht. }
  assert (RJ : forall l, reachable (step_of (c_targets_of c)) (fun y => In y initial) l -> reachable (c_jump c) (fun y => In y initial) l).
  { induction 1 as [l H|l t H IH (ts & E & Ht)]; [ now constructor | ]. eapply reach_step; [ exact IH | ]. apply (TS l ts (RW l H) E). exact Ht. }
  (* a finite set the locations stay in *)
  set (V := initial ++ combos c).
  exists (S (length V)). intros fuel Hf. unfold c_discrete_reachability.
  destruct (reach_loop (c_targets_of c) fuel initial initial) as [s| |] eqn:R.
  - apply (reach_loop_correct (c_targets_of c) initial) in R as [R1 R2]; [ | apply reach_inv_init ]. split.
    + intros l. rewrite R1. split; [ apply RJ | ]. induction 1 as [l H|l t H IH J]; [ now constructor | ]. destruct (R2 l (proj2 (R1 l) IH)) as (ts & E). eapply reach_step; [ exact IH | ]. exists ts. split; [ exact E | ]. now apply (TS l ts (RW l IH) E).
    + intros l Hl Q. destruct (R2 l Hl) as (ts & E). apply TE in Q. congruence.
  - apply (reach_loop_throws (c_targets_of c) initial) in R as (l & H & E); [ | apply reach_inv_init ]. exists l. split; [ now apply RJ | now apply TE ].
  - exfalso. revert R. apply (reach_terminates_wf (c_targets_of c) wf_map V).
    + intros l ts W E. intros t Ht. unfold c_targets_of in E. destruct (c_events c l) as [es|] eqn:EE; [ | discriminate ]. apply all_some_map in E.
      destruct (Forall2_nth _ _ _ E t Ht) as (i & e & _ & _ & Et). destruct (CT l e t W Et). split; [ apply in_or_app; auto | assumption ].
    + intros x Hx. split; [ apply in_or_app; auto | auto ].
    + eapply Nat.le_lt_trans; [ apply missing_le | exact Hf ].
Qed.

(** * C92: composition *)
(** After an event each component is in the target of its own transition, or stays if it has none, and
    its mode in the new location is the one of its target. *)
Theorem C92_target : forall (c : @composite C) l e t, (forall a, In a c -> built a) -> independent c -> wf_map l -> c_target c l e = Some t ->
  (forall k v, In (k, v) t <-> exists a m, In a c /\ mode_in a l m /\ In (k, v) (part m e)) /\
  forall a m, In a c -> mode_in a l m -> exists m', In (part m e, m') a /\ mode_in a t m' /\ forall m2, mode_in a t m2 -> m2 = m'.
Proof using.
  intros c l e t B IN W E. assert (O : forall a, In a c -> ok a) by (intros; apply built_ok; auto).
  destruct (c_target_spec c l e t IN O W E) as (Wt & H2 & H3). split.
  - intros k v. rewrite H2. split.
    + intros (a & m & Ha & Hm & H). exists a, m. split; [ exact Ha | ]. split; [ now apply mode_at_some | exact H ].
    + intros (a & m & Ha & Hm & H). exists a, m. split; [ exact Ha | ]. split; [ apply mode_at_in_iff; auto | exact H ].
  - intros a m Ha Hm. apply mode_at_in_iff in Hm; auto. destruct (H3 a m Ha Hm) as (m' & P & Q). exists m'. split; [ exact P | ]. split; [ now apply mode_at_some | ].
    intros m2 Hm2. apply mode_at_in_iff in Hm2; auto. congruence.
Qed.
(** A location has a mode when every component has one and every variable of the location belongs to one of them. *)
Theorem C92_has_mode : forall (c : @composite C) l, (forall a, In a c -> built a) -> wf_map l ->
  (c_has_mode c l = true <-> (forall a, In a c -> exists m, mode_in a l m) /\
     forall k v, In (k, v) l -> exists a m, In a c /\ mode_in a l m /\ In (k, v) (m_location m)).
Proof using.
  intros c l B W. assert (O : forall a, In a c -> ok a) by (intros; apply built_ok; auto). rewrite (c_has_mode_spec c l O W). split.
  - intros [H1 H2]. split.
    + intros a Ha. destruct (H1 a Ha) as (m & E). exists m. now apply mode_at_some.
    + intros k v H. destruct (H2 k v H) as (a & m & Ha & Hm & Q). exists a, m. split; [ exact Ha | ]. split; [ now apply mode_at_some | exact Q ].
  - intros [H1 H2]. split.
    + intros a Ha. destruct (H1 a Ha) as (m & E). exists m. apply mode_at_in_iff; auto.
    + intros k v H. destruct (H2 k v H) as (a & m & Ha & Hm & Q). exists a, m. split; [ exact Ha | ]. split; [ apply mode_at_in_iff; auto | exact Q ].
Qed.
(** The events of a composition are those of its components. *)
Theorem C92_events : forall (c : @composite C) l es, (forall a, In a c -> built a) -> wf_map l -> c_events c l = Some es ->
  forall e, In e es <-> exists a m, In a c /\ mode_in a l m /\ is_event m e.
Proof using. intros c l es B W E e. apply c_events_spec; auto. intros; apply built_ok; auto. Qed.
(** A composition has a partial mode when every component has one; it has an invariant, a guard or a transition
    for an event when some component has. *)
Theorem C92_queries : forall (c : @composite C) l e, (forall a, In a c -> built a) -> wf_map l ->
  (c_has_partial_mode c l = true <-> forall a, In a c -> exists m, mode_in a l m) /\
  (c_has_invariant c l e = true <-> exists a m, In a c /\ mode_in a l m /\ In e (map fst (m_invariants m))) /\
  (c_has_guard c l e = true <-> exists a m, In a c /\ mode_in a l m /\ In e (map fst (m_guards m))) /\
  (c_has_transition c l e = true <-> exists a m, In a c /\ mode_in a l m /\ In e (map fst (m_targets m))).
Proof using.
  intros c l e B W. assert (O : forall a, In a c -> ok a) by (intros; apply built_ok; auto).
  assert (Q : forall V (f : @mode C -> nmap V), existsb (fun a => in_mode f a l e) c = true <-> exists a m, In a c /\ mode_in a l m /\ In e (map fst (f m))).
  { intros V f. rewrite existsb_exists. unfold in_mode. split.
    - intros (a & Ha & H). destruct (mode_at a l) as [m|] eqn:E; [ | discriminate ]. exists a, m. split; [ exact Ha | ]. split; [ now apply mode_at_some | now apply nhas_in ].
    - intros (a & m & Ha & Hm & H). exists a. split; [ exact Ha | ]. apply mode_at_in_iff in Hm; auto. rewrite Hm. now apply nhas_in. }
  split; [ | repeat split; apply Q ]. unfold c_has_partial_mode. rewrite forallb_forall. unfold has_partial_mode. split.
  - intros H a Ha. specialize (H a Ha). apply existsb_exists in H as ([l' m] & Hl & H). exists m, l'. split; [ exact Hl | ]. now apply restriction_spec in H.
  - intros H a Ha. destruct (H a Ha) as (m & l' & Hl & Hw). apply existsb_exists. exists (l', m). split; [ exact Hl | now apply restriction_spec ].
Qed.
(** The mode of a composition has the equations, constraints and transitions of the modes of its components,
    and each event with a guard has a transition and conversely. *)
Theorem C92_mode : forall (c : @composite C) l m, (forall a, In a c -> built a) -> wf_map l -> c_mode c l = Some m ->
  (forall x, In x (m_auxiliary m) <-> exists a cm, In a c /\ mode_in a l cm /\ In x (m_auxiliary cm)) /\
  (forall x, In x (m_dynamic m) <-> exists a cm, In a c /\ mode_in a l cm /\ In x (m_dynamic cm)) /\
  (forall e, In e (map fst (m_invariants m)) <-> exists a cm, In a c /\ mode_in a l cm /\ In e (map fst (m_invariants cm))) /\
  (forall e, In e (map fst (m_guards m)) <-> exists a cm, In a c /\ mode_in a l cm /\ In e (map fst (m_guards cm))) /\
  (forall e, In e (map fst (m_targets m)) <-> exists a cm, In a c /\ mode_in a l cm /\ In e (map fst (m_targets cm))) /\
  (forall e, In e (map fst (m_guards m)) <-> In e (map fst (m_targets m))).
Proof using.
  intros c l m B W E. assert (O : forall a, In a c -> ok a) by (intros; apply built_ok; auto).
  assert (GT : forall e, In e (map fst (m_guards m)) <-> In e (map fst (m_targets m))).
  { unfold c_mode, compute_mode in E. destruct (modes_at c l) as [ms|]; [ | discriminate ].
    repeat (match type of E with context [if ?b then _ else _] => destruct b eqn:? end; try discriminate).
    injection E as <-. repeat match goal with H : negb _ = false |- _ => apply Bool.negb_false_iff in H end.
    unfold same_set, nkeys in *. repeat match goal with H : _ && _ = true |- _ => apply andb_prop in H as [? ?] end.
    repeat match goal with H : subset _ _ = true |- _ => apply subset_incl in H end.
    intros e. split; intros H'; auto. }
  apply c_mode_fold in E as (ms & Ms & ->). apply modes_at_in in Ms as [_ Ms].
  assert (EM : forall cm, In cm ms -> event_maps cm).
  { intros cm H. apply Ms in H as (a & Ha & E). apply mode_at_some in E as (l' & Hl & _); [ | exact W ]. eapply ok_event_maps; [ apply (O a Ha) | exact Hl ]. }
  assert (X : forall P : @mode C -> Prop, (exists cm, In cm ms /\ P cm) <-> exists a cm, In a c /\ mode_in a l cm /\ P cm).
  { intros P. split.
    - intros (cm & H & Q). apply Ms in H as (a & Ha & E). exists a, cm. split; [ exact Ha | ]. split; [ now apply mode_at_some | exact Q ].
    - intros (a & cm & Ha & Hm & Q). exists cm. split; [ apply Ms; exists a; split; [ exact Ha | apply mode_at_in_iff; auto ] | exact Q ]. }
  assert (F : forall P : @mode C -> Prop, (forall m1 m2, event_maps m1 -> event_maps m2 -> (P (join_mode m1 m2) <-> P m1 \/ P m2)) ->
    forall ms m0, event_maps m0 -> (forall cm, In cm ms -> event_maps cm) -> (P (fold_left join_mode ms m0) <-> P m0 \/ exists cm, In cm ms /\ P cm)).
  { intros P J. clear - J. induction ms as [|cm ms IH]; simpl; intros m W H; [ split; [ auto | intros [Q|(x & [] & _)]; auto ] | ].
    pose proof (proj1 (join_mode_events m cm W (H cm (or_introl eq_refl)))) as J1. rewrite IH by auto. rewrite J by auto. split.
    - intros [[Q|Q]|(x & Q & Q')]; [ auto | right; exists cm; auto | right; exists x; auto ].
    - intros [Q|(x & [<-|Q] & Q')]; [ auto | auto | right; exists x; auto ]. }
  assert (E0 : event_maps (mkMode (C:=C) [] [] [] [] [] [] [] [] [])) by (repeat split; constructor).
  split; [ intros x; rewrite <- (X (fun cm => In x (m_auxiliary cm))); rewrite (F (fun cm => In x (m_auxiliary cm))); simpl; [ tauto | intros; apply in_app_iff | exact E0 | exact EM ] | ].
  split; [ intros x; rewrite <- (X (fun cm => In x (m_dynamic cm))); rewrite (F (fun cm => In x (m_dynamic cm))); simpl; [ tauto | intros; apply in_app_iff | exact E0 | exact EM ] | ].
  split; [ intros x; rewrite <- (X (fun cm => In x (map fst (m_invariants cm)))); rewrite (F (fun cm => In x (map fst (m_invariants cm)))); simpl; [ tauto | intros m1 m2 (? & ? & ?) (? & ? & ?); now apply adjoin_keys | exact E0 | exact EM ] | ].
  split; [ intros x; rewrite <- (X (fun cm => In x (map fst (m_guards cm)))); rewrite (F (fun cm => In x (map fst (m_guards cm)))); simpl; [ tauto | intros m1 m2 (? & ? & ?) (? & ? & ?); now apply adjoin_keys | exact E0 | exact EM ] | ].
  split; [ | exact GT ].
  intros x; rewrite <- (X (fun cm => In x (map fst (m_targets cm)))); rewrite (F (fun cm => In x (map fst (m_targets cm)))); simpl; [ tauto | | exact E0 | exact EM ].
  intros m1 m2 (? & ? & W3) _. apply (fold_set_keys (fun ts et => join_loc (match nfind (fst et) ts with Some t => t | None => [] end) (snd et)) (m_targets m2) (m_targets m1) W3).
Qed.
(** Whatever modes were asked for before, the cache gives the mode which would be computed. *)
Theorem C92_cache : forall (c : @composite C) n ls, 0 < n -> cached_modes c {| max_size := n; elements := [] |} ls = map (c_mode c) ls.
Proof using.
  intros c n ls Hn. apply (cached_modes_spec c ls _ []); simpl; [ exact Hn | split; [ constructor | constructor ] | lia | intros l m [] ].
Qed.

(** * C93: checks *)
(** check_mode passes exactly when the equations, constraints and resets of the mode use
    only its variables, and each reset sets the state variables of its target. *)
Theorem C93_check_mode : forall (a : @automaton C) l, built a -> wf_map l ->
  (check_mode a l = None <-> exists m, mode_in a l m /\ well_specified a m).
Proof using.
  intros a l B W. apply built_ok in B. destruct (mode_at a l) as [m|] eqn:E.
  - rewrite (check_mode_spec a l m B W E). split.
    + intros H. exists m. split; [ now apply mode_at_some | exact H ].
    + intros (m' & Hm & H). apply mode_at_in_iff in Hm; auto. congruence.
  - unfold check_mode. rewrite E. split; [ discriminate | ]. intros (m & Hm & _). exfalso. apply (proj1 (mode_at_none_iff a l B W) E m Hm).
Qed.
(** What check_mode guarantees for a composition of components with different names. *)
Theorem C93_composite_check_partial : forall names (c : @composite C) l, (forall a, In a c -> built a) -> wf_map l ->
  NoDup names -> length names = length c -> c_check_mode names c l = None ->
  exists aux dyn, c_auxiliary_assignments c l = Some aux /\ c_dynamic_assignments c l = Some dyn /\
    let vars := map fst dyn ++ map fst aux in
    NoDup vars /\ ~ circular aux /\ uses_only vars aux /\ uses_only vars dyn /\
    (forall i j a b ma mb e, nth_error c i = Some a -> nth_error c j = Some b -> i <> j -> mode_in a l ma -> mode_in b l mb ->
       urgent ma e -> ~ urgent mb e /\ forall p, In (e, p) (m_guards mb) -> is_kconstant p true = true) /\
    (forall e a m, In a c -> mode_in a l m -> is_event m e -> exists rst tgt tv, c_reset_assignments c l e = Some rst /\ c_target c l e = Some tgt /\ c_state_variables c tgt = Some tv /\
       uses_only vars rst /\ NoDup (map fst rst) /\ forall v, In v (map fst rst) <-> In v tv).
Proof using.
  intros names c l B W NN LN K. assert (O : forall a, In a c -> ok a) by (intros; apply built_ok; auto).
  apply c_check_parts in K as (aux & dyn & es & EA & ED & ES & K). cbv zeta in K. destruct K as (N & U1 & U2 & CO & K). exists aux, dyn. split; [ exact EA | ]. split; [ exact ED | ]. cbv zeta.
  split; [ exact N | ]. split; [ eapply can_order_sound; eauto | ]. split; [ exact U1 | ]. split; [ exact U2 | ]. split.
  - intros i j a b ma mb e Ha Hb D Hma Hmb Ua.
    assert (Ia : In a c) by (eapply nth_error_In; eauto). assert (Ib : In b c) by (eapply nth_error_In; eauto).
    assert (UR : forall x mx, In x c -> mode_in x l mx -> urgent mx e -> has_guard x l e && match event_kind x l e with Some k => urgent_kind k | None => false end = true).
    { intros x mx Hx Hm (G & k & Hk & Hu). pose proof Hm as (l' & Hl & _). apply mode_at_in_iff in Hm; auto. destruct (ok_maps _ (O x Hx) _ _ Hl) as (_ & _ & Wk & _).
      unfold has_guard, in_mode, event_kind. rewrite Hm. apply nhas_in in G. rewrite G. apply (nfind_in _ _ _ Wk) in Hk. rewrite Hk. destruct Hu as [-> | ->]; reflexivity. }
    assert (He : In e es). { apply (c_events_spec c l es O W ES). exists a, ma. split; [ exact Ia | ]. split; [ exact Hma | ]. right. left. apply Ua. }
    destruct (K e He) as [_ CE]. apply check_event_parts in CE as (_ & _ & _ & _ & _ & _ & _ & _ & L1 & L2 & _).
    split.
    + intros Ub. pose proof (named_two (fun a => has_guard a l e && match event_kind a l e with Some k => urgent_kind k | None => false end) names c i j a b NN LN D Ha Hb (UR a ma Ia Hma Ua) (UR b mb Ib Hmb Ub)) as Q. unfold urgent_in in L1. lia.
    + intros p Hp. destruct (is_kconstant p true) eqn:Z; [ reflexivity | ]. exfalso.
      assert (U1' : urgent_in names c l e = 1). { pose proof (named_one (fun a => has_guard a l e && match event_kind a l e with Some k => urgent_kind k | None => false end) names c i a LN Ha (UR a ma Ia Hma Ua)) as Q. unfold urgent_in in L1 |- *. lia. }
      specialize (L2 U1'). pose proof Hmb as (l' & Hl & _). pose proof Hmb as Hmb'. apply mode_at_in_iff in Hmb'; auto. destruct (ok_maps _ (O b Ib) _ _ Hl) as (_ & Wg & Wk & _).
      destruct (ok_modes _ (O b Ib) _ _ Hl) as (_ & _ & _ & _ & _ & _ & _ & _ & KK & _).
      assert (Gk : In e (map fst (m_kinds mb))) by (apply KK; right; apply keys_in; eauto). apply keys_in in Gk as (kb & Hkb).
      destruct (urgent_kind kb) eqn:UK.
      * assert (Ub : urgent mb e). { split; [ apply keys_in; eauto | ]. exists kb. split; [ exact Hkb | ]. destruct kb; try discriminate; auto. }
        pose proof (named_two (fun a => has_guard a l e && match event_kind a l e with Some k => urgent_kind k | None => false end) names c i j a b NN LN D Ha Hb (UR a ma Ia Hma Ua) (UR b mb Ib Hmb Ub)) as Q. unfold urgent_in in L1. lia.
      * assert (Q : 0 < permissive_in names c l e).
        { unfold permissive_in. eapply (named_one _ names c j b LN Hb). unfold has_guard, in_mode, event_kind, guard_predicate, predicate_of. rewrite Hmb'.
          apply (nfind_in _ _ _ Wg) in Hp. unfold nhas, mhas. unfold nfind in Hp. rewrite Hp. apply (nfind_in _ _ _ Wk) in Hkb. rewrite Hkb, UK. unfold nfind. rewrite Hp, Z. reflexivity. }
        lia.
  - intros e a m Ha Hm Hev. assert (He : In e es) by (apply (c_events_spec c l es O W ES); eauto).
    destruct (K e He) as [_ CE]. apply check_event_parts in CE as (tgt & _ & rst & tv & Q1 & _ & Q2 & Q3 & _ & _ & _ & Q4 & Q5 & Q6). exists rst, tgt, tv. auto 10.
Qed.
End FUNCTIONS.
Print Assumptions C88_composite_reset.
Print Assumptions C88_reset_partial.
Print Assumptions C87_composite_exists_partial.
Print Assumptions C89_guard.
Print Assumptions C89_guard_function.
Print Assumptions C89_invariant_partial.
Print Assumptions C90_kind.
Print Assumptions C90_urgent_partial.
Print Assumptions C91_reachability.
Print Assumptions C91_composite_reachability.
Print Assumptions C92_target.
Print Assumptions C92_has_mode.
Print Assumptions C92_events.
Print Assumptions C92_cache.
Print Assumptions C92_queries.
Print Assumptions C92_mode.
Print Assumptions C93_check_mode.
Print Assumptions C93_composite_check_partial.

(** ** Components for the examples: the first has the state variable x, the second y *)
Definition here : loc := [(1, 0)].
Definition there : loc := [(1, 1)].
Definition first_component (bs : list (@build sym_reals)) : @automaton sym_reals := build_all (NewMode off [] [(0, snum 1)] :: NewMode on [] [(0, snum 2)] :: bs).
Definition second_component (bs : list (@build sym_reals)) : @automaton sym_reals := build_all (NewMode here [] [(1, snum 1)] :: NewMode there [] [(1, snum 2)] :: bs).
Ltac built_tac := eexists; split; [ | reflexivity ]; let b := fresh in let Hb := fresh in let l := fresh in let Hl := fresh in intros b Hb l Hl; simpl in Hb;
  repeat (destruct Hb as [<-|Hb]; [ simpl in Hl; repeat (destruct Hl as [<-|Hl]; [ apply wf_single | ]); contradiction | ]); contradiction.
Definition both : loc := [(0, 0); (1, 0)].
Lemma both_wf : wf_map both.
Proof. repeat constructor. Qed.

(** The reset next(y)=7, next(x)=x, with the state variables x, y, passes check_mode, but the reset
    function gives 7 for x and the old x for y. *)
Definition swapped : @automaton sym_reals := build_all
  [ NewMode off [] [(0, snum 1); (1, snum 1)]; NewTransition off 5 off [(1, snum 7); (0, sx)] (KCmp Geq sx (snum 1)) PERMISSIVE ].
Theorem C88_reset_refuted : exists m r f, built swapped /\ check_mode swapped off = None /\ mode_in swapped off m /\ In (5, r) (m_resets m) /\
  In (1, snum 7) r /\ In (0, sx) r /\ target swapped off 5 = off /\ map fst (m_dynamic m) = [0; 1] /\ reset_function swapped off 5 = Some f /\
  gives sval f [0; 1] (at_xy 3 5) 0 7%R /\ gives sval f [0; 1] (at_xy 3 5) 1 3%R.
Proof.
  assert (M : exists m, mode_at swapped off = Some m /\ m_resets m = [(5, [(1, snum 7); (0, sx)])] /\ map fst (m_dynamic m) = [0; 1]) by (eexists; repeat split; reflexivity).
  destruct M as (m & M & R & D). exists m, [(1, snum 7); (0, sx)]. eexists. split; [ built_tac | ]. split; [ vm_compute; reflexivity | ].
  split; [ apply mode_at_some; [ apply wf_single | exact M ] | ]. rewrite R. split; [ left; reflexivity | ]. split; [ left; reflexivity | ]. split; [ right; left; reflexivity | ].
  split; [ vm_compute; reflexivity | ]. split; [ exact D | ]. split; [ reflexivity | ]. split.
  - exists 0. eexists. split; [ reflexivity | ]. split; [ reflexivity | ]. intros sigma G. simpl. f_equal.
  - exists 1. eexists. split; [ reflexivity | ]. split; [ reflexivity | ]. intros sigma G. simpl. rewrite (G 0) by (left; reflexivity). reflexivity.
Qed.
Print Assumptions C88_reset_refuted.
(** The first component jumps with a reset, the second has no transition. *)
Definition jumper : @automaton sym_reals := first_component [ NewTransition off 5 on [(0, Bin Add sx sy)] (KCmp Geq sx (snum 1)) PERMISSIVE ].
Definition idler : @automaton sym_reals := second_component [].
Example C88_nonvacuous : exists f tgt, built jumper /\ built idler /\ c_check_mode [0; 1] [jumper; idler] both = None /\ c_events [jumper; idler] both = Some [5] /\
  c_reset_function [jumper; idler] both 5 = Some f /\ c_target [jumper; idler] both 5 = Some tgt /\ tgt = [(0, 1); (1, 0)] /\
  c_state_variables [jumper; idler] tgt = Some [0; 1] /\ gives sval f [0; 1] (at_xy 3 5) 0 8%R /\ gives sval f [0; 1] (at_xy 3 5) 1 5%R.
Proof.
  do 2 eexists. split; [ built_tac | ]. split; [ built_tac | ]. split; [ vm_compute; reflexivity | ]. split; [ vm_compute; reflexivity | ]. split; [ reflexivity | ]. split; [ reflexivity | ].
  split; [ reflexivity | ]. split; [ vm_compute; reflexivity | ]. split.
  - exists 0. eexists. split; [ reflexivity | ]. split; [ reflexivity | ]. intros sigma G. simpl in G. simpl. rewrite (G 0), (G 1) by (simpl; auto). f_equal. unfold at_xy. simpl. lra.
  - exists 1. eexists. split; [ reflexivity | ]. split; [ reflexivity | ]. intros sigma G. simpl in G. simpl. rewrite (G 1) by (simpl; auto). reflexivity.
Qed.
Example C87_composite_nonvacuous : exists aux, c_auxiliary_assignments [chain [(2, sy); (1, sx)]] off = Some aux /\ aux = [(2, sy); (1, sx)] /\ reverse_ordered aux /\
  c_check_mode [0] [chain [(2, sy); (1, sx)]] off = None.
Proof.
  eexists. split; [ reflexivity | ]. split; [ reflexivity | ]. split; [ | vm_compute; reflexivity ].
  intros [|p0 [|p1 [|p2 p]]] v s q E w Hw Hin; simpl in E; try discriminate; injection E as <- <- <-; simpl in *.
  - destruct Hw as [<-|[]]. auto.
  - destruct Hw as [<-|[]]. destruct Hin as [X|[X|[]]]; discriminate.
Qed.

(** Two components with the invariants x>=0 and y>=0 under one label: at (1,-1) the invariant does not hold,
    but the invariant function is negative. *)
Definition inv_x : @automaton sym_reals := first_component [ NewInvariant off (KCmp Geq sx (snum 0)) 9 ].
Definition inv_y : @automaton sym_reals := second_component [ NewInvariant here (KCmp Geq sy (snum 0)) 9 ].
Theorem C89_invariant_refuted : exists f m, built inv_x /\ built inv_y /\ c_check_mode [0; 1] [inv_x; inv_y] both = None /\
  c_invariant_function [inv_x; inv_y] both 9 = Some f /\ scalar_value sval f (at_xy 1 (-1)) (-1)%R /\
  mode_in inv_y both m /\ In (9, KCmp Geq sy (snum 0)) (m_invariants m) /\ forall und, ~ ptrue sval und (at_xy 1 (-1)) (KCmp Geq sy (snum 0)).
Proof.
  assert (M : exists m, mode_at inv_y both = Some m /\ m_invariants m = [(9, KCmp Geq sy (snum 0))]) by (eexists; split; reflexivity).
  destruct M as (m & M & I). eexists. exists m. split; [ built_tac | ]. split; [ built_tac | ]. split; [ vm_compute; reflexivity | ]. split; [ reflexivity | ]. split.
  - eexists. split; [ reflexivity | ]. intros sigma G. simpl in G. simpl. rewrite (G 0), (G 1) by (simpl; auto). f_equal. unfold at_xy, sval. simpl. unfold Rmin. destruct (Rle_dec _ _); lra.
  - split; [ apply mode_at_some; [ apply both_wf | exact M ] | ]. rewrite I. split; [ left; reflexivity | ].
    intros und (x & y & Ex & Ey & L). injection Ex as <-. injection Ey as <-. unfold at_xy, sval in L. simpl in L. lra.
Qed.
Print Assumptions C89_invariant_refuted.
Definition guard_x : @automaton sym_reals := first_component [ NewTransition off 5 on [(0, sx)] (KCmp Geq sx (snum 0)) PERMISSIVE ].
Definition guard_y : @automaton sym_reals := second_component [ NewTransition here 5 there [(1, sy)] (KCmp Geq sy (snum 0)) PERMISSIVE ].
Example C89_nonvacuous : exists f, built guard_x /\ built guard_y /\ c_guard_function [guard_x; guard_y] both 5 = Some f /\
  c_guard_predicate [guard_x; guard_y] both 5 = Some (KAnd (KCmp Geq sx (snum 0)) (KCmp Geq sy (snum 0))) /\ scalar_value sval f (at_xy 1 2) 1%R.
Proof.
  eexists. split; [ built_tac | ]. split; [ built_tac | ]. split; [ reflexivity | ]. split; [ reflexivity | ].
  eexists. split; [ reflexivity | ]. intros sigma G. simpl in G. simpl. rewrite (G 0), (G 1) by (simpl; auto). f_equal. unfold at_xy, sval. simpl. unfold Rmin. destruct (Rle_dec _ _); lra.
Qed.
Example C89_invariant_nonvacuous : exists f, c_invariant_function [inv_x; idler] both 9 = Some f /\ scalar_value sval f (at_xy 1 2) (-1)%R.
Proof.
  eexists. split; [ reflexivity | ].
  eexists. split; [ reflexivity | ]. intros sigma G. simpl in G. simpl. rewrite (G 0) by (simpl; auto). f_equal. unfold at_xy, sval. simpl. lra.
Qed.

(** The first component has an invariant with the label of an urgent event of the second: the composition passes
    check_mode, but its event is not urgent. *)
Definition watcher : @automaton sym_reals := first_component [ NewInvariant off (KCmp Leq sx (snum 9)) 5 ].
Definition urgent_y : @automaton sym_reals := second_component [ NewTransition here 5 there [(1, sy)] (KCmp Geq sy (snum 0)) URGENT ].
Theorem C90_urgent_refuted : built watcher /\ built urgent_y /\ c_check_mode [0; 1] [watcher; urgent_y] both = None /\
  event_kind urgent_y both 5 = Some URGENT /\ c_target [watcher; urgent_y] both 5 = Some [(0, 0); (1, 1)] /\ c_event_kind [watcher; urgent_y] both 5 = Some INVARIANT.
Proof. split; [ built_tac | ]. split; [ built_tac | ]. vm_compute. repeat split; reflexivity. Qed.
Print Assumptions C90_urgent_refuted.
Example C90_nonvacuous : c_event_kind [urgent_y; watcher] both 5 = Some URGENT /\ c_mode [urgent_y; watcher] both <> None.
Proof. vm_compute. split; [ reflexivity | discriminate ]. Qed.

Example C91_nonvacuous : discrete_reachability heater 9 [off] = Reached [off; on] /\ discrete_reachability heater 9 [[(0, 5)]] = ReachThrows.
Proof. vm_compute. split; reflexivity. Qed.
Lemma sample_independent : independent [jumper; urgent_y].
Proof.
  assert (H1 : forall k, loc_keys jumper k -> k = 0). { intros k (l & m & H & K). vm_compute in H. repeat (destruct H as [H|H]; [ injection H as <- _; destruct K as [<-|[]]; reflexivity | ]). contradiction. }
  assert (H2 : forall k, loc_keys urgent_y k -> k = 1). { intros k (l & m & H & K). vm_compute in H. repeat (destruct H as [H|H]; [ injection H as <- _; destruct K as [<-|[]]; reflexivity | ]). contradiction. }
  intros [|[|i]] [|[|j]] a b k Ha Hb D Ka Kb; simpl in Ha, Hb; try congruence; try (destruct i; discriminate); try (destruct j; discriminate); injection Ha as <-; injection Hb as <-.
  - apply H1 in Ka. apply H2 in Kb. congruence.
  - apply H2 in Ka. apply H1 in Kb. congruence.
Qed.
Example C91_composite_nonvacuous : built jumper /\ built urgent_y /\ independent [jumper; urgent_y] /\
  c_discrete_reachability [jumper; urgent_y] 9 [both] = Reached [both; [(0, 1); (1, 1)]].
Proof. split; [ built_tac | ]. split; [ built_tac | ]. split; [ apply sample_independent | ]. vm_compute. reflexivity. Qed.
Example C92_nonvacuous : c_target [jumper; urgent_y] both 5 = Some [(0, 1); (1, 1)] /\ c_has_mode [jumper; urgent_y] both = true /\
  c_has_mode [jumper; urgent_y] [(0, 0); (1, 0); (2, 0)] = false /\ c_has_mode [jumper; urgent_y] off = false /\
  length (filter (fun m => match m with Some _ => true | None => false end) (cached_modes [jumper; urgent_y] {| max_size := 1; elements := [] |} [both; off; [(0, 1); (1, 1)]; both])) = 3 /\
  c_has_partial_mode [jumper; urgent_y] both = true /\ c_has_partial_mode [jumper; urgent_y] off = false /\
  c_has_guard [jumper; urgent_y] both 5 = true /\ c_has_guard [jumper; urgent_y] both 6 = false /\
  option_map (fun m => length (m_dynamic m)) (c_mode [jumper; urgent_y] both) = Some 2.
Proof. vm_compute. repeat split; reflexivity. Qed.

(** Two components with the same name - the default name, say - may both have an urgent guard for one event. *)
Definition urgent_x : @automaton sym_reals := first_component [ NewTransition off 5 on [(0, sx)] (KCmp Geq sx (snum 0)) URGENT ].
Theorem C93_composite_check_refuted : exists mx my, built urgent_x /\ built urgent_y /\ mode_in urgent_x both mx /\ mode_in urgent_y both my /\ urgent mx 5 /\ urgent my 5 /\
  c_check_mode [0; 0] [urgent_x; urgent_y] both = None /\ c_check_mode [0; 1] [urgent_x; urgent_y] both = Some MultipleUrgent.
Proof.
  assert (M : exists m, mode_at urgent_x both = Some m /\ map fst (m_guards m) = [5] /\ m_kinds m = [(5, URGENT)]) by (eexists; repeat split; reflexivity).
  assert (M' : exists m, mode_at urgent_y both = Some m /\ map fst (m_guards m) = [5] /\ m_kinds m = [(5, URGENT)]) by (eexists; repeat split; reflexivity).
  destruct M as (mx & M & G & K). destruct M' as (my & M' & G' & K'). exists mx, my. split; [ built_tac | ]. split; [ built_tac | ].
  split; [ apply mode_at_some; [ apply both_wf | exact M ] | ]. split; [ apply mode_at_some; [ apply both_wf | exact M' ] | ].
  split; [ unfold urgent; rewrite G, K; split; [ left; reflexivity | exists URGENT; simpl; auto ] | ]. split; [ unfold urgent; rewrite G', K'; split; [ left; reflexivity | exists URGENT; simpl; auto ] | ].
  vm_compute. split; reflexivity.
Qed.
Print Assumptions C93_composite_check_refuted.
Example C93_nonvacuous : check_mode heater on = None /\ check_mode heater off = None /\ c_check_mode [0; 1] [jumper; urgent_y] both = Some UrgentWithGuards /\
  c_check_mode [0; 1] [watcher; urgent_y] both = None /\ check_mode (chain [(1, Var 5)]) off = Some UnderspecifiedDynamic.
Proof. vm_compute. repeat split; reflexivity. Qed.
