(** Functions, guards and checks of automata and compositions. *)
From Coq Require Import List Bool Arith Lia Sorted Permutation Reals Lra.
From Verif Require Import Logical_Model Expr_Model Expr_Spec Expr_Proofs LRU_Model
  Automaton_Model Automaton_Spec Automaton_Proofs Automaton_Build_Proofs Automaton_Sort_Proofs Automaton_Comp_Proofs.
Import ListNotations.
Open Scope nat_scope.

Section COMP.
Context {C : RealConst}.
Notation automaton := (@automaton C).
Notation composite := (@composite C).
Notation mode := (@mode C).
Notation assignments := (list (nat * expr C)).

Lemma mode_at_in_iff (a : automaton) l (m : mode) : ok a -> wf_map l -> (mode_at a l = Some m <-> mode_in a l m).
Proof.
  intros O W. split; [ now apply mode_at_some | ]. intros (l' & H & H'). eapply mode_at_in; eauto.
Qed.
Lemma mode_at_none_iff (a : automaton) l : ok a -> wf_map l -> (mode_at a l = None <-> forall m, ~ mode_in a l m).
Proof.
  intros O W. split.
  - intros E m (l' & H & H'). eapply mode_at_none; eauto.
  - intros H. destruct (mode_at a l) as [m|] eqn:E; [ | reflexivity ]. exfalso. apply (H m). now apply mode_at_some.
Qed.

Lemma modes_at_in (c : composite) l ms : modes_at c l = Some ms ->
  (forall a, In a c -> exists m, mode_at a l = Some m) /\ (forall m, In m ms <-> exists a, In a c /\ mode_at a l = Some m).
Proof.
  unfold modes_at. rewrite all_some_map. intros F. split.
  - intros a Ha. apply In_nth_error in Ha as (i & Ha). destruct (Forall2_nth_l _ _ _ F i a Ha) as (m & _ & E). eauto.
  - intros m. split.
    + intros H. destruct (Forall2_nth _ _ _ F m H) as (i & a & Ha & _ & E). exists a. split; [ eapply nth_error_In; eauto | exact E ].
    + intros (a & Ha & E). apply In_nth_error in Ha as (i & Ha). destruct (Forall2_nth_l _ _ _ F i a Ha) as (m' & Hm & E').
      assert (m = m') by congruence. subst. eapply nth_error_In; eauto.
Qed.
Lemma concat_some_in {A} (f : automaton -> option (list A)) c xs : concat_some (map f c) = Some xs ->
  (forall a, In a c -> exists ys, f a = Some ys) /\ forall x, In x xs <-> exists a ys, In a c /\ f a = Some ys /\ In x ys.
Proof.
  unfold concat_some. destruct (all_some (map f c)) as [yss|] eqn:E; [ | discriminate ]. simpl. intros H. injection H as <-. apply all_some_map in E. split.
  - intros a Ha. apply In_nth_error in Ha as (i & Ha). destruct (Forall2_nth_l _ _ _ E i a Ha) as (m & _ & Q). eauto.
  - intros x. rewrite in_concat. split.
    + intros (ys & Hy & Hx). destruct (Forall2_nth _ _ _ E ys Hy) as (i & a & Ha & _ & Q). exists a, ys. split; [ eapply nth_error_In; eauto | auto ].
    + intros (a & ys & Ha & Q & Hx). apply In_nth_error in Ha as (i & Ha). destruct (Forall2_nth_l _ _ _ E i a Ha) as (m' & Hm & E').
      exists ys. split; [ | exact Hx ]. assert (ys = m') by congruence. subst. eapply nth_error_In; eauto.
Qed.
Lemma concat_some_map {A B} (g : A -> B) (f : automaton -> option (list A)) c :
  concat_some (map (fun a => option_map (map g) (f a)) c) = option_map (map g) (concat_some (map f c)).
Proof.
  unfold concat_some. induction c as [|a c IH]; simpl; [ reflexivity | ]. destruct (f a) as [ys|]; simpl; [ | reflexivity ].
  destruct (all_some (map f c)) as [xs|]; destruct (all_some (map _ c)) as [zs|]; simpl in *; try discriminate; [ | reflexivity ].
  injection IH as IH. rewrite map_app, IH. reflexivity.
Qed.
Lemma c_state_dynamic (c : composite) l : c_state_variables c l = option_map (map fst) (c_dynamic_assignments c l).
Proof.
  unfold c_state_variables, c_dynamic_assignments. rewrite <- (concat_some_map fst). f_equal. apply map_ext. intros a.
  unfold state_variables, dynamic_assignments. destruct (mode_at a l); reflexivity.
Qed.

(** ** Events *)
Lemma fold_set_keys {V W} (g : nmap W -> nat * V -> W) l : forall m : nmap W, wf_map m ->
  wf_map (fold_left (fun ts et => nset (fst et) (g ts et) ts) l m) /\
  forall k, In k (map fst (fold_left (fun ts et => nset (fst et) (g ts et) ts) l m)) <-> In k (map fst m) \/ In k (map fst l).
Proof.
  induction l as [|[k0 v0] l IH]; simpl; intros m W0; [ split; [ exact W0 | tauto ] | ].
  destruct (IH (nset k0 (g m (k0, v0)) m)) as [I1 I2]; [ now apply nset_wf | ]. split; [ exact I1 | ]. intros k. rewrite I2.
  assert (Q : In k (map fst (nset k0 (g m (k0, v0)) m)) <-> k = k0 \/ In k (map fst m)).
  { rewrite !keys_in. split.
    - intros (v & H). apply nset_in in H as [H|[H _]]; [ injection H as -> _; auto | eauto | exact W0 ].
    - intros [->|(v & H)]; [ eexists; apply nset_in; [ exact W0 | left; reflexivity ] | ]. destruct (Nat.eq_dec k k0) as [->|N].
      + eexists. apply nset_in; [ exact W0 | left; reflexivity ].
      + exists v. apply nset_in; [ exact W0 | right; auto ]. }
  rewrite Q. intuition.
Qed.
Lemma adjoin_keys {V} (m m2 : nmap V) k : wf_map m -> wf_map m2 -> In k (map fst (adjoin Nat.ltb m m2)) <-> In k (map fst m) \/ In k (map fst m2).
Proof.
  intros W W2. rewrite !keys_in. split.
  - intros (v & H). apply nadjoin_in in H as [H|[H _]]; eauto.
  - intros [(v & H)|(v & H)]; [ exists v; apply nadjoin_in; auto | ]. destruct (in_dec Nat.eq_dec k (map fst m)) as [I|I].
    + apply keys_in in I as (v' & I). exists v'. apply nadjoin_in; auto.
    + exists v. apply nadjoin_in; auto.
Qed.
Definition event_maps (m : mode) : Prop := wf_map (m_invariants m) /\ wf_map (m_guards m) /\ wf_map (m_targets m).
Lemma join_mode_events (m cm : mode) : event_maps m -> event_maps cm ->
  event_maps (join_mode m cm) /\ forall e, is_event (join_mode m cm) e <-> is_event m e \/ is_event cm e.
Proof.
  intros (W1 & W2 & W3) (V1 & V2 & V3).
  destruct (fold_set_keys (fun ts et => join_loc (match nfind (fst et) ts with Some t => t | None => [] end) (snd et)) (m_targets cm) (m_targets m) W3) as [F1 F2].
  split.
  - split; [ apply nadjoin_wf; exact W1 | ]. split; [ apply nadjoin_wf; exact W2 | exact F1 ].
  - intros e. unfold is_event. simpl m_invariants. simpl m_guards. rewrite !adjoin_keys by auto. simpl m_targets. rewrite F2. tauto.
Qed.
Lemma fold_join_events ms : forall m : mode, event_maps m -> (forall cm, In cm ms -> event_maps cm) ->
  forall e, is_event (fold_left join_mode ms m) e <-> is_event m e \/ exists cm, In cm ms /\ is_event cm e.
Proof.
  induction ms as [|cm ms IH]; simpl; intros m W H e; [ split; [ auto | intros [Q|(x & [] & _)]; auto ] | ].
  destruct (join_mode_events m cm W (H cm (or_introl eq_refl))) as [J1 J2]. rewrite IH by auto. rewrite J2. split.
  - intros [[Q|Q]|(x & Q & Q')]; [ auto | right; exists cm; auto | right; exists x; auto ].
  - intros [Q|(x & [<-|Q] & Q')]; [ auto | auto | right; exists x; auto ].
Qed.
Lemma nsadjoin_in s t k : In k (sadjoin Nat.ltb s t) <-> In k s \/ In k t.
Proof. apply sadjoin_in; auto using nlt_irrefl, nlt_total. Qed.
Lemma mode_events_in (m : mode) e : In e (mode_events m) <-> is_event m e.
Proof. unfold mode_events, is_event, nkeys. rewrite !nsadjoin_in. tauto. Qed.
Lemma ok_event_maps (a : automaton) l (m : mode) : ok a -> In (l, m) a -> event_maps m.
Proof. intros O H. destruct (ok_maps _ O _ _ H) as (H1 & H2 & H3 & H4 & H5). repeat split; assumption. Qed.
Lemma c_mode_fold (c : composite) l m : c_mode c l = Some m -> exists ms, modes_at c l = Some ms /\ m = fold_left join_mode ms (mkMode [] [] [] [] [] [] [] [] []).
Proof.
  unfold c_mode, compute_mode. destruct (modes_at c l) as [ms|]; [ | discriminate ].
  repeat (match goal with |- context [if ?b then _ else _] => destruct b end; try discriminate). intros H. injection H as <-. eauto.
Qed.
Lemma c_events_spec (c : composite) l es : (forall a, In a c -> ok a) -> wf_map l -> c_events c l = Some es ->
  forall e, In e es <-> exists a m, In a c /\ mode_in a l m /\ is_event m e.
Proof.
  intros O W E e. unfold c_events in E. destruct (c_mode c l) as [m|] eqn:M; [ | discriminate ]. simpl in E. injection E as <-.
  apply c_mode_fold in M as (ms & Ms & ->). apply modes_at_in in Ms as [_ Ms]. rewrite mode_events_in, fold_join_events.
  - split.
    + intros [Q|(cm & H & Q)]; [ destruct Q as [Q|[Q|Q]]; contradiction Q | ]. apply Ms in H as (a & Ha & E). exists a, cm. split; [ exact Ha | ]. split; [ now apply mode_at_some | exact Q ].
    + intros (a & m & Ha & Hm & Q). right. exists m. split; [ | exact Q ]. apply Ms. exists a. split; [ exact Ha | ]. apply mode_at_in_iff; auto.
  - repeat split; constructor.
  - intros cm H. apply Ms in H as (a & Ha & E). apply mode_at_some in E as (l' & Hl & _); [ | exact W ]. eapply ok_event_maps; [ apply (O a Ha) | exact Hl ].
Qed.
Lemma c_target_some (c : composite) l e es : c_events c l = Some es -> exists t, c_target c l e = Some t.
Proof.
  unfold c_events. destruct (c_mode c l) as [m|] eqn:M; [ | discriminate ]. intros _. apply c_mode_fold in M as (ms & Ms & _).
  unfold c_target. rewrite Ms. simpl. eauto.
Qed.

(** ** Checks *)
Lemma check_each_from {A} (f : A -> option err) l : forall r, fold_left (fun r x => match r with Some _ => r | None => f x end) l r = None <-> r = None /\ forall x, In x l -> f x = None.
Proof.
  induction l as [|x l IH]; simpl; intros r; [ split; [ intros H; split; [ exact H | tauto ] | tauto ] | ]. rewrite IH. destruct r as [e|]; [ split; [ intros [Q _]; discriminate Q | intros [Q _]; discriminate Q ] | ].
  split; [ intros [H H']; split; [ reflexivity | ]; intros y [<-|Hy]; auto | intros [_ H]; split; auto ].
Qed.
Lemma check_each_none {A} (f : A -> option err) l : check_each f l = None <-> forall x, In x l -> f x = None.
Proof. unfold check_each. rewrite check_each_from. tauto. Qed.
Lemma args_within_none vars e (s : assignments) : args_within vars e s = None <-> uses_only vars s.
Proof.
  unfold args_within. rewrite check_each_none. unfold uses_only. split.
  - intros H v x Hx. specialize (H (v, x) Hx). simpl in H. destruct (subset (arguments x) vars) eqn:S; [ now apply subset_incl | discriminate ].
  - intros H [v x] Hx. simpl. rewrite (proj2 (subset_incl _ _) (H v x Hx)). reflexivity.
Qed.
Lemma preds_within_none vars (s : nmap (pred C)) : preds_within vars s = None <-> mentions_only vars s.
Proof.
  unfold preds_within. rewrite check_each_none. unfold mentions_only. split.
  - intros H v x Hx. specialize (H (v, x) Hx). simpl in H. destruct (subset (pred_arguments x) vars) eqn:S; [ now apply subset_incl | discriminate ].
  - intros H [v x] Hx. simpl. rewrite (proj2 (subset_incl _ _) (H v x Hx)). reflexivity.
Qed.
Lemma check_mode_spec (a : automaton) l m : ok a -> wf_map l -> mode_at a l = Some m -> (check_mode a l = None <-> well_specified a m).
Proof.
  intros O W E. unfold check_mode. rewrite E. unfold first_error. rewrite check_each_none. cbv zeta. unfold well_specified.
  set (vars := map fst (m_dynamic m) ++ map fst (m_auxiliary m)).
  apply mode_at_some in E as (l' & Hl & _); [ | exact W ].
  assert (Wt : wf_map (m_targets m)) by (eapply ok_event_maps; eauto).
  assert (R : check_each (fun r : nat * assignments => match nfind (fst r) (m_targets m) with
       | None => Some AssertFailure
       | Some tgt => match state_variables a tgt with
         | None => Some SystemSpecification
         | Some tv => if negb (subset (map fst (snd r)) tv) then Some UnderspecifiedDynamic
                      else if negb (subset tv (map fst (snd r))) then Some UnderspecifiedReset else None end end) (m_resets m) = None <->
    forall e r, In (e, r) (m_resets m) -> exists t tm, In (e, t) (m_targets m) /\ mode_in a t tm /\ forall v, In v (map fst r) <-> In v (map fst (m_dynamic tm))).
  { rewrite check_each_none. split.
    - intros H e r Hr. specialize (H (e, r) Hr). simpl in H. destruct (nfind e (m_targets m)) as [t|] eqn:F; [ | discriminate ]. apply (nfind_in _ _ _ Wt) in F.
      unfold state_variables in H. destruct (mode_at a t) as [tm|] eqn:Q; [ | discriminate ]. simpl in H. exists t, tm. split; [ exact F | ].
      assert (wt : wf_map t). { destruct (ok_modes _ O _ _ Hl) as (_ & _ & _ & _ & _ & _ & _ & _ & _ & _ & T). destruct (T e t F) as (tm' & Ht & _). eapply ok_wf; eauto. }
      split; [ now apply mode_at_some | ]. destruct (subset (map fst r) _) eqn:S1; [ | discriminate ]. destruct (subset _ (map fst r)) eqn:S2; [ | discriminate ].
      apply subset_incl in S1, S2. intros v. split; auto.
    - intros H [e r] Hr. simpl. destruct (H e r Hr) as (t & tm & F & Q & V).
      assert (wt : wf_map t). { destruct (ok_modes _ O _ _ Hl) as (_ & _ & _ & _ & _ & _ & _ & _ & _ & _ & T). destruct (T e t F) as (tm' & Ht & _). eapply ok_wf; eauto. }
      apply (nfind_in _ _ _ Wt) in F. rewrite F. unfold state_variables. apply mode_at_in_iff in Q; auto. rewrite Q. simpl.
      rewrite (proj2 (subset_incl (map fst r) (map fst (m_dynamic tm)))) by (intros v Hv; apply V; exact Hv).
      rewrite (proj2 (subset_incl (map fst (m_dynamic tm)) (map fst r))) by (intros v Hv; apply V; exact Hv). reflexivity. }
  assert (R2 : check_each (fun r : nat * assignments => args_within vars UnderspecifiedReset (snd r)) (m_resets m) = None <-> forall e r, In (e, r) (m_resets m) -> uses_only vars r).
  { rewrite check_each_none. split; [ intros H e r Hr; specialize (H (e, r) Hr); now apply args_within_none in H | intros H [e r] Hr; apply args_within_none; eauto ]. }
  split.
  - intros H. split; [ | split; [ | split; [ | split ] ] ].
    + apply (args_within_none _ UnderspecifiedDynamic). apply H. simpl. auto.
    + apply (args_within_none _ UnderspecifiedDynamic). apply H. simpl. auto.
    + apply preds_within_none. apply H. simpl. auto.
    + apply preds_within_none. apply H. simpl. auto.
    + intros e r Hr. split; [ refine (proj1 R2 _ e r Hr) | refine (proj1 R _ e r Hr) ]; apply H; simpl; auto 7.
  - intros (H1 & H2 & H3 & H4 & H5) x [<-|[<-|[<-|[<-|[<-|[<-|[]]]]]]].
    + now apply args_within_none.
    + now apply args_within_none.
    + now apply preds_within_none.
    + now apply preds_within_none.
    + apply R2. intros e r Hr. apply (H5 e r Hr).
    + apply R. intros e r Hr. apply (H5 e r Hr).
Qed.

(** [order] succeeds only without a circle. *)
Lemma order_loop_circle fuel : forall u, NoDup (map fst u) -> order_loop fuel u = true -> forall L, L <> [] ->
  ~ (forall v, In v L -> exists ds w, In (v, ds) u /\ In w ds /\ In w L).
Proof.
  assert (E0 : forall (u : nmap (list nat)) L, match u with [] => true | _ => false end = true -> L <> [] -> ~ (forall v, In v L -> exists ds w, In (v, ds) u /\ In w ds /\ In w L)).
  { intros [|] [|v L] E N H; try discriminate; try congruence. destruct (H v (or_introl eq_refl)) as (ds & w & [] & _). }
  induction fuel as [|fuel IH]; simpl; intros u ND E L N; [ now apply E0 | ].
  destruct (List.find _ u) as [[v ds0]|] eqn:F; [ | now apply E0 ]. apply find_some in F as [F1 F2]. destruct ds0; [ | discriminate ].
  intros H. assert (NL : ~ In v L).
  { intros Hv. destruct (H v Hv) as (ds & w & H1 & H2 & _). rewrite (in_nodup_fun u v ds [] ND H1 F1) in H2. exact H2. }
  assert (ND' : forall (u : nmap (list nat)), NoDup (map fst u) -> NoDup (map fst (map (fun d => (fst d, filter (fun w => negb (Nat.eqb w v)) (snd d))) (filter (fun d => negb (Nat.eqb (fst d) v)) u)))).
  { clear. induction u as [|[k ds] u IH]; simpl; intros N; [ constructor | ]. inversion N as [|? ? N1 N2]; subst. destruct (negb (Nat.eqb k v)); simpl; [ | auto ].
    constructor; [ | auto ]. intros Q. apply N1. apply in_map_iff in Q as ([k' ds'] & E & Q). simpl in E. subst k'. apply in_map_iff in Q as ([k2 ds2] & E & Q). simpl in E. injection E as -> _.
    apply filter_In in Q as [Q _]. apply (in_map fst) in Q. exact Q. }
  apply (IH _ (ND' u ND) E L N). intros x Hx. destruct (H x Hx) as (ds & w & H1 & H2 & H3).
  exists (filter (fun w0 => negb (Nat.eqb w0 v)) ds), w. split; [ | split; [ apply filter_In; split; [ exact H2 | ] | exact H3 ] ].
  - apply in_map_iff. exists (x, ds). split; [ reflexivity | ]. apply filter_In. split; [ exact H1 | ]. apply negb_true_iff, Nat.eqb_neq. simpl. intros ->. contradiction.
  - apply negb_true_iff, Nat.eqb_neq. intros ->. contradiction.
Qed.
Lemma can_order_sound (aux : assignments) inputs : NoDup (inputs ++ map fst aux) -> can_order aux inputs = true -> ~ circular aux.
Proof.
  intros N E (L & NE & H). unfold can_order in E. rewrite (fold_ninsert fst (fun a => filter (fun w => negb (mem w inputs)) (arguments (snd a)))) in E.
  assert (ND : NoDup (map fst aux)) by (clear - N; induction inputs; simpl in N; [ exact N | inversion N; auto ]).
  assert (D : forall w, In w (map fst aux) -> ~ In w inputs).
  { clear - N. induction inputs as [|i l IH]; simpl in N |- *; [ tauto | ]. inversion N as [|? ? N1 N2]; subst. intros w Hw [<-|Q]; [ apply N1; apply in_or_app; auto | exact (IH N2 w Hw Q) ]. }
  set (u := adjoin Nat.ltb [] _) in E.
  assert (Wu : wf_map u) by (apply nadjoin_wf; constructor).
  apply (order_loop_circle _ u (wf_nodup _ Wu) E L NE). intros v Hv. destruct (H v Hv) as (s & w & Hs & Hw & HL).
  exists (filter (fun w => negb (mem w inputs)) (arguments s)), w. split; [ | split; [ | exact HL ] ].
  - unfold u. apply adjoin_in; auto using nlt_irrefl, nlt_total; [ apply nlt_trans | constructor | rewrite map_map; exact ND | ].
    right. split; [ | intros [] ]. apply in_map_iff. exists (v, s). auto.
  - apply filter_In. split; [ exact Hw | ]. apply negb_true_iff. destruct (mem w inputs) eqn:Q; [ | reflexivity ]. apply mem_in in Q.
    exfalso. destruct (H w HL) as (s' & w' & Hs' & _). apply (D w); [ apply keys_in; eauto | exact Q ].
Qed.

(** Names of components *)
Lemma named_two f names (c : composite) i j a b : NoDup names -> length names = length c -> i <> j ->
  nth_error c i = Some a -> nth_error c j = Some b -> f a = true -> f b = true -> 1 < named_in f names c.
Proof.
  intros N L D Ha Hb Fa Fb. unfold named_in.
  assert (G : forall k x, nth_error c k = Some x -> exists n, nth_error names k = Some n /\ In (n, x) (combine names c)).
  { clear - L. revert c L. induction names as [|n names IH]; intros [|y c] L; simpl in L; try discriminate; intros [|k] x E; simpl in *; try discriminate.
    - injection E as <-. eauto.
    - destruct (IH c (eq_add_S _ _ L) k x E) as (n' & H & H'). eauto. }
  destruct (G i a Ha) as (n1 & H1 & I1). destruct (G j b Hb) as (n2 & H2 & I2).
  assert (N12 : n1 <> n2). { intros ->. apply D. eapply (NoDup_nth_error names); [ exact N | apply nth_error_Some; congruence | congruence ]. }
  set (s := set_of _). assert (S1 : In n1 s /\ In n2 s).
  { unfold s, set_of. rewrite !nsadjoin_in. split; right; apply in_map_iff; [ exists (n1, a) | exists (n2, b) ]; (split; [ reflexivity | apply filter_In; auto ]). }
  destruct S1 as [S1 S2]. destruct s as [|x [|y s]]; [ contradiction | | simpl; lia ]. destruct S1 as [<-|[]]. destruct S2 as [<-|[]]. congruence.
Qed.
Lemma named_one f names (c : composite) i a : length names = length c -> nth_error c i = Some a -> f a = true -> 0 < named_in f names c.
Proof.
  intros L Ha Fa. unfold named_in.
  assert (G : exists n, In (n, a) (combine names c)).
  { clear - L Ha. revert c i L Ha. induction names as [|n names IH]; intros [|y c] [|i] L E; simpl in *; try discriminate.
    - injection E as <-. eauto.
    - destruct (IH c i (eq_add_S _ _ L) E) as (n' & H). eauto. }
  destruct G as (n & I). set (s := set_of _). assert (S1 : In n s).
  { unfold s, set_of. rewrite nsadjoin_in. right. apply in_map_iff. exists (n, a). split; [ reflexivity | apply filter_In; auto ]. }
  destruct s; [ contradiction | simpl; lia ].
Qed.

Lemma c_check_parts names (c : composite) l : c_check_mode names c l = None ->
  exists aux dyn es, c_auxiliary_assignments c l = Some aux /\ c_dynamic_assignments c l = Some dyn /\ c_events c l = Some es /\
    let vars := map fst dyn ++ map fst aux in
    NoDup vars /\ uses_only vars aux /\ uses_only vars dyn /\ can_order aux (map fst dyn) = true /\
    forall e, In e es -> (exists p, c_invariant_predicate c l e = Some p /\ incl (pred_arguments p) vars) /\ check_event names c l vars e = None.
Proof.
  unfold c_check_mode. destruct (c_auxiliary_assignments c l) as [aux|]; [ | discriminate ]. destruct (c_dynamic_assignments c l) as [dyn|]; [ | discriminate ].
  cbv zeta. destruct (unique _) eqn:U; [ | discriminate ]. destruct (subset _ _) eqn:S1; [ | discriminate ]. simpl negb. cbv iota.
  destruct (subset (concat (map (fun a => arguments (snd a)) dyn)) _) eqn:S2; [ | discriminate ].
  destruct (can_order aux (map fst dyn)) eqn:CO; [ | discriminate ]. destruct (c_events c l) as [es|]; [ | discriminate ]. simpl negb. cbv iota.
  destruct (check_each _ es) eqn:CI; [ discriminate | ]. intros CE. rewrite check_each_none in CI. rewrite check_each_none in CE.
  assert (UO : forall (s : assignments) vars, subset (concat (map (fun a => arguments (snd a)) s)) vars = true -> uses_only vars s).
  { intros s vars S v e H. apply subset_incl in S. intros w Hw. apply S. apply in_concat. exists (arguments e). split; [ apply in_map_iff; exists (v, e); auto | exact Hw ]. }
  exists aux, dyn, es. split; [ reflexivity | ]. split; [ reflexivity | ]. split; [ reflexivity | ]. split; [ now apply unique_nodup | ].
  split; [ now apply UO | ]. split; [ now apply UO | ]. split; [ exact CO | ]. intros e He. split; [ | auto ].
  specialize (CI e He). simpl in CI. destruct (c_invariant_predicate c l e) as [p|]; [ | discriminate ]. destruct (subset (pred_arguments p) _) eqn:Q; [ | discriminate ].
  exists p. split; [ reflexivity | now apply subset_incl ].
Qed.
Lemma check_event_parts names (c : composite) l vars e : check_event names c l vars e = None ->
  exists tgt grd rst tv, c_target c l e = Some tgt /\ c_guard_predicate c l e = Some grd /\ c_reset_assignments c l e = Some rst /\ c_state_variables c tgt = Some tv /\
    urgent_in names c l e <= 1 /\ (urgent_in names c l e = 1 -> permissive_in names c l e = 0) /\
    incl (pred_arguments grd) vars /\ uses_only vars rst /\ NoDup (map fst rst) /\ forall v, In v (map fst rst) <-> In v tv.
Proof.
  unfold check_event. destruct (c_target c l e) as [tgt|]; [ | discriminate ]. destruct (c_guard_predicate c l e) as [grd|]; [ | discriminate ].
  destruct (c_reset_assignments c l e) as [rst|]; [ | discriminate ]. destruct (c_state_variables c tgt) as [tv|] eqn:TV; [ | discriminate ]. cbv zeta.
  destruct (Nat.ltb_spec 1 (urgent_in names c l e)) as [|U]; [ discriminate | ].
  destruct (Nat.eqb_spec (urgent_in names c l e) 1) as [U1|U1]; simpl andb.
  - destruct (Nat.ltb_spec 0 (permissive_in names c l e)) as [|P]; [ discriminate | ]. intros H. exists tgt, grd, rst, tv.
    do 4 (split; [ first [ reflexivity | exact TV ] | ]). split; [ exact U | ]. split; [ lia | ]. revert H.
    destruct (subset (pred_arguments grd) vars) eqn:S1; [ | discriminate ]. destruct (subset (concat _) vars) eqn:S2; [ | discriminate ].
    destruct (unique _) eqn:S3; [ | discriminate ]. destruct (subset (map fst rst) tv) eqn:S4; [ | discriminate ]. destruct (subset tv _) eqn:S5; [ | discriminate ]. intros _.
    apply subset_incl in S1, S4, S5. split; [ exact S1 | ]. split; [ | split; [ now apply unique_nodup | intros v; split; auto ] ].
    intros v x H. apply subset_incl in S2. intros w Hw. apply S2. apply in_concat. exists (arguments x). split; [ apply in_map_iff; exists (v, x); auto | exact Hw ].
  - intros H. exists tgt, grd, rst, tv. do 4 (split; [ first [ reflexivity | exact TV ] | ]). split; [ exact U | ]. split; [ tauto | ]. revert H.
    destruct (subset (pred_arguments grd) vars) eqn:S1; [ | discriminate ]. destruct (subset (concat _) vars) eqn:S2; [ | discriminate ].
    destruct (unique _) eqn:S3; [ | discriminate ]. destruct (subset (map fst rst) tv) eqn:S4; [ | discriminate ]. destruct (subset tv _) eqn:S5; [ | discriminate ]. intros _.
    apply subset_incl in S1, S4, S5. split; [ exact S1 | ]. split; [ | split; [ now apply unique_nodup | intros v; split; auto ] ].
    intros v x H. apply subset_incl in S2. intros w Hw. apply S2. apply in_concat. exists (arguments x). split; [ apply in_map_iff; exists (v, x); auto | exact Hw ].
Qed.
End COMP.

Section GUARDS.
Context {C : RealConst} (val : C -> R).
Hypothesis CS : consts_sound val.
Lemma conjoin_single (p1 : list (pred C)) : forall p2 p, plain p -> (forall x, In x (p1 ++ p2) -> x = KCst TRUE) -> fold_left conjoin (p1 ++ p :: p2) (KCst TRUE) = p.
Proof using.
  assert (R : forall (p2 : list (pred C)) p, plain p -> (forall x, In x p2 -> x = KCst TRUE) -> fold_left conjoin p2 p = p).
  { induction p2 as [|x p2 IH]; simpl; intros p PL H; [ reflexivity | ]. rewrite (H x) by auto.
    assert (E : conjoin p (KCst TRUE) = p).
    { unfold conjoin. destruct (is_kconstant p true) eqn:E; [ | reflexivity ]. simpl. destruct p as [k| | | | | |]; try discriminate. destruct k; try contradiction PL; try discriminate; reflexivity. }
    rewrite E. auto. }
  induction p1 as [|x p1 IH]; intros p2 p PL H.
  - simpl. apply R; [ exact PL | exact H ].
  - simpl. rewrite (H x) by (left; reflexivity). apply IH; [ exact PL | ]. intros y Hy. apply H. right. exact Hy.
Qed.
Lemma indicator_negative_ok und rho (p : pred C) j : no_connective p -> indicator p false = Some j -> pdefined val rho p ->
  exists y, eval val rho j = Some y /\ (Rlt y 0 -> ptrue val und rho p) /\ (Rlt 0 y -> ~ ptrue val und rho p).
Proof using CS.
  intros NC J D.
  assert (I : exists i, indicator p true = Some i).
  { clear - J NC. revert j J. induction p as [k|v|q IH|q IHq r IHr|q IHq r IHr|e|o a b]; simpl in *; intros j J; try discriminate; eauto.
    - destruct (indicator q false); [ | discriminate ]. destruct (IH NC _ eq_refl) as (i & ->). eauto.
    - contradiction.
    - contradiction.
    - destruct o; simpl in *; try discriminate; eauto. }
  destruct I as (i & I). destruct (indicator_ok val CS und rho p i I D) as (x & Ex & P & N).
  assert (J' : exists y, eval val rho j = Some y).
  { clear - J D NC CS. revert j J. induction p as [k|v|q IH|q IHq r IHr|q IHq r IHr|e|o a b]; simpl in *; intros j J; try contradiction.
    - injection J as <-. destruct k; simpl; rewrite (cs_int _ CS); eauto.
    - destruct (indicator q false) as [j'|]; [ | discriminate ]. injection J as <-. destruct (IH NC D _ eq_refl) as (y & E). simpl. rewrite E. simpl. eauto.
    - injection J as <-. simpl. destruct (eval val rho e); [ simpl; eauto | congruence ].
    - destruct D as [D1 D2]. destruct (eval val rho a) as [x|] eqn:E1; [ | congruence ]. destruct (eval val rho b) as [y|] eqn:E2; [ | congruence ].
      destruct o; simpl in J; try discriminate; injection J as <-; simpl; rewrite ?E1, ?E2; simpl; eauto. }
  destruct J' as (y & Ey). exists y. split; [ exact Ey | ]. assert (y = Ropp x) by (eapply indicator_negative; eauto). subst y.
  split; intros L; [ apply P; lra | apply N; lra ].
Qed.
Lemma scalar_gives (sp : list nat) (alg : list (nat * expr C)) e f rho x : make_function sp [subst_list e alg] = Some f -> solves val rho alg -> eval val rho e = Some x -> scalar_value val f rho x.
Proof using CS.
  intros M S E. apply make_function_spec in M as (_ & -> & A). exists (subst_list e alg). split; [ reflexivity | ]. intros sigma G.
  rewrite <- (subst_list_solved val CS rho alg e x S E). apply eval_ext. intros w Hw. apply G. apply (A (subst_list e alg)); [ left; reflexivity | exact Hw ].
Qed.
End GUARDS.
