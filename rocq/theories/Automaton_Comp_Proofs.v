(** Compositions of hybrid automata and their discrete reachability. *)
From Coq Require Import List Bool Arith Lia Sorted Permutation Reals.
From Verif Require Import Logical_Model Expr_Model Expr_Spec Expr_Proofs LRU_Model LRU_Spec LRU_Proofs
  Automaton_Model Automaton_Spec Automaton_Proofs Automaton_Build_Proofs Automaton_Sort_Proofs.
Import ListNotations.
Open Scope nat_scope.

(** ** Reachability *)
Section REACH.
Lemma lmem_in s k : smem loc_lt k s = true <-> In k s.
Proof using. apply smem_in; auto using loc_lt_irrefl, loc_lt_total. Qed.
Lemma linsert_in s k x : In x (sinsert loc_lt k s) <-> x = k \/ In x s.
Proof using. apply sinsert_in; auto using loc_lt_irrefl, loc_lt_total. Qed.

Lemma reach_targets_spec ts : forall found all found' all', fold_left reach_target ts (found, all) = (found', all') ->
  (forall x, In x all' <-> In x all \/ In x ts) /\ (forall x, In x found' <-> In x found \/ (In x ts /\ ~ In x all)).
Proof using.
  induction ts as [|t ts IH]; simpl; intros found all found' all' E.
  - injection E as <- <-. split; intros x; tauto.
  - destruct (smem loc_lt t all) eqn:M.
    + apply lmem_in in M. destruct (IH _ _ _ _ E) as [H1 H2]. split; intros x; rewrite ?H1, ?H2.
      * split; [ tauto | ]. intros [H|[<-|H]]; auto.
      * split; [ tauto | ]. intros [H|[[<-|H] H']]; auto. contradiction.
    + assert (N : ~ In t all) by (intros Q; apply lmem_in in Q; congruence).
      destruct (IH _ _ _ _ E) as [H1 H2]. split; intros x; rewrite ?H1, ?H2, !linsert_in.
      * split; [ intros [[->|H]|H]; auto | intros [H|[<-|H]]; auto ].
      * split.
        -- intros [[->|H]|[H H']]; [ right; auto | auto | right; split; [ auto | ]; intros Q; apply H'; auto ].
        -- intros [H|[[<-|H] H']]; [ auto | auto | ]. destruct (loc_dec x t) as [->|Nx]; [ auto | ]. right. split; [ auto | ]. intros [Q|Q]; auto.
Qed.
Variable succ : loc -> option (list loc).
Definition step_of (l t : loc) : Prop := exists ts, succ l = Some ts /\ In t ts.

Lemma reach_sources_spec working : forall found all found' all', reach_sources succ working (found, all) = Some (found', all') ->
  (forall l, In l working -> exists ts, succ l = Some ts) /\
  (forall x, In x all' <-> In x all \/ exists l, In l working /\ step_of l x) /\
  (forall x, In x found' <-> In x found \/ (~ In x all /\ exists l, In l working /\ step_of l x)).
Proof using succ.
  induction working as [|l working IH]; simpl; intros found all found' all' E.
  - injection E as <- <-. split; [ tauto | ]. split; intros x; (split; [ tauto | ]).
    + intros [H|(l & [] & _)]; auto.
    + intros [H|(_ & l & [] & _)]; auto.
  - destruct (succ l) as [ts|] eqn:S; [ | discriminate ].
    destruct (fold_left reach_target ts (found, all)) as [f1 a1] eqn:F. apply reach_targets_spec in F as [F1 F2].
    destruct (IH _ _ _ _ E) as (H1 & H2 & H3).
    assert (Q : forall x, In x ts <-> step_of l x).
    { intros x. split; [ intros H; exists ts; auto | intros (ts' & E' & H); congruence ]. }
    split; [ intros l' [<-|H]; eauto | ]. split; intros x; rewrite ?H2, ?H3, ?F1, ?F2, Q.
    + split.
      * intros [[H|H]|(l' & H & H')]; [ auto | right; exists l; auto | right; exists l'; auto ].
      * intros [H|(l' & [<-|H] & H')]; [ auto | auto | right; exists l'; auto ].
    + split.
      * intros [[H|[H H']]|(H & l' & H' & H'')]; [ auto | right; split; [ auto | exists l; auto ] | right; split; [ tauto | exists l'; auto ] ].
      * intros [H|(H & l' & [<-|H'] & H'')]; [ auto | tauto | ].
        destruct (in_dec loc_dec x ts) as [I|I].
        -- left. right. split; [ now apply Q | exact H ].
        -- right. split; [ intros [J|J]; [ auto | apply Q in J; auto ] | exists l'; auto ].
Qed.

Definition reach_inv (init working all : list loc) : Prop :=
  incl init all /\ incl working all /\ (forall x, In x all -> reachable step_of (fun y => In y init) x) /\
  (forall x, In x all -> ~ In x working -> (exists ts, succ x = Some ts) /\ forall y, step_of x y -> In y all).
Lemma reach_inv_step init working all found all' : reach_inv init working all -> reach_sources succ working ([], all) = Some (found, all') ->
  reach_inv init found all'.
Proof using succ.
  intros (I1 & I2 & I3 & I4) E. apply reach_sources_spec in E as (H1 & H2 & H3). split; [ | split; [ | split ] ].
  - intros x Hx. apply H2. auto.
  - intros x Hx. apply H2. apply H3 in Hx as [[]|(_ & H)]. auto.
  - intros x Hx. apply H2 in Hx as [Hx|(l & Hl & Hs)]; [ auto | ]. eapply reach_step; [ apply I3, I2; exact Hl | exact Hs ].
  - intros x Hx Nf. assert (Xa : In x all).
    { apply H2 in Hx as [Hx|Hx]; [ exact Hx | ]. destruct (in_dec loc_dec x all) as [I|I]; [ exact I | ]. exfalso. apply Nf. apply H3. auto. }
    destruct (in_dec loc_dec x working) as [W|W].
    + split; [ auto | ]. intros y Hy. apply H2. right. exists x. auto.
    + destruct (I4 x Xa W) as [J1 J2]. split; [ exact J1 | ]. intros y Hy. apply H2. left. auto.
Qed.
Lemma reach_loop_correct init fuel : forall working all s, reach_inv init working all -> reach_loop succ fuel working all = Reached s ->
  (forall x, In x s <-> reachable step_of (fun y => In y init) x) /\ forall x, In x s -> exists ts, succ x = Some ts.
Proof using succ.
  induction fuel as [|fuel IH]; intros working all s I E.
  - destruct working as [|w ws]; [ | discriminate ]. simpl in E. injection E as <-. destruct I as (I1 & I2 & I3 & I4). split.
    + intros x. split; [ auto | ]. induction 1 as [x H|x y H IH' Hs]; [ auto | ]. destruct (I4 x IH') as [_ J]; [ auto | ]. auto.
    + intros x Hx. apply I4; auto.
  - destruct working as [|w ws].
    + simpl in E. injection E as <-. destruct I as (I1 & I2 & I3 & I4). split.
      * intros x. split; [ auto | ]. induction 1 as [x H|x y H IH' Hs]; [ auto | ]. destruct (I4 x IH') as [_ J]; [ auto | ]. auto.
      * intros x Hx. apply I4; auto.
    + cbn [reach_loop] in E. destruct (reach_sources succ (w :: ws) ([], all)) as [[found all']|] eqn:R; [ | discriminate ].
      eapply IH; [ eapply reach_inv_step; eauto | exact E ].
Qed.
Lemma reach_inv_init init : reach_inv init init init.
Proof using succ.
  split; [ apply incl_refl | ]. split; [ apply incl_refl | ]. split; [ intros x H; now constructor | tauto ].
Qed.

Lemma reach_sources_none working : forall fr, reach_sources succ working fr = None -> exists l, In l working /\ succ l = None.
Proof using.
  induction working as [|l working IH]; simpl; intros fr E; [ discriminate | ]. destruct (succ l) eqn:S; [ destruct (IH _ E) as (l' & H & H'); eauto | eauto ].
Qed.
Lemma reach_loop_throws init fuel : forall working all, reach_inv init working all -> reach_loop succ fuel working all = ReachThrows ->
  exists l, reachable step_of (fun y => In y init) l /\ succ l = None.
Proof using succ.
  induction fuel as [|fuel IH]; intros working all I E; destruct working as [|w ws]; try discriminate.
  cbn [reach_loop] in E. destruct (reach_sources succ (w :: ws) ([], all)) as [[found all']|] eqn:R.
  - eapply IH; [ eapply reach_inv_step; eauto | exact E ].
  - apply reach_sources_none in R as (l & H & H'). exists l. split; [ apply I, I; exact H | exact H' ].
Qed.
Lemma reach_loop_more fuel : forall fuel' working all r, reach_loop succ fuel working all = r -> r <> ReachFuel -> fuel <= fuel' ->
  reach_loop succ fuel' working all = r.
Proof using.
  induction fuel as [|fuel IH]; intros fuel' working all r E N L; destruct working as [|w ws]; cbn [reach_loop] in E.
  - subst. destruct fuel'; reflexivity.
  - congruence.
  - subst. destruct fuel'; reflexivity.
  - destruct fuel' as [|fuel']; [ lia | ]. cbn [reach_loop]. destruct (reach_sources succ (w :: ws) ([], all)) as [[found all']|]; [ | exact E ].
    apply IH; [ exact E | exact N | lia ].
Qed.
Definition missing (U all : list loc) : nat := length (filter (fun u => negb (smem loc_lt u all)) U).
Lemma filter_le {A} (f g : A -> bool) l : (forall x, In x l -> g x = true -> f x = true) -> length (filter g l) <= length (filter f l).
Proof using.
  induction l as [|x l IH]; simpl; intros H; [ lia | ]. assert (I : length (filter g l) <= length (filter f l)) by (apply IH; auto).
  destruct (g x) eqn:G; [ rewrite (H x) by auto; simpl; lia | destruct (f x); simpl; lia ].
Qed.
Lemma filter_lt {A} (f g : A -> bool) l x0 : (forall x, In x l -> g x = true -> f x = true) -> In x0 l -> f x0 = true -> g x0 = false ->
  length (filter g l) < length (filter f l).
Proof using.
  induction l as [|x l IH]; simpl; intros H I F G; [ tauto | ]. destruct I as [->|I].
  - rewrite F, G. simpl. assert (length (filter g l) <= length (filter f l)) by (apply filter_le; auto). lia.
  - assert (J : length (filter g l) < length (filter f l)) by (apply IH; auto).
    destruct (g x) eqn:E; [ rewrite (H x) by auto; simpl; lia | destruct (f x); simpl; lia ].
Qed.
Lemma reach_terminates_wf (P : loc -> Prop) U : (forall l ts, P l -> succ l = Some ts -> forall t, In t ts -> In t U /\ P t) ->
  forall fuel working all, (forall l, In l working -> In l U /\ P l) -> missing U all < fuel -> reach_loop succ fuel working all <> ReachFuel.
Proof using succ.
  intros HU. induction fuel as [|fuel IH]; intros working all W M; [ lia | ]. destruct working as [|w ws]; [ discriminate | ].
  cbn [reach_loop]. destruct (reach_sources succ (w :: ws) ([], all)) as [[found all']|] eqn:R; [ | discriminate ].
  apply reach_sources_spec in R as (H1 & H2 & H3).
  assert (FU : forall x, In x found -> In x U /\ P x).
  { intros x Hx. apply H3 in Hx as [[]|(_ & l & Hl & ts & E & Ht)]. eapply HU; [ apply W; exact Hl | exact E | exact Ht ]. }
  destruct found as [|x found]; [ destruct fuel; discriminate | ]. apply IH; [ exact FU | ].
  assert (missing U all' < missing U all); [ | lia ].
  assert (Hx : ~ In x all /\ In x all').
  { destruct (proj1 (H3 x) (or_introl eq_refl)) as [[]|(Q1 & Q2)]. split; [ exact Q1 | apply H2; auto ]. }
  unfold missing. apply (filter_lt _ _ U x).
  - intros y _. rewrite !negb_true_iff, <- !not_true_iff_false, !lmem_in, H2. tauto.
  - apply FU. left. reflexivity.
  - apply negb_true_iff, not_true_iff_false. rewrite lmem_in. tauto.
  - apply negb_false_iff, lmem_in. tauto.
Qed.
Lemma reach_terminates U : (forall l ts, In l U -> succ l = Some ts -> incl ts U) ->
  forall fuel working all, incl working U -> missing U all < fuel -> reach_loop succ fuel working all <> ReachFuel.
Proof using succ.
  intros H fuel working all W M. apply (reach_terminates_wf (fun l => In l U) U); auto.
  intros l ts Hl E t Ht. pose proof (H l ts Hl E t Ht). auto.
Qed.
Lemma missing_le U all : missing U all <= length U.
Proof using. unfold missing. induction U as [|u U IH]; simpl; [ lia | ]. destruct (negb _); simpl; lia. Qed.
End REACH.

Section COMP.
Context {C : RealConst}.
Notation automaton := (@automaton C).
Notation composite := (@composite C).
Notation mode := (@mode C).

Lemma all_some_spec {A} (l : list (option A)) xs : all_some l = Some xs <-> l = map Some xs.
Proof.
  revert xs. induction l as [|[x|] l IH]; simpl; intros xs.
  - split; [ intros H; injection H as <-; reflexivity | destruct xs; [ reflexivity | discriminate ] ].
  - destruct (all_some l) as [ys|] eqn:E.
    + split; [ intros H; injection H as <-; simpl; f_equal; now apply IH | ]. destruct xs as [|y xs]; [ discriminate | ]. simpl. intros H.
      injection H as -> H. apply IH in H. congruence.
    + split; [ discriminate | ]. destruct xs as [|y xs]; [ discriminate | ]. simpl. intros H. injection H as -> H. apply IH in H. discriminate.
  - split; [ discriminate | destruct xs; discriminate ].
Qed.
Lemma all_some_map {A B} (f : A -> option B) l xs : all_some (map f l) = Some xs <-> Forall2 (fun a x => f a = Some x) l xs.
Proof.
  rewrite all_some_spec. split.
  - revert xs. induction l as [|a l IH]; intros [|x xs]; simpl; intros H; try discriminate; constructor; injection H as H1 H2; auto.
  - induction 1; simpl; congruence.
Qed.
Lemma all_some_none {A B} (f : A -> option B) l : all_some (map f l) = None <-> exists a, In a l /\ f a = None.
Proof.
  induction l as [|a l IH]; simpl; [ split; [ discriminate | intros (a & [] & _) ] | ]. destruct (f a) eqn:E.
  - destruct (all_some (map f l)).
    + split; [ discriminate | ]. intros (a' & [<-|H] & E'); [ congruence | ]. assert (X : Some l0 = None) by (apply IH; eauto). discriminate.
    + split; [ intros _ | auto ]. destruct (proj1 IH eq_refl) as (a' & H & E'). eauto.
  - split; [ intros _; eauto | auto ].
Qed.

(** ** Joins of locations *)
Lemma join_wf q1 q2 : wf_map q1 -> wf_map (join_loc q1 q2).
Proof. apply nadjoin_wf. Qed.
Lemma fold_join_wf {A} (g : A -> loc) l : forall q, wf_map q -> wf_map (fold_left (fun q x => join_loc q (g x)) l q).
Proof. induction l as [|x l IH]; simpl; intros q W; auto. apply IH. now apply join_wf. Qed.
(** When the parts agree the join is the union. *)
Lemma fold_join_in {A} (g : A -> loc) l : forall q, wf_map q -> (forall x, In x l -> wf_map (g x)) ->
  (forall x, In x l -> ~ differ q (g x)) -> (forall x y, In x l -> In y l -> ~ differ (g x) (g y)) ->
  forall kv, In kv (fold_left (fun q x => join_loc q (g x)) l q) <-> In kv q \/ exists x, In x l /\ In kv (g x).
Proof.
  induction l as [|x l IH]; simpl; intros q W Wg D1 D2 kv.
  - split; [ auto | intros [H|(x & [] & _)]; auto ].
  - assert (J : forall z, In z (join_loc q (g x)) <-> In z q \/ In z (g x)).
    { intros [k v]. unfold join_loc. rewrite nadjoin_in by auto. split; [ tauto | ]. intros [H|H]; [ auto | ].
      destruct (in_dec Nat.eq_dec k (map fst q)) as [I|I]; [ | auto ]. left. apply keys_in in I as (v' & I).
      destruct (Nat.eq_dec v' v) as [->|N]; [ exact I | ]. exfalso. apply (D1 x); [ auto | ]. exists k, v', v. auto. }
    rewrite IH.
    + rewrite J. split.
      * intros [[H|H]|(y & H & H')]; [ auto | right; exists x; auto | right; exists y; auto ].
      * intros [H|(y & [<-|H] & H')]; [ auto | auto | right; exists y; auto ].
    + now apply join_wf.
    + auto.
    + intros y Hy (k & v1 & v2 & H1 & H2 & N). apply J in H1 as [H1|H1].
      * apply (D1 y); [ auto | ]. exists k, v1, v2. auto.
      * apply (D2 x y); auto. exists k, v1, v2. auto.
    + auto.
Qed.

Lemma part_key (a : automaton) l (m : mode) e : ok a -> In (l, m) a -> exists m', In (part m e, m') a.
Proof.
  intros O H. unfold part. destruct (nfind e (m_targets m)) as [t|] eqn:E.
  - apply nfind_in in E; [ | apply (ok_maps _ O _ _ H) ]. destruct (ok_modes _ O _ _ H) as (_ & _ & _ & _ & _ & _ & _ & _ & _ & _ & T).
    destruct (T e t E) as (tm & Ht & _). eauto.
  - destruct (ok_modes _ O _ _ H) as (-> & _). eauto.
Qed.
Lemma Forall2_nth {A B} (P : A -> B -> Prop) l l' : Forall2 P l l' -> forall y, In y l' -> exists i x, nth_error l i = Some x /\ nth_error l' i = Some y /\ P x y.
Proof.
  induction 1 as [|a b l l' H F IH]; simpl; [ tauto | ]. intros y [<-|Hy]; [ exists 0, a; auto | ].
  destruct (IH y Hy) as (i & x & H1 & H2 & H3). exists (S i), x. auto.
Qed.
Lemma Forall2_nth_l {A B} (P : A -> B -> Prop) l l' : Forall2 P l l' -> forall i x, nth_error l i = Some x -> exists y, nth_error l' i = Some y /\ P x y.
Proof.
  induction 1 as [|a b l l' H F IH]; intros [|i] x; simpl; try discriminate; [ intros E; injection E as <-; eauto | auto ].
Qed.

Lemma parts_differ (c : composite) l ms e : independent c -> (forall a, In a c -> ok a) -> wf_map l -> Forall2 (fun a m => mode_at a l = Some m) c ms ->
  forall m m', In m ms -> In m' ms -> ~ differ (part m e) (part m' e).
Proof.
  intros I O W F m m' Hm Hm'. destruct (Forall2_nth _ _ _ F m Hm) as (i & a & Ha & Hi & Ea). destruct (Forall2_nth _ _ _ F m' Hm') as (j & b & Hb & Hj & Eb).
  destruct (Nat.eq_dec i j) as [<-|N].
  - assert (m = m') by congruence. subst m'. apply mode_at_some in Ea as (la & Ha' & _); [ | exact W ].
    assert (Oa : ok a) by (apply O; eapply nth_error_In; eauto). destruct (part_key a la m e Oa Ha') as (m'' & P).
    apply (within_differ _ _ (part m e)); [ eapply ok_wf; eauto | intros k v; auto | intros k v; auto ].
  - intros (k & v1 & v2 & H1 & H2 & _). apply mode_at_some in Ea as (la & Ha' & _); [ | exact W ]. apply mode_at_some in Eb as (lb & Hb' & _); [ | exact W ].
    assert (Oa : ok a) by (apply O; eapply nth_error_In; eauto). assert (Ob : ok b) by (apply O; eapply nth_error_In; eauto).
    destruct (part_key a la m e Oa Ha') as (ma & Pa). destruct (part_key b lb m' e Ob Hb') as (mb & Pb).
    apply (I i j a b k Ha Hb N); [ exists (part m e), ma | exists (part m' e), mb ]; (split; [ assumption | apply keys_in; eauto ]).
Qed.
Lemma parts_wf (c : composite) l ms e : (forall a, In a c -> ok a) -> wf_map l -> Forall2 (fun a m => mode_at a l = Some m) c ms ->
  forall m, In m ms -> wf_map (part m e).
Proof.
  intros O W F m Hm. destruct (Forall2_nth _ _ _ F m Hm) as (i & a & Ha & _ & Ea). apply mode_at_some in Ea as (la & Ha' & _); [ | exact W ].
  assert (Oa : ok a) by (apply O; eapply nth_error_In; eauto). destruct (part_key a la m e Oa Ha') as (m' & P). eapply ok_wf; eauto.
Qed.
Lemma empty_differ q : ~ differ [] q.
Proof. intros (k & x & y & [] & _). Qed.

Lemma c_target_spec (c : composite) l e t : independent c -> (forall a, In a c -> ok a) -> wf_map l -> c_target c l e = Some t ->
  wf_map t /\ (forall k v, In (k, v) t <-> exists a m, In a c /\ mode_at a l = Some m /\ In (k, v) (part m e)) /\
  forall a m, In a c -> mode_at a l = Some m -> exists m', In (part m e, m') a /\ mode_at a t = Some m'.
Proof.
  intros I O W. unfold c_target, modes_at. destruct (all_some _) as [ms|] eqn:E; [ | discriminate ]. simpl. intros H. injection H as <-.
  apply all_some_map in E. change (fun (q : loc) (m : mode) => join_loc q match nfind e (m_targets m) with Some t => t | None => m_location m end)
    with (fun (q : loc) (m : mode) => join_loc q (part m e)).
  set (t := fold_left (fun (q : loc) (m : mode) => join_loc q (part m e)) ms []).
  assert (Wt : wf_map t) by (apply (fold_join_wf (fun m => part m e)); constructor).
  assert (It : forall kv, In kv t <-> exists m, In m ms /\ In kv (part m e)).
  { intros kv. unfold t. rewrite (fold_join_in (fun m => part m e)).
    - split; [ intros [[]|H]; exact H | auto ].
    - constructor.
    - exact (parts_wf c l ms e O W E).
    - intros x _. apply empty_differ.
    - exact (parts_differ c l ms e I O W E). }
  assert (Ma : forall a m, In a c -> mode_at a l = Some m -> In m ms).
  { intros a m Ha Em. apply In_nth_error in Ha as (i & Ha). destruct (Forall2_nth_l _ _ _ E i a Ha) as (m' & Hm & Em').
    assert (m = m') by congruence. subst. eapply nth_error_In; eauto. }
  split; [ exact Wt | ]. split.
  - intros k v. rewrite It. split.
    + intros (m & Hm & Hk). destruct (Forall2_nth _ _ _ E m Hm) as (i & a & Ha & _ & Ea). exists a, m. split; [ eapply nth_error_In; eauto | auto ].
    + intros (a & m & Ha & Em & Hk). exists m. split; [ eapply Ma; eauto | exact Hk ].
  - intros a m Ha Em. pose proof Em as Em'. apply mode_at_some in Em' as (la & Hla & _); [ | exact W ].
    destruct (part_key a la m e (O a Ha) Hla) as (m' & P). exists m'. split; [ exact P | ].
    eapply mode_at_in; [ auto | exact Wt | exact P | ]. intros k v Hk. apply It. exists m. split; [ eapply Ma; eauto | exact Hk ].
Qed.

Lemma c_has_mode_spec (c : composite) l : (forall a, In a c -> ok a) -> wf_map l ->
  (c_has_mode c l = true <-> (forall a, In a c -> exists m, mode_at a l = Some m) /\
     forall k v, In (k, v) l -> exists a m, In a c /\ mode_at a l = Some m /\ In (k, v) (m_location m)).
Proof.
  intros O W. unfold c_has_mode, modes_at. destruct (all_some _) as [ms|] eqn:E.
  - apply all_some_map in E.
    assert (Lw : forall m, In m ms -> exists a, In a c /\ mode_at a l = Some m /\ wf_map (m_location m) /\ within (m_location m) l).
    { intros m Hm. destruct (Forall2_nth _ _ _ E m Hm) as (i & a & Ha & _ & Ea). apply nth_error_In in Ha. exists a. split; [ exact Ha | ]. split; [ exact Ea | ].
      apply mode_at_some in Ea as (la & Hla & Hw); [ | exact W ]. destruct (ok_modes _ (O a Ha) _ _ Hla) as (-> & _). split; [ eapply ok_wf; [ apply (O a Ha) | eauto ] | exact Hw ]. }
    assert (Ma : forall a m, In a c -> mode_at a l = Some m -> In m ms).
    { intros a m Ha Em. apply In_nth_error in Ha as (i & Ha). destruct (Forall2_nth_l _ _ _ E i a Ha) as (m' & Hm & Em').
      assert (m = m') by congruence. subst. eapply nth_error_In; eauto. }
    set (t := fold_left (fun (q : loc) (m : mode) => join_loc q (m_location m)) ms []).
    assert (Wt : wf_map t) by (apply (fold_join_wf (@m_location C)); constructor).
    assert (It : forall kv, In kv t <-> exists m, In m ms /\ In kv (m_location m)).
    { intros kv. unfold t. rewrite (fold_join_in (@m_location C)).
      - split; [ intros [[]|H]; exact H | auto ].
      - constructor.
      - intros m Hm. destruct (Lw m Hm) as (a & _ & _ & H & _). exact H.
      - intros x _. apply empty_differ.
      - intros x y Hx Hy. destruct (Lw x Hx) as (_ & _ & _ & _ & H1). destruct (Lw y Hy) as (_ & _ & _ & _ & H2). eapply within_differ; [ exact W | exact H1 | exact H2 ]. }
    assert (Tl : within t l). { intros k v H. apply It in H as (m & Hm & H). destruct (Lw m Hm) as (_ & _ & _ & _ & H1). auto. }
    rewrite (proj2 (restriction_spec t l W) Tl). simpl. rewrite are_same_eq. split.
    + intros Q. split.
      * intros a Ha. apply In_nth_error in Ha as (i & Ha). destruct (Forall2_nth_l _ _ _ E i a Ha) as (m' & _ & Em'). eauto.
      * intros k v H. rewrite <- Q in H. apply It in H as (m & Hm & H). destruct (Lw m Hm) as (a & Ha & Em & _). exists a, m. auto.
    + intros [_ H]. apply wf_ext; auto. intros [k v]. split; [ apply Tl | ]. intros Hk. destruct (H k v Hk) as (a & m & Ha & Em & Hm). apply It. exists m. split; [ eapply Ma; eauto | exact Hm ].
  - apply all_some_none in E as (a & Ha & E). split; [ discriminate | ]. intros [H _]. destruct (H a Ha) as (m & Em). congruence.
Qed.

(** ** Where the reachability of a composition can go *)
Definition combos (c : composite) : list loc := fold_left (fun acc a => flat_map (fun q => map (fun lm => join_loc q (fst lm)) a) acc) c [[]].
Lemma combos_in (c : composite) (ms : list mode) e : Forall2 (fun (a : automaton) (m : mode) => exists m', In (part m e, m') a) c ms ->
  forall acc q, In q acc -> In (fold_left (fun q m => join_loc q (part m e)) ms q) (fold_left (fun acc (a : automaton) => flat_map (fun q => map (fun lm => join_loc q (fst lm)) a) acc) c acc).
Proof.
  induction 1 as [|a m c ms (m' & H) F IH]; simpl; intros acc q Hq; [ exact Hq | ]. apply IH. apply in_flat_map. exists q. split; [ exact Hq | ].
  apply in_map_iff. exists (part m e, m'). auto.
Qed.
Lemma c_target_combo (c : composite) l e t : (forall a, In a c -> ok a) -> wf_map l -> c_target c l e = Some t -> In t (combos c) /\ wf_map t.
Proof.
  intros O W. unfold c_target, modes_at. destruct (all_some _) as [ms|] eqn:E; [ | discriminate ]. simpl. intros H. injection H as <-.
  apply all_some_map in E. split; [ | apply (fold_join_wf (fun m => part m e)); constructor ].
  unfold combos. apply (combos_in c ms e); [ | left; reflexivity ].
  assert (G : forall a, In a c -> ok a) by exact O. clear O. induction E as [|a m c ms Em E IH]; constructor.
  - apply mode_at_some in Em as (la & Hla & _); [ | exact W ]. eapply part_key; [ apply G; left; reflexivity | exact Hla ].
  - apply IH. intros a' Ha'. apply G. right. exact Ha'.
Qed.

(** ** The cache *)
Lemma cached_mode_spec (c : composite) (k : cache loc mode) r l : 0 < max_size k -> Rel (elements k) r -> length r <= max_size k ->
  (forall l m, In (l, m) r -> compute_mode c l = Ok m) ->
  let (k', m) := cached_mode c k l in m = c_mode c l /\ max_size k' = max_size k /\
    exists r', Rel (elements k') r' /\ length r' <= max_size k' /\ forall l m, In (l, m) r' -> compute_mode c l = Ok m.
Proof.
  intros Hm R L I. unfold cached_mode, c_mode.
  pose proof loc_eqb_eq as EQ.
  assert (VO : forall (l' : loc) (v : mode) (r' : list (loc * mode)), value_of loc_eqb l' r' = Some v -> In (l', v) r').
  { intros l' v r'. induction r' as [|[l0 v0] r' IH]; simpl; [ discriminate | ]. destruct (loc_eqb l' l0) eqn:E; [ | auto ]. apply EQ in E. intros Q. left. congruence. }
  assert (GET : forall (k0 : cache loc mode) (r0 : list (loc * mode)) (v : mode), max_size k0 = max_size k -> Rel (elements k0) r0 -> length r0 <= max_size k0 -> (forall l m, In (l, m) r0 -> compute_mode c l = Ok m) -> value_of loc_eqb l r0 = Some v ->
    let (k', m) := match get loc_eqb k0 l with Ret (k'', m) => (k'', Some m) | _ => (k0, None) end in
    m = (match compute_mode c l with Ok m => Some m | Throw _ => None end) /\ max_size k' = max_size k /\
    exists r', Rel (elements k') r' /\ length r' <= max_size k' /\ forall l m, In (l, m) r' -> compute_mode c l = Ok m).
  { intros k0 r0 v M0 R0 L0 I0 V0. destruct (Rel_get loc_eqb EQ k0 r0 l v R0 V0) as (k1 & -> & M1 & R1).
    rewrite (I0 l v (VO _ _ _ V0)). split; [ reflexivity | ]. split; [ congruence | ]. exists ((l, v) :: without loc_eqb l r0).
    split; [ exact R1 | ]. split; [ rewrite (length_without loc_eqb EQ r0 l v); [ lia | apply R0 | exact V0 ] | ].
    intros l' m' [Q|Q]; [ injection Q as <- <-; apply I0; now apply VO | ]. apply I0. unfold without in Q. apply filter_In in Q. tauto. }
  unfold has_label. destruct (find loc_eqb l (elements k)) as [av|] eqn:F.
  - destruct (value_of loc_eqb l r) as [v|] eqn:V; [ | apply (Rel_find_none loc_eqb EQ _ _ l R) in V; congruence ]. apply (GET k r v); auto.
  - apply (Rel_find_none loc_eqb EQ _ _ l R) in F. destruct (compute_mode c l) as [m|er] eqn:E.
    + destruct (Rel_put loc_eqb EQ k r l m Hm R L F) as (k1 & -> & M1 & R1). apply (GET k1 (firstn (max_size k) ((l, m) :: r)) m); auto.
      * rewrite firstn_length. simpl. lia.
      * intros l' m' H. assert (In (l', m') ((l, m) :: r)).
        { rewrite <- (firstn_skipn (max_size k)). apply in_or_app. left. exact H. }
        destruct H0 as [Q|Q]; [ injection Q as <- <-; exact E | auto ].
      * destruct (max_size k); [ lia | ]. simpl. rewrite (proj2 (EQ l l)) by reflexivity. reflexivity.
    + split; [ reflexivity | ]. split; [ reflexivity | ]. exists r. auto.
Qed.
Lemma cached_modes_spec (c : composite) ls : forall (k : cache loc mode) r, 0 < max_size k -> Rel (elements k) r -> length r <= max_size k ->
  (forall l m, In (l, m) r -> compute_mode c l = Ok m) -> cached_modes c k ls = map (c_mode c) ls.
Proof.
  induction ls as [|l ls IH]; simpl; intros k r Hm R L I; [ reflexivity | ].
  pose proof (cached_mode_spec c k r l Hm R L I) as H. destruct (cached_mode c k l) as [k' m]. destruct H as (-> & M & r' & R' & L' & I').
  f_equal. eapply IH; eauto. lia.
Qed.

(** ** Guards *)
Lemma fold_join_kinds (ms : list mode) e k : forall m, wf_map (m_kinds m) -> (forall m', In m' ms -> wf_map (m_kinds m')) ->
  nfind e (m_kinds (fold_left join_mode ms m)) = Some k <->
  nfind e (m_kinds m) = Some k \/ (nfind e (m_kinds m) = None /\ exists p m1 q, ms = p ++ m1 :: q /\ nfind e (m_kinds m1) = Some k /\ forall m', In m' p -> nfind e (m_kinds m') = None).
Proof.
  induction ms as [|m1 ms IH]; simpl; intros m W Wm.
  - split; [ auto | ]. intros [H|(_ & p & m1 & q & E & _)]; [ exact H | destruct p; discriminate ].
  - assert (W' : wf_map (m_kinds (join_mode m m1))) by (apply nadjoin_wf; exact W).
    rewrite IH by auto.
    assert (J : forall k0, nfind e (m_kinds (join_mode m m1)) = Some k0 <-> nfind e (m_kinds m) = Some k0 \/ (nfind e (m_kinds m) = None /\ nfind e (m_kinds m1) = Some k0)).
    { intros k0. rewrite (nfind_in _ e k0 W'). simpl. rewrite nadjoin_in by auto. simpl. rewrite nfind_none, !nfind_in by auto. tauto. }
    assert (JN : nfind e (m_kinds (join_mode m m1)) = None <-> nfind e (m_kinds m) = None /\ nfind e (m_kinds m1) = None).
    { destruct (nfind e (m_kinds (join_mode m m1))) as [k0|] eqn:E; split; intros H; try discriminate.
      - destruct (proj1 (J k0) eq_refl) as [Q|[_ Q]]; destruct H; congruence.
      - destruct (nfind e (m_kinds m)) as [k0|] eqn:E1.
        + assert (X : None = Some k0) by (apply J; auto). discriminate.
        + split; [ reflexivity | ]. destruct (nfind e (m_kinds m1)) as [k0|] eqn:E2; [ | reflexivity ]. assert (X : None = Some k0) by (apply J; auto). discriminate.
      - reflexivity. }
    rewrite J, JN. split.
    + intros [[H|[H H']]|([H H'] & p & m2 & q & -> & H1 & H2)].
      * auto.
      * right. split; [ exact H | ]. exists [], m1, ms. split; [ reflexivity | ]. split; [ exact H' | intros m' [] ].
      * right. split; [ exact H | ]. exists (m1 :: p), m2, q. split; [ reflexivity | ]. split; [ exact H1 | ]. intros m' [<-|Q]; auto.
    + intros [H|(H & [|m0 p] & m2 & q & E & H1 & H2)]; [ auto | | ].
      * injection E as -> ->. auto.
      * injection E as -> ->. right. split; [ split; [ exact H | apply H2; left; reflexivity ] | ]. exists p, m2, q. split; [ reflexivity | ]. split; [ exact H1 | ]. intros m' Q. apply H2. right. exact Q.
Qed.
End COMP.

Section GUARD.
Context {C : RealConst} (val : C -> R).
Lemma plain_constant und rho p : plain p -> (is_kconstant p true = true <-> p = KCst TRUE) /\ (is_kconstant p false = true <-> p = KCst FALSE) /\
  (p = KCst TRUE -> ptrue val und rho p) /\ (p = KCst FALSE -> ~ ptrue val und rho p).
Proof.
  intros P. split; [ | split; [ | split; intros ->; simpl; tauto ] ]; (split; [ | intros ->; reflexivity ]).
  - destruct p as [k| | | | | |]; try discriminate. destruct k; try contradiction P; [ discriminate | reflexivity ] || reflexivity || discriminate.
  - destruct p as [k| | | | | |]; try discriminate. destruct k; try contradiction P; reflexivity || discriminate.
Qed.
Lemma conjoin_true und rho r g : plain r -> plain g -> plain (conjoin r g) /\ (ptrue val und rho (conjoin r g) <-> ptrue val und rho r /\ ptrue val und rho g).
Proof.
  intros Pr Pg. destruct (plain_constant und rho r Pr) as (R1 & R2 & R3 & R4). destruct (plain_constant und rho g Pg) as (G1 & G2 & G3 & G4).
  unfold conjoin. destruct (is_kconstant r true) eqn:E1; simpl.
  - split; [ exact Pg | ]. apply proj1 in R1. specialize (R1 eq_refl). tauto.
  - destruct (is_kconstant g false) eqn:E2; simpl.
    + split; [ exact Pg | ]. apply proj1 in G2. specialize (G2 eq_refl). tauto.
    + destruct (is_kconstant g true) eqn:E3; simpl.
      * split; [ exact Pr | ]. apply proj1 in G1. specialize (G1 eq_refl). tauto.
      * destruct (is_kconstant r false) eqn:E4; simpl.
        -- split; [ exact Pr | ]. apply proj1 in R2. specialize (R2 eq_refl). tauto.
        -- split; [ exact I | reflexivity ].
Qed.
Lemma conjoin_all und rho ps : forall r, plain r -> (forall p, In p ps -> plain p) ->
  (ptrue val und rho (fold_left conjoin ps r) <-> ptrue val und rho r /\ forall p, In p ps -> ptrue val und rho p).
Proof.
  induction ps as [|p ps IH]; simpl; intros r Pr Pp; [ split; [ intros H; split; [ exact H | tauto ] | tauto ] | ].
  destruct (conjoin_true und rho r p Pr (Pp p (or_introl eq_refl))) as [H1 H2]. rewrite IH by auto. rewrite H2. split.
  - intros [[Q1 Q2] Q3]. split; [ exact Q1 | ]. intros p' [<-|H]; auto.
  - intros [Q1 Q2]. split; [ split; auto | auto ].
Qed.
Lemma conjoin_defined rho ps : forall r, pdefined val rho r -> (forall p, In p ps -> pdefined val rho p) -> pdefined val rho (fold_left conjoin ps r).
Proof.
  induction ps as [|p ps IH]; simpl; intros r Pr Pp; [ exact Pr | ]. apply IH; [ | auto ].
  unfold conjoin. destruct (_ || _); [ auto | ]. destruct (_ || _); [ exact Pr | ]. simpl. auto.
Qed.
End GUARD.
