From Coq Require Import List Bool Arith Sorted Lia.
From Verif Require Import HybridPaving_Model HybridPaving_Spec HybridPaving_Proofs HybridSet_Model HybridSet_Spec HybridSet_Proofs.
Import ListNotations.

Section SETS.
  Variable O : set_ops.
  Variables (point : Type) (ins : set O -> point -> Prop) (inb : ebox O -> point -> Prop).
  Notation mem := (member ins). Notation boxed := (member inb).

  (** C170: adjoining a set in a new location adds its points there and nothing else, and keeps the locations in order.  Missing: a location which
      already has a set ([C170_adjoin_refuted]). *)
  Theorem C170_adjoin_partial : forall m q s, ordered m -> (forall t, ~ In (q, t) m) ->
    ordered (adjoin O m q s) /\ forall k x, mem (adjoin O m q s) k x <-> mem m k x \/ (k = q /\ ins s x).
  Proof.
    intros m q s Om N. assert (E : find q m = None). { destruct (find q m) as [t|] eqn:E; [|reflexivity]. exfalso. exact (N t (find_In _ q m t E)). }
    assert (Oa : ordered (adjoin O m q s)) by (apply insert_ordered; exact Om). split; [exact Oa|].
    intros k x. rewrite !member_find by assumption. unfold adjoin. rewrite find_insert by exact Om. rewrite E. destruct (Nat.eqb_spec k q) as [->|D].
    - split; [intros [t [H X]]; injection H as <-; right; split; [reflexivity|exact X]|]. intros [[t [H _]]|[_ X]]; [rewrite E in H; discriminate|exists s; split; [reflexivity|exact X]].
    - split; [intros H; left; exact H|]. intros [H|[H _]]; [exact H|contradiction].
  Qed.
  (** the set given in each of several locations has the points of that set in those locations and no others *)
  Theorem C170_everywhere_partial : forall qs s, ordered (everywhere O qs s) /\ forall k x, mem (everywhere O qs s) k x <-> In k qs /\ ins s x.
  Proof.
    intros qs s. assert (Oe : ordered (everywhere O qs s)) by (apply (fold_insert_ordered _ nat (fun q => q) (fun _ => s)); constructor). split; [exact Oe|].
    intros k x. rewrite member_find by exact Oe. unfold everywhere, adjoin. rewrite (find_fold_insert _ nat (fun q => q) (fun _ => s)) by constructor. cbn [find].
    split.
    - intros [t [H X]]. apply find_In in H. apply in_map_iff in H. destruct H as [q [E I]]. injection E as <- <-. split; assumption.
    - intros [I X]. exists s. split; [|exact X]. clear - I. induction qs as [|c qs IH]; [destruct I|]. cbn [map find]. destruct (Nat.eqb_spec k c) as [E|E]; [reflexivity|].
      apply IH. destruct I as [I|I]; [congruence|exact I].
  Qed.
  (** the set built from a list of sets in different locations is their union *)
  Theorem C170_of_list_partial : forall l, NoDup (map fst l) -> ordered (of_list O l) /\ forall k x, mem (of_list O l) k x <-> mem l k x.
  Proof.
    intros l D. assert (Oe : ordered (of_list O l)) by (apply (fold_insert_ordered _ (nat * set O) fst snd); constructor). split; [exact Oe|].
    intros k x. rewrite member_find by exact Oe. unfold of_list, adjoin. rewrite (find_fold_insert _ (nat * set O) fst snd) by constructor. cbn [find].
    replace (map (fun e : nat * set O => (fst e, snd e)) l) with l by (symmetry; erewrite map_ext; [apply map_id|intros [? ?]; reflexivity]).
    split; intros [t [H X]]; exists t; (split; [|exact X]); [apply find_In; exact H|].
    clear - D H. induction l as [|[c s] l IH]; [destruct H|]. cbn [map fst] in D. inversion D as [|y z N D']; subst. cbn [find]. destruct H as [H|H].
    - injection H as -> ->. rewrite Nat.eqb_refl. reflexivity.
    - destruct (Nat.eqb_spec k c) as [->|E]; [exfalso; apply N; exact (in_map fst _ _ H)|apply IH; assumption].
  Qed.
  (** a set adjoined in a location which already has one is ignored, whatever the sets are *)
  Theorem C170_adjoin_ignored_refuted : forall m q s t, ordered m -> In (q, t) m -> adjoin O m q s = m.
  Proof. intros m q s t Om I. apply (insert_length_present _ q s m t Om). apply In_find; assumption. Qed.

  Hypothesis R : right_sets O point ins inb.
  (** C171: an answer true to a question about a box in any location is right *)
  Theorem C171_overlaps : forall m q bx, ordered m -> overlaps O m q bx = true -> exists x, mem m q x /\ inb bx x.
  Proof using R.
    intros m q bx Om H. unfold overlaps in H. destruct (find q m) as [s|] eqn:E; [|discriminate]. destruct (r_overlaps _ _ _ _ R s bx H) as [x [X Y]].
    exists x. split; [exists s; split; [apply find_In; exact E|exact X]|exact Y].
  Qed.
  Theorem C171_covers : forall m q bx, ordered m -> covers O m q bx = true -> forall x, inb bx x -> mem m q x.
  Proof using R.
    intros m q bx Om H x X. unfold covers in H. destruct (find q m) as [s|] eqn:E; [|exfalso; exact (r_empty _ _ _ _ R bx H x X)].
    exists s. split; [apply find_In; exact E|exact (r_covers _ _ _ _ R s bx H x X)].
  Qed.
  Theorem C171_separated : forall m q bx, ordered m -> separated O m q bx = true -> forall x, mem m q x -> ~ inb bx x.
  Proof using R.
    intros m q bx Om H x M. apply (proj1 (member_find _ _ _ m q x Om)) in M. destruct M as [s [E X]]. unfold separated in H. rewrite E in H.
    exact (r_separated _ _ _ _ R s bx H x X).
  Qed.
  (** in a location without a set the answers are as definite as possible *)
  Theorem C171_missing : forall m q bx, (forall s, ~ In (q, s) m) -> overlaps O m q bx = false /\ separated O m q bx = true /\ covers O m q bx = b_is_empty O bx.
  Proof using.
    intros m q bx N. unfold overlaps, separated, covers. destruct (find q m) as [s|] eqn:E; [exfalso; exact (N s (find_In _ q m s E))|]. repeat split.
  Qed.

  (** C172: if inside is true then every point is in the box of its location.  Missing: an answer for boxes which lack a location of the set
      ([C172_inside_missing_refuted]). *)
  Theorem C172_inside_partial : forall m bxs, inside O m bxs = Some true -> forall q x, mem m q x -> boxed bxs q x.
  Proof using R.
    intros m bxs H q x [s [I X]]. destruct (inside_from_answer O m true bxs true H eq_refl) as [_ B]. destruct (B q s I) as [bx [E S]].
    exists bx. split; [apply find_In; exact E|exact (r_inside _ _ _ _ R s bx S x X)].
  Qed.
  (** and it is true if the sets of all locations are found to be inside *)
  Theorem C172_inside_complete_partial : forall m bxs, (forall q s, In (q, s) m -> exists bx, find q bxs = Some bx /\ s_inside O s bx = true) -> inside O m bxs = Some true.
  Proof using. intros m bxs H. apply inside_from_complete; [reflexivity|exact H]. Qed.
  (** there is an answer exactly if the boxes have every location of the set *)
  Theorem C172_inside_missing_refuted : forall m bxs, inside O m bxs <> None <-> forall q, In q (map fst m) -> exists bx, In (q, bx) bxs.
  Proof using.
    intros m bxs. unfold inside. rewrite <- inside_from_defined. unfold locations. split; intros H q I; specialize (H q I).
    - destruct (find q bxs) as [bx|] eqn:E; [exists bx; apply find_In; exact E|congruence].
    - destruct H as [bx H]. intros E. exact (find_None _ q bxs E bx H).
  Qed.
  (** the bounding box has every location, and the box of a location contains the points there *)
  Theorem C172_bounding_box_partial : forall m, ordered m -> ordered (bounding_box O m) /\ map fst (bounding_box O m) = map fst m /\ forall q x, mem m q x -> boxed (bounding_box O m) q x.
  Proof using R.
    intros m Om. assert (Ob : ordered (bounding_box O m)) by (apply (fold_insert_ordered _ (nat * set O) fst (fun e => s_bound O (snd e))); constructor).
    assert (F : forall k, find k (bounding_box O m) = option_map (s_bound O) (find k m)).
    { intros k. unfold bounding_box. rewrite (find_fold_insert _ (nat * set O) fst (fun e => s_bound O (snd e))) by constructor. cbn [find].
      clear. induction m as [|[c s] m IH]; [reflexivity|]. cbn [map find fst snd]. destruct (Nat.eqb k c); [reflexivity|exact IH]. }
    split; [exact Ob|]. split.
    - assert (U : forall l1 l2, StronglySorted lt l1 -> StronglySorted lt l2 -> (forall k, In k l1 <-> In k l2) -> l1 = l2).
      { clear. induction l1 as [|a l1 IH]; intros [|b l2] S1 S2 H; [reflexivity|exfalso; exact (proj2 (H b) (or_introl eq_refl))|exfalso; exact (proj1 (H a) (or_introl eq_refl))|].
        inversion S1 as [|? ? T1 F1]; subst. inversion S2 as [|? ? T2 F2]; subst. assert (a = b).
        { destruct (proj1 (H a) (or_introl eq_refl)) as [E|E]; [symmetry; exact E|]. destruct (proj2 (H b) (or_introl eq_refl)) as [E'|E']; [exact E'|].
          pose proof (proj1 (Forall_forall _ _) F2 a E). pose proof (proj1 (Forall_forall _ _) F1 b E'). lia. }
        subst b. f_equal. apply IH; [assumption|assumption|]. intros k. split; intros I.
        - destruct (proj1 (H k) (or_intror I)) as [E|E]; [|exact E]. pose proof (proj1 (Forall_forall _ _) F1 k I). lia.
        - destruct (proj2 (H k) (or_intror I)) as [E|E]; [|exact E]. pose proof (proj1 (Forall_forall _ _) F2 k I). lia. }
      apply U; [exact Ob|exact Om|]. assert (K : forall T k (l : list (nat * T)), In k (map fst l) <-> find k l <> None).
      { intros T k l. split; [intros I E; apply in_map_iff in I; destruct I as [[c t] [<- I]]; exact (find_None _ _ l E t I)|].
        intros N. destruct (find k l) as [t|] eqn:E; [|congruence]. exact (in_map fst _ _ (find_In _ k l t E)). }
      intros k. rewrite !K, F. destruct (find k m); cbn; split; congruence.
    - intros q x M. apply (proj1 (member_find _ _ _ m q x Om)) in M. destruct M as [s [E X]]. exists (s_bound O s). split; [|exact (r_bound _ _ _ _ R s x X)].
      apply find_In. rewrite F, E. reflexivity.
  Qed.
End SETS.

(** C173: the intersection of boxes with a constraint set is the set of the points in both, if the constraint set has every location of the boxes.
    Missing: the other cases ([C173_intersection_refuted]). *)
Theorem C173_intersection_partial : forall V C B (meet : V -> C -> B) plain point (inv : V -> point -> Prop) (inc : C -> point -> Prop) (inbc : B -> point -> Prop) bounds cs,
  (forall v c x, inbc (meet v c) x <-> inv v x /\ inc c x) -> ordered bounds -> ordered cs -> (forall q v, In (q, v) bounds -> exists c, In (q, c) cs) ->
  exists r, intersection V C B meet plain bounds cs = Some r /\ ordered r /\ forall q x, member inbc r q x <-> member inv bounds q x /\ member inc cs q x.
Proof.
  intros V C B meet plain point inv inc inbc bounds cs M Ob Oc H. destruct (intersection V C B meet plain bounds cs) as [r|] eqn:E.
  - exists r. split; [reflexivity|]. destruct (intersection_from_some V C B meet plain bounds [] cs r Ob ltac:(constructor) E) as [Or F]. split; [exact Or|].
    intros q x. rewrite !member_find by assumption. rewrite F. cbn [find]. destruct (find q bounds) as [v|]; [|split; [intros [b [K _]]; discriminate|intros [[v [K _]] _]; discriminate]].
    destruct (find q cs) as [c|]; [|split; [intros [b [K _]]; discriminate|intros [_ [c [K _]]]; discriminate]]. split.
    + intros [b [K X]]. injection K as <-. apply M in X. destruct X as [X Y]. split; [exists v|exists c]; (split; [reflexivity|assumption]).
    + intros [[v' [K X]] [c' [K' Y]]]. injection K as <-. injection K' as <-. exists (meet v c). split; [reflexivity|apply M; split; assumption].
  - exfalso. apply (proj1 (intersection_from_defined V C B meet plain bounds [] cs)); [|exact E]. intros q I N. apply in_map_iff in I. destruct I as [[k v] [<- I]].
    destruct (H k v I) as [c Hc]. exact (find_None _ _ cs N c Hc).
Qed.
(** whatever the sets are, the assertion fails if a location of the boxes is missing in the constraint set *)
Theorem C173_intersection_any_refuted : forall V C B (meet : V -> C -> B) plain bounds cs q v, In (q, v) bounds -> (forall c, ~ In (q, c) cs) -> intersection V C B meet plain bounds cs = None.
Proof.
  intros V C B meet plain bounds cs q v I N. destruct (intersection V C B meet plain bounds cs) eqn:E; [|reflexivity]. exfalso.
  apply (proj2 (intersection_from_defined V C B meet plain bounds [] cs)) with (q := q); [unfold intersection in E; rewrite E; discriminate|exact (in_map fst _ _ I)|].
  destruct (find q cs) as [c|] eqn:F; [|reflexivity]. exfalso. exact (N c (find_In _ q cs c F)).
Qed.

(** C174: the iterator visits every cell of every location once, in the order of the locations and of the cells in each, whichever locations are
    empty, and then is at the end *)
Theorem C174_iterator : forall cell (m : hmap cell) n, length (flat_map snd m) <= n -> loop cell n (begin cell m) = Some (flat_map (fun e => map (fun c => (fst e, c)) (snd e)) m).
Proof.
  intros cell m n L. destruct m as [|[q cs] m]; [destruct n; reflexivity|]. unfold begin. apply (loop_from cell n m q cs).
  revert L. clear. generalize ((q, cs) :: m) as l. intros l. unfold all_cells. assert (E : length (flat_map (fun e => map (pair (fst e)) (snd e)) l) = length (flat_map (fun e : nat * list cell => snd e) l)).
  { induction l as [|[c t] l IH]; [reflexivity|]. cbn [flat_map fst snd]. rewrite !app_length, map_length, IH. reflexivity. }
  rewrite E. intros H. exact H.
Qed.

(** sets and boxes of numbers *)
Definition numbers : set_ops := {|
  set := list nat; ebox := list nat;
  s_overlaps := fun s b => existsb (fun x => existsb (Nat.eqb x) b) s; s_covers := fun s b => forallb (fun x => existsb (Nat.eqb x) s) b;
  s_separated := fun s b => negb (existsb (fun x => existsb (Nat.eqb x) b) s); s_inside := fun s b => forallb (fun x => existsb (Nat.eqb x) b) s;
  s_bound := fun s => s; b_is_empty := fun b => match b with [] => true | _ => false end |}.
Definition isin (l : list nat) (x : nat) : Prop := In x l.
Lemma isin_existsb : forall l x, existsb (Nat.eqb x) l = true <-> In x l.
Proof. intros l x. rewrite existsb_exists. split; [intros [y [I E]]; apply Nat.eqb_eq in E; subst y; exact I|intros I; exists x; split; [exact I|apply Nat.eqb_refl]]. Qed.
Lemma numbers_right : right_sets numbers nat isin isin.
Proof.
  constructor; cbn [numbers s_overlaps s_covers s_separated s_inside s_bound b_is_empty set ebox]; unfold isin.
  - intros s b H. apply existsb_exists in H. destruct H as [x [I E]]. apply isin_existsb in E. exists x. split; assumption.
  - intros s b H x I. apply isin_existsb. exact (proj1 (forallb_forall _ _) H x I).
  - intros s b H x I J. apply negb_true_iff in H. apply Bool.not_true_iff_false in H. apply H. apply existsb_exists. exists x. split; [exact I|apply isin_existsb; exact J].
  - intros s b H x I. apply isin_existsb. exact (proj1 (forallb_forall _ _) H x I).
  - intros s x I. exact I.
  - intros [|a b] H x I; [exact I|discriminate].
Qed.
(** the points of a second set adjoined in a location are not in the result *)
Theorem C170_adjoin_refuted : exists m q s x, ordered m /\ isin s x /\ ~ member isin (adjoin numbers m q s) q x.
Proof.
  exists [(0, [7])], 0, [8], 8. split; [repeat constructor|]. split; [left; reflexivity|]. intros [t [[I|[]] X]]. injection I as <-. destruct X as [X|[]]. discriminate.
Qed.
(** the set has no points in the location missing in the boxes, but there is no answer *)
Theorem C172_inside_refuted : exists m bxs, ordered m /\ ordered bxs /\ (forall q x, member isin m q x -> member isin bxs q x) /\ inside numbers m bxs = None.
Proof.
  exists [(0, [7]); (1, [])], [(0, [7; 8])]. split; [repeat constructor; lia|]. split; [repeat constructor|]. split; [|reflexivity].
  intros q x [s [[I|[I|[]]] X]]; injection I as <- <-; [|destruct X]. exists [7; 8]. split; [left; reflexivity|]. destruct X as [<-|[]]. left. reflexivity.
Qed.
(** boxes in two locations and a constraint in one of them *)
Theorem C173_intersection_refuted : exists bounds cs, ordered bounds /\ ordered cs /\ (exists q x, member isin bounds q x /\ member isin cs q x) /\
  intersection (list nat) (list nat) (list nat) (fun v c => filter (fun x => existsb (Nat.eqb x) c) v) (fun v => v) bounds cs = None.
Proof.
  exists [(0, [7]); (1, [7])], [(0, [7])]. split; [repeat constructor; lia|]. split; [repeat constructor|]. split; [|reflexivity].
  exists 0, 7. split; (exists [7]; split; [left; reflexivity|left; reflexivity]).
Qed.

Example C170_nonvacuous : adjoin numbers [(0, [7]); (2, [9])] 1 [8] = [(0, [7]); (1, [8]); (2, [9])] /\ everywhere numbers [2; 0] [5] = [(0, [5]); (2, [5])] /\ of_list numbers [(2, [5]); (0, [6])] = [(0, [6]); (2, [5])].
Proof. repeat split. Qed.
Example C171_nonvacuous : right_sets numbers nat isin isin /\ overlaps numbers [(0, [7]); (1, [8; 9])] 1 [9; 10] = true /\ covers numbers [(0, [7]); (1, [8; 9])] 1 [9] = true /\ separated numbers [(0, [7]); (1, [8; 9])] 0 [9] = true
  /\ overlaps numbers [(0, [7])] 1 [7] = false /\ separated numbers [(0, [7])] 1 [7] = true.
Proof. split; [exact numbers_right|repeat split]. Qed.
Example C172_nonvacuous : inside numbers [(0, [7]); (1, [8])] [(0, [6; 7]); (1, [8; 9])] = Some true /\ inside numbers [(0, [7]); (1, [8])] [(0, [6]); (1, [8])] = Some false /\ bounding_box numbers [(0, [7]); (1, [8])] = [(0, [7]); (1, [8])].
Proof. repeat split. Qed.
Example C173_nonvacuous : intersection (list nat) (list nat) (list nat) (fun v c => filter (fun x => existsb (Nat.eqb x) c) v) (fun v => v) [(0, [7; 8]); (1, [7; 9])] [(0, [8]); (1, [7; 9]); (2, [1])] = Some [(0, [8]); (1, [7; 9])].
Proof. reflexivity. Qed.
Example C174_nonvacuous : loop nat 3 (begin nat [(0, []); (1, [4; 5]); (2, []); (3, [6]); (4, [])]) = Some [(1, 4); (1, 5); (3, 6)].
Proof. reflexivity. Qed.
Print Assumptions C170_adjoin_partial.
Print Assumptions C170_everywhere_partial.
Print Assumptions C170_of_list_partial.
Print Assumptions C170_adjoin_ignored_refuted.
Print Assumptions C171_overlaps.
Print Assumptions C171_covers.
Print Assumptions C171_separated.
Print Assumptions C171_missing.
Print Assumptions C172_inside_partial.
Print Assumptions C172_inside_complete_partial.
Print Assumptions C172_inside_missing_refuted.
Print Assumptions C172_bounding_box_partial.
Print Assumptions C173_intersection_partial.
Print Assumptions C173_intersection_any_refuted.
Print Assumptions C174_iterator.
Print Assumptions C170_adjoin_refuted.
Print Assumptions C172_inside_refuted.
Print Assumptions C173_intersection_refuted.
