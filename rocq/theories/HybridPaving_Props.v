(** Properties C166-C169: pavings of hybrid state spaces. *)
From Coq Require Import List Bool Arith Sorted Lia.
From Verif Require Import HybridPaving_Model HybridPaving_Spec HybridPaving_Proofs.
Import ListNotations.

Section ANY.
  Variable G : paving_ops.
  Variables (point : Type) (inp : paving G -> point -> Prop) (inb : box G -> point -> Prop).
  Hypothesis RP : right_pavings G point inp inb.
  Notation mem := (member G point inp).

  (** ** C166: union, difference, emptiness *)
  Theorem C166_adjoin : forall m other, ordered m -> ordered other ->
    ordered (adjoin G m other) /\ forall q x, mem (adjoin G m other) q x <-> mem m q x \/ mem other q x.
  Proof using RP.
    intros m other O O'. pose proof (merge_ordered G (g_adjoin G) other m O) as OM. split; [exact OM|]. intros q x.
    rewrite (member_get G point inp inb RP _ q x OM), (member_get G point inp inb RP _ q x O), (member_find G point inp other q x O').
    unfold adjoin. rewrite get_merge by exact O'. destruct (find q other) as [s|].
    - rewrite (r_adjoin _ _ _ _ RP). split; (intros [H|H]; [left; exact H|right]); [exists s; split; [reflexivity|exact H]|]. destruct H as [t [E H]]. injection E as ->. exact H.
    - split; [intros H; left; exact H|intros [H|[t [E _]]]; [exact H|discriminate]].
  Qed.
  Theorem C166_remove : forall m other, ordered m -> ordered other ->
    ordered (remove G m other) /\ forall q x, mem (remove G m other) q x <-> mem m q x /\ ~ mem other q x.
  Proof using RP.
    intros m other O O'. pose proof (merge_ordered G (g_remove G) other m O) as OM. split; [exact OM|]. intros q x.
    rewrite (member_get G point inp inb RP _ q x OM), (member_get G point inp inb RP _ q x O), (member_find G point inp other q x O').
    unfold remove. rewrite get_merge by exact O'. destruct (find q other) as [s|].
    - rewrite (r_remove _ _ _ _ RP). split; intros [H N]; (split; [exact H|]); intros Q; apply N; [destruct Q as [t [E Q]]; injection E as ->; exact Q|exists s; split; [reflexivity|exact Q]].
    - split; [intros H; split; [exact H|intros [t [E _]]; discriminate]|intros [H _]; exact H].
  Qed.
  Theorem C166_clear : forall m q x, ~ mem (clear G m) q x.
  Proof using RP. intros m q x [t [H X]]. apply in_map_iff in H. destruct H as [[k s] [E _]]. injection E as <- <-. exact (r_clear _ _ _ _ RP s x X). Qed.
  Theorem C166_is_empty : forall m, is_empty G m = true <-> forall q x, ~ mem m q x.
  Proof using RP.
    intros m. unfold is_empty. rewrite forallb_forall. split.
    - intros H q x [t [I X]]. exact (proj1 (r_empty _ _ _ _ RP t) (H (q, t) I) x X).
    - intros H [q t] I. apply (r_empty _ _ _ _ RP). intros x X. apply (H q x). exists t. split; assumption.
  Qed.

  (** ** C167: intersection in place, in the locations of the other paving; the others are not changed *)
  Theorem C167_restrict_partial : forall m other, ordered m -> ordered other ->
    ordered (restrict G m other) /\ forall q x, mem (restrict G m other) q x <-> mem m q x /\ (mem other q x \/ ~ In q (map fst other)).
  Proof using RP.
    intros m other O O'. pose proof (merge_ordered G (g_restrict G) other m O) as OM. split; [exact OM|]. intros q x.
    rewrite (member_get G point inp inb RP _ q x OM), (member_get G point inp inb RP _ q x O), (member_find G point inp other q x O').
    unfold restrict. rewrite get_merge by exact O'. destruct (find q other) as [s|] eqn:E.
    - rewrite (r_restrict _ _ _ _ RP). split.
      + intros [H H']. split; [exact H|left; exists s; split; [reflexivity|exact H']].
      + intros [H [[t [Q H']]|N]]; [injection Q as ->; split; assumption|]. exfalso. apply N. apply find_In in E. exact (in_map fst _ _ E).
    - split; [intros H; split; [exact H|right]|intros [H _]; exact H]. intros Q. apply in_map_iff in Q. destruct Q as [[k t] [Ek I]]. cbn in Ek. subst k. exact (find_None _ q other E t I).
  Qed.

  (** ** C168: comparison with boxes *)
  Theorem C168_overlaps_partial : forall m q bx, overlaps G m q bx = Some true -> exists x, mem m q x /\ inb bx x.
  Proof using RP.
    intros m q bx H. unfold overlaps in H. destruct (find q m) as [t|] eqn:E; [|discriminate]. injection H as H. destruct (r_overlaps _ _ _ _ RP t bx H) as [x [X B]].
    exists x. split; [exists t; split; [apply find_In; exact E|exact X]|exact B].
  Qed.
  Theorem C168_covers_partial : forall m q bx, covers G m q bx = Some true -> forall x, inb bx x -> mem m q x.
  Proof using RP.
    intros m q bx H x B. unfold covers in H. destruct (find q m) as [t|] eqn:E; [|discriminate]. injection H as H.
    exists t. split; [apply find_In; exact E|exact (r_covers _ _ _ _ RP t bx H x B)].
  Qed.
  (** a paving which has cells in at most one location *)
  Theorem C168_inside_partial : forall m bxs, ordered m -> (forall q q' x x', mem m q x -> mem m q' x' -> q = q') ->
    inside G m bxs = Some true -> forall q x, mem m q x -> boxed G point inb bxs q x.
  Proof using RP.
    intros m bxs O One H q x [t [I X]]. assert (Hone : forall q' t' x', In (q', t') m -> inp t' x' -> q' = q).
    { intros q' t' x' I' X'. apply (One q' q x' x); [exists t'|exists t]; split; assumption. }
    clear One. induction m as [|[k s] m IH]; [destruct I|]. unfold ordered in O. cbn [map fst] in O. inversion O as [|y z S F]; subst. cbn [inside] in H.
    destruct (g_is_empty G s) eqn:E; cbn [negb] in H.
    - apply IH; [exact S|exact H| |intros q' t' x' I' X'; exact (Hone q' t' x' (or_intror I') X')]. destruct I as [I|I]; [|exact I].
      injection I as -> ->. exfalso. exact (proj1 (r_empty _ _ _ _ RP t) E x X).
    - destruct (find k bxs) as [bx|] eqn:Eb; [|discriminate]. injection H as H. destruct I as [I|I].
      + injection I as -> ->. exists bx. split; [exact Eb|exact (r_inside _ _ _ _ RP t bx H x X)].
      + exfalso. assert (K : k <> q). { intros ->. pose proof (proj1 (Forall_forall _ _) F q (in_map fst _ _ I)). lia. }
        assert (Z : g_is_empty G s = true); [|congruence]. apply (r_empty _ _ _ _ RP). intros x' X'. apply K. exact (Hone k s x' (or_introl eq_refl) X').
  Qed.

  (** ** C169: comparison of two hybrid pavings *)
  Theorem C169_subset_partial : forall m other r, ordered m -> ordered other -> subset G m other = Some r -> (r = true <-> forall q x, mem m q x -> mem other q x).
  Proof using RP.
    intros m other r O O'. revert r. induction m as [|[k s] m IH]; intros r H; cbn [subset] in H.
    - injection H as <-. split; [intros _ q x [t [[] _]]|reflexivity].
    - unfold ordered in O. cbn [map fst] in O. inversion O as [|y z S F]; subst. specialize (IH S).
      assert (Tl : (forall q x, mem ((k, s) :: m) q x -> mem other q x) <-> (forall x, inp s x -> mem other k x) /\ (forall q x, mem m q x -> mem other q x)).
      { split.
        - intros Q. split; [intros x X; apply Q; exists s; split; [left; reflexivity|exact X]|]. intros q x [t [I X]]. apply Q. exists t. split; [right; exact I|exact X].
        - intros [Q1 Q2] q x [t [[I|I] X]]; [injection I as -> ->; apply Q1; exact X|apply Q2; exists t; split; assumption]. }
      rewrite Tl. destruct (g_is_empty G s) eqn:E; cbn [negb] in H.
      + rewrite (IH r H). split; [intros Q; split; [intros x X; exfalso; exact (proj1 (r_empty _ _ _ _ RP s) E x X)|exact Q]|tauto].
      + destruct (find k other) as [c|] eqn:Ec; [|discriminate].
        assert (Sc : g_subset G s c = true <-> forall x, inp s x -> mem other k x).
        { rewrite (r_subset _ _ _ _ RP). split; intros Q x X; [exists c; split; [apply find_In; exact Ec|apply Q; exact X]|].
          destruct (proj1 (member_find G point inp other k x O') (Q x X)) as [c' [E' X']]. rewrite Ec in E'. injection E' as <-. exact X'. }
        destruct (g_subset G s c) eqn:Es; cbn [negb] in H.
        * rewrite (IH r H). pose proof (proj1 Sc eq_refl). tauto.
        * injection H as <-. split; [discriminate|intros [Q _]; exact (proj2 Sc Q)].
  Qed.
  Theorem C169_intersect_partial : forall m other r, ordered m -> ordered other -> intersect G m other = Some r -> (r = true <-> exists q x, mem m q x /\ mem other q x).
  Proof using RP.
    intros m other r O O'. revert r. induction m as [|[k s] m IH]; intros r H; cbn [intersect] in H.
    - injection H as <-. split; [discriminate|intros [q [x [[t [[] _]] _]]]].
    - unfold ordered in O. cbn [map fst] in O. inversion O as [|y z S F]; subst. specialize (IH S).
      assert (Tl : (exists q x, mem ((k, s) :: m) q x /\ mem other q x) <-> (exists x, inp s x /\ mem other k x) \/ (exists q x, mem m q x /\ mem other q x)).
      { split.
        - intros [q [x [[t [[I|I] X]] Q]]]; [left; injection I as -> ->; exists x; split; assumption|right; exists q, x; split; [exists t; split; assumption|exact Q]].
        - intros [[x [X Q]]|[q [x [[t [I X]] Q]]]]; [exists k, x; split; [exists s; split; [left; reflexivity|exact X]|exact Q]|exists q, x; split; [exists t; split; [right; exact I|exact X]|exact Q]]. }
      rewrite Tl. destruct (g_is_empty G s) eqn:E; cbn [negb] in H.
      + rewrite (IH r H). split; [intros Q; right; exact Q|intros [[x [X _]]|Q]; [exfalso; exact (proj1 (r_empty _ _ _ _ RP s) E x X)|exact Q]].
      + destruct (find k other) as [c|] eqn:Ec; [|discriminate].
        assert (Sc : g_intersect G s c = true <-> exists x, inp s x /\ mem other k x).
        { rewrite (r_intersect _ _ _ _ RP). split; intros [x [X Q]]; exists x; (split; [exact X|]); [exists c; split; [apply find_In; exact Ec|exact Q]|].
          destruct (proj1 (member_find G point inp other k x O') Q) as [c' [E' X']]. rewrite Ec in E'. injection E' as <-. exact X'. }
        destruct (g_intersect G s c) eqn:Es.
        * injection H as <-. split; [intros _; left; exact (proj1 Sc eq_refl)|reflexivity].
        * rewrite (IH r H). split; [intros Q; right; exact Q|intros [Q|Q]; [pose proof (proj2 Sc Q); discriminate|exact Q]].
  Qed.
End ANY.

(** ** A paving of one location as a list of cells with natural numbers, and a box as another *)
Definition has (l : list nat) (x : nat) : bool := existsb (Nat.eqb x) l.
Definition cells : paving_ops := {|
  paving := list nat; box := list nat; g_new := fun _ => []; g_adjoin := fun t s => t ++ s; g_remove := fun t s => filter (fun x => negb (has s x)) t;
  g_restrict := fun t s => filter (has s) t; g_clear := fun _ => []; g_is_empty := fun t => match t with [] => true | _ => false end;
  g_subset := fun t s => forallb (has s) t; g_intersect := fun t s => existsb (has s) t;
  g_separated := fun t b => negb (existsb (has b) t); g_overlaps := fun t b => existsb (has b) t; g_covers := fun t b => forallb (has t) b; g_inside := fun t b => forallb (has b) t |}.
Definition incell (t : list nat) (x : nat) : Prop := In x t.
Lemma has_In : forall l x, has l x = true <-> In x l.
Proof.
  intros l x. unfold has. rewrite existsb_exists. split; [intros [y [I E]]; apply Nat.eqb_eq in E; subst; exact I|intros I; exists x; split; [exact I|apply Nat.eqb_refl]].
Qed.
Lemma cells_right : right_pavings cells nat incell incell.
Proof.
  unfold incell. split; cbn.
  - intros q x H. exact H.
  - intros t s x. apply in_app_iff.
  - intros t s x. rewrite filter_In. rewrite <- (has_In s x). destruct (has s x); cbn; intuition congruence.
  - intros t s x. rewrite filter_In, has_In. tauto.
  - intros t x H. exact H.
  - intros [|a t]; split; intros H; [intros x X; exact X|reflexivity|discriminate|exfalso; apply (H a); left; reflexivity].
  - intros t s. rewrite forallb_forall. split; intros H x X; [apply has_In|apply has_In]; apply H; exact X.
  - intros t s. rewrite existsb_exists. split; intros [x [X Q]]; exists x; (split; [exact X|]); apply has_In; exact Q.
  - intros t b H x X B. apply negb_true_iff in H. assert (Q : existsb (has b) t = true) by (apply existsb_exists; exists x; split; [exact X|apply has_In; exact B]). congruence.
  - intros t b H. apply existsb_exists in H. destruct H as [x [X Q]]. exists x. split; [exact X|apply has_In; exact Q].
  - intros t b H x B. apply has_In. exact (proj1 (forallb_forall _ _) H x B).
  - intros t b H x X. apply has_In. exact (proj1 (forallb_forall _ _) H x X).
Qed.
Notation cmem := (member cells nat incell).

(** restriction to a paving without location 0 keeps the cells there *)
Theorem C167_restrict_refuted : exists m other q x, ordered m /\ ordered other /\ cmem (restrict cells m other) q x /\ ~ cmem other q x.
Proof.
  exists [(0, [7])], [(1, [7])], 0, 7. split; [repeat constructor|]. split; [repeat constructor|]. split; [exists [7]; split; [left; reflexivity|left; reflexivity]|].
  intros [t [[I|[]] _]]. discriminate.
Qed.
(** the paving is said to be separated from a box it meets *)
Theorem C168_separated_refuted : exists m q bx x, ordered m /\ separated cells m q bx = Some true /\ cmem m q x /\ incell bx x.
Proof.
  exists [(0, [7])], 0, [7], 7. split; [repeat constructor|]. split; [reflexivity|]. split; [exists [7]; split; left; reflexivity|left; reflexivity].
Qed.
(** for every paving in place of [cells]: a location which is stored counts as separated from all boxes, and one which is not stored is an access out of the map *)
Theorem C168_separated_any_refuted : forall G m q bx, separated G m q bx = match find q m with Some _ => Some true | None => None end.
Proof. intros G m q bx. unfold separated. destruct (find q m); reflexivity. Qed.
Theorem C168_missing_refuted : forall G m q bx, (forall t, ~ In (q, t) m) -> overlaps G m q bx = None /\ covers G m q bx = None /\ separated G m q bx = None.
Proof.
  intros G m q bx H. unfold overlaps, covers, separated. destruct (find q m) as [t|] eqn:E; [exfalso; exact (H t (find_In _ q m t E))|]. repeat split.
Qed.
(** only the first location is compared *)
Theorem C168_inside_refuted : exists m bxs q x, ordered m /\ ordered bxs /\ inside cells m bxs = Some true /\ cmem m q x /\ ~ boxed cells nat incell bxs q x.
Proof.
  exists [(0, [7]); (1, [8])], [(0, [7]); (1, [7])], 1, 8. split; [repeat constructor|]. split; [repeat constructor|]. split; [reflexivity|].
  split; [exists [8]; split; [right; left; reflexivity|left; reflexivity]|]. intros [bx [E X]]. injection E as <-. destruct X as [X|[]]. discriminate.
Qed.
(** pavings with cells in different locations cannot be compared *)
Theorem C169_subset_refuted : exists m other, ordered m /\ ordered other /\ ~ (forall q x, cmem m q x -> cmem other q x) /\ ~ (exists q x, cmem m q x /\ cmem other q x) /\ subset cells m other = None /\ intersect cells m other = None.
Proof.
  exists [(0, [7])], [(1, [7])]. split; [repeat constructor|]. split; [repeat constructor|]. split; [|split; [|split; reflexivity]].
  - intros H. destruct (H 0 7) as [t [[I|[]] _]]; [exists [7]; split; left; reflexivity|discriminate].
  - intros [q [x [[t [[I|[]] _]] [t' [[I'|[]] _]]]]]. injection I as <- _. discriminate.
Qed.

Example C166_nonvacuous : right_pavings cells nat incell incell /\ adjoin cells [(1, [3])] [(0, [7]); (1, [8])] = [(0, [7]); (1, [3; 8])] /\ remove cells [(1, [3; 8])] [(1, [8])] = [(1, [3])] /\ is_empty cells [(0, []); (1, [])] = true.
Proof. split; [exact cells_right|repeat split]. Qed.
Example C167_nonvacuous : restrict cells [(0, [7; 8]); (1, [3; 8])] [(0, [8]); (1, [8])] = [(0, [8]); (1, [8])].
Proof. reflexivity. Qed.
Example C168_nonvacuous : overlaps cells [(0, [7; 8])] 0 [8; 9] = Some true /\ covers cells [(0, [7; 8])] 0 [8] = Some true /\ inside cells [(0, []); (1, [7])] [(0, [1]); (1, [7; 8])] = Some true.
Proof. repeat split. Qed.
Example C169_nonvacuous : subset cells [(0, [7]); (1, [8])] [(0, [7; 9]); (1, [8])] = Some true /\ subset cells [(0, [7]); (1, [8])] [(0, [7; 9]); (1, [9])] = Some false /\ intersect cells [(0, [7]); (1, [8])] [(0, [1]); (1, [8])] = Some true.
Proof. repeat split. Qed.
Print Assumptions C166_adjoin.
Print Assumptions C166_remove.
Print Assumptions C166_clear.
Print Assumptions C166_is_empty.
Print Assumptions C167_restrict_partial.
Print Assumptions C167_restrict_refuted.
Print Assumptions C168_overlaps_partial.
Print Assumptions C168_covers_partial.
Print Assumptions C168_inside_partial.
Print Assumptions C168_separated_refuted.
Print Assumptions C168_separated_any_refuted.
Print Assumptions C168_missing_refuted.
Print Assumptions C168_inside_refuted.
Print Assumptions C169_subset_partial.
Print Assumptions C169_intersect_partial.
Print Assumptions C169_subset_refuted.
