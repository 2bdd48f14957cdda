From Coq Require Import List Bool Arith Sorted Lia ZArith.
From Verif Require Import HybridPaving_Model HybridPaving_Spec HybridPaving_Proofs HybridSet_Model HybridSet_Proofs Labelled_Model Labelled_Spec Labelled_Proofs.
Import ListNotations.

(** C175: a space can be made from a list of variables exactly if they are different, and has them in that order *)
Theorem C175_make_space : forall vs s, make_space vs = Some s <-> NoDup vs /\ s = vs.
Proof.
  intros vs s. pose proof (append_all_spec vs [] (NoDup_nil _)) as P. unfold make_space. cbn [app] in P. destruct (append_all [] vs) as [r|].
  - destruct P as [-> D]. split; [intros E; injection E as <-; split; [exact D|reflexivity]|intros [_ ->]; reflexivity].
  - split; [discriminate|intros [D _]; contradiction].
Qed.
(** the index of a variable is its place; there is none exactly for the variables which are not in the space *)
Theorem C175_index : forall s v i, NoDup s -> (index s v = Some i <-> variable s i = Some v).
Proof. intros s v i D. split; [apply index_Some|apply index_unique; exact D]. Qed.
Theorem C175_contains : forall s v vs, (contains s v = true <-> In v s) /\ (index s v <> None <-> In v s) /\ (contains_all s vs = true <-> forall u, In u vs -> In u s).
Proof.
  intros s v vs. split; [apply contains_In|]. split; [|apply contains_all_In]. rewrite <- contains_In. pose proof (index_None s v) as N. rewrite <- contains_In in N.
  destruct (contains s v); destruct (index s v); split; intros H; try congruence; exfalso.
  - exact (proj1 N eq_refl eq_refl).
  - discriminate (proj2 N ltac:(discriminate)).
Qed.
(** append adds a new variable at the end and fails for one which is there *)
Theorem C175_append : forall s v, NoDup s -> (In v s -> append s v = None) /\ (~ In v s -> append s v = Some (s ++ [v]) /\ NoDup (s ++ [v])).
Proof.
  intros s v D. unfold append. destruct (contains s v) eqn:E.
  - apply contains_In in E. split; [reflexivity|intros N; contradiction].
  - split; [intros H; apply contains_In in H; congruence|]. intros N. split; [reflexivity|apply NoDup_snoc; assumption].
Qed.
(** adjoining a space adds exactly its variables, none twice, and does not move those which were there *)
Theorem C175_adjoin : forall s t, NoDup s ->
  NoDup (adjoin s t) /\ (forall v, In v (adjoin s t) <-> In v s \/ In v t) /\ forall v, In v s -> index (adjoin s t) v = index s v.
Proof.
  intros s t D. destruct (adjoin_spec t s D) as [D1 [M [l E]]]. split; [exact D1|]. split; [exact M|]. intros v V.
  destruct (index s v) as [k|] eqn:K; [|apply index_None in K; contradiction]. apply index_unique; [exact D1|]. pose proof (index_Some _ _ _ K) as N. rewrite E. rewrite nth_error_app1; [exact N|].
  apply nth_error_Some. congruence.
Qed.
(** the map of indices agrees with index, and the check for repetitions never fails *)
Theorem C175_indices : forall s, NoDup s -> exists m, indices s = Some m /\ forall v, find v m = index s v.
Proof.
  intros s D. destruct (indices_from_spec s 0 [] ltac:(constructor) D ltac:(reflexivity)) as [r [E [_ F]]]. exists r. split; [exact E|]. intros v. rewrite F. reflexivity.
Qed.

Section BOXES.
  Variables (I X : Type) (inI : I -> X -> Prop).
  (** C176: giving names to the coordinates of a box keeps its points *)
  Theorem C176_named : forall s bx, NoDup s -> length s = length bx -> exists b, named I s bx = Some b /\ ordered b /\ forall w, satisfies inI b w <-> in_box inI bx (coordinates s w).
  Proof.
    intros s bx D L. unfold named. rewrite (proj2 (Nat.eqb_eq _ _) L). eexists. split; [reflexivity|]. split; [apply of_bounds_ordered|].
    intros w. unfold satisfies, in_box, coordinates. assert (Q : (forall v i, In (v, i) (of_bounds I (combine s bx)) -> inI i (w v)) <-> (forall v i, In (v, i) (combine s bx) -> inI i (w v))).
    { assert (DC : NoDup (map fst (combine s bx))). { replace (map fst (combine s bx)) with s; [exact D|]. clear D. revert bx L. induction s as [|v s IH]; intros [|i bx] L; try discriminate; [reflexivity|]. cbn [combine map fst]. f_equal. apply IH. injection L as L. exact L. }
      split; intros H v i J; apply H.
      - apply find_In. rewrite find_of_bounds. apply NoDup_find; assumption.
      - apply (In_find _ _ _ _ (of_bounds_ordered I _)) in J. rewrite find_of_bounds in J. apply find_In. exact J. }
    rewrite Q. clear Q D. revert bx L. induction s as [|v s IH]; intros [|i bx] L; try discriminate; [split; [constructor|intros _ v i []]|]. cbn [combine map].
    injection L as L. specialize (IH bx L). split.
    - intros H. constructor; [apply H; left; reflexivity|]. apply IH. intros u j U. apply H. right. exact U.
    - intros H u j [E|U]; inversion H; subst; [injection E as <- <-; assumption|]. apply IH; assumption.
  Qed.
  (** in any order of its variables a box of named variables has the same points *)
  Theorem C176_euclidean : forall b s bx, ordered b -> euclidean I b s = Some bx -> (forall v i, In (v, i) b -> In v s) ->
    forall w, in_box inI bx (coordinates s w) <-> satisfies inI b w.
  Proof.
    intros b s bx O E H w. rewrite (euclidean_in_box I X inI b w s bx E). unfold satisfies. split; intros F v i J.
    - apply F; [exact (H v i J)|]. apply In_find; assumption.
    - intros K. apply F. apply find_In. exact K.
  Qed.
  (** with fewer variables it is the projection of the bounds; and there is a result exactly if all variables asked for have bounds *)
  Theorem C176_euclidean_coordinates : forall b s bx, euclidean I b s = Some bx -> length bx = length s /\ forall k v, nth_error s k = Some v -> exists i, nth_error bx k = Some i /\ In (v, i) b.
  Proof.
    intros b s bx E. pose proof (euclidean_spec I b s) as P. rewrite E in P. destruct P as [L H]. split; [exact L|]. intros k v K. destruct (H k v K) as [A B].
    destruct (find v b) as [i|] eqn:F; [|congruence]. exists i. split; [exact A|apply find_In; exact F].
  Qed.
  Theorem C176_euclidean_defined : forall b s, euclidean I b s <> None <-> forall v, In v s -> exists i, In (v, i) b.
  Proof.
    intros b s. split.
    - intros H v V. pose proof (euclidean_spec I b s) as P. destruct (euclidean I b s) as [bx|]; [|congruence]. destruct (In_nth_error _ _ V) as [k K]. destruct P as [_ P]. destruct (P k v K) as [_ B].
      destruct (find v b) as [i|] eqn:F; [|congruence]. exists i. apply find_In. exact F.
    - intros H. destruct (euclidean_all I b s) as [bx E]; [|congruence]. intros v V F. destruct (H v V) as [i J]. exact (find_None _ _ _ F i J).
  Qed.
  (** in the order of the names given the box comes back *)
  Theorem C176_round_trip : forall s bx b, NoDup s -> named I s bx = Some b -> euclidean I b s = Some bx.
  Proof.
    intros s bx b D E. unfold named in E. destruct (Nat.eqb_spec (length s) (length bx)) as [L|L]; [|discriminate]. injection E as <-.
    rewrite (euclidean_ext I _ (combine s bx)) by (intros v _; apply find_of_bounds). destruct (euclidean_all I (combine s bx) s) as [r E].
    - intros v V. rewrite find_combine by exact L. destruct (index s v) as [k|] eqn:K; [|apply index_None in K; contradiction]. apply nth_error_Some. rewrite <- L. apply nth_error_Some. rewrite (index_Some _ _ _ K). discriminate.
    - rewrite E. f_equal. pose proof (euclidean_spec I (combine s bx) s) as P. rewrite E in P. destruct P as [Lr P]. apply nth_error_ext_nat. intros k.
      destruct (nth_error s k) as [v|] eqn:K.
      + destruct (P k v K) as [A _]. rewrite A, find_combine by exact L. rewrite (index_unique s k v D K). reflexivity.
      + assert (Q : nth_error r k = None) by (apply nth_error_None; apply nth_error_None in K; lia). rewrite Q. symmetry. apply nth_error_None. apply nth_error_None in K. lia.
  Qed.
  (** reordering a labelled box by projection is the same as going through the bounds of the named variables *)
  Theorem C176_reorder : forall s bx b t, named I s bx = Some b -> euclidean_labelled I {| l_space := s; l_box := bx |} t = euclidean I b t.
  Proof.
    intros s bx b t E. unfold named in E. destruct (Nat.eqb_spec (length s) (length bx)) as [L|L]; [|discriminate]. injection E as <-.
    induction t as [|v t IH]; [reflexivity|]. cbn [euclidean_labelled euclidean l_space l_box]. rewrite find_of_bounds, find_combine by exact L. rewrite IH. destruct (index s v); reflexivity.
  Qed.
  (** the conversion of named bounds to a labelled box, and back, keeps the points *)
  Theorem C176_to_labelled : forall b, ordered b -> exists l, to_labelled I b = Some l /\ NoDup (l_space I l) /\ length (l_space I l) = length (l_box I l) /\
    (forall w, in_box inI (l_box I l) (coordinates (l_space I l) w) <-> satisfies inI b w) /\
    exists c, of_labelled I l = Some c /\ forall w, satisfies inI c w <-> satisfies inI b w.
  Proof.
    intros b O. assert (D : NoDup (map fst b)).
    { unfold ordered in O. clear - O. induction O as [|v l S IH F]; [constructor|]. constructor; [|exact IH]. intros H. pose proof (proj1 (Forall_forall _ _) F v H). lia. }
    unfold to_labelled. rewrite (proj2 (C175_make_space (map fst b) (map fst b))) by (split; [exact D|reflexivity]).
    destruct (proj1 (euclidean_defined_iff I b (map fst b))) as [bx E].
    { intros v V. apply in_map_iff in V. destruct V as [[u i] [<- J]]. exists i. exact J. }
    rewrite E. destruct (C176_euclidean_coordinates b (map fst b) bx E) as [L _]. unfold label. rewrite (proj2 (Nat.eqb_eq (length (map fst b)) (length bx)) (eq_sym L)).
    eexists. split; [reflexivity|]. cbn [l_space l_box]. split; [exact D|]. split; [symmetry; exact L|].
    assert (S : forall w, in_box inI bx (coordinates (map fst b) w) <-> satisfies inI b w) by (apply C176_euclidean; [exact O|exact E|intros v i J; exact (in_map fst _ _ J)]).
    split; [exact S|]. unfold of_labelled. cbn [l_space l_box]. destruct (C176_named (map fst b) bx D (eq_sym L)) as [c [N [_ C]]]. exists c. split; [exact N|]. intros w. rewrite C. apply S.
  Qed.

  (** C177: a box given by bounds on different variables has the points which satisfy all bounds.  Missing: several bounds on one variable ([C177_bounds_refuted]);
      then only the first counts, so no point is lost. *)
  Theorem C177_bounds_partial : forall l w, NoDup (map fst l) -> (satisfies inI (of_bounds I l) w <-> satisfies inI l w).
  Proof.
    intros l w D. unfold satisfies. split; intros H v i J; apply H.
    - apply find_In. rewrite find_of_bounds. apply NoDup_find; assumption.
    - apply (In_find _ _ _ _ (of_bounds_ordered I _)) in J. rewrite find_of_bounds in J. apply find_In. exact J.
  Qed.
  Theorem C177_bounds_weaker_partial : forall l w, satisfies inI l w -> satisfies inI (of_bounds I l) w.
  Proof. intros l w H v i J. apply H. apply (In_find _ _ _ _ (of_bounds_ordered I _)) in J. rewrite find_of_bounds in J. apply find_In. exact J. Qed.
  Theorem C177_first_bound_refuted : forall l v i j, find v l = Some i -> In (v, j) (of_bounds I l) -> j = i.
  Proof. intros l v i j F J. apply (In_find _ _ _ _ (of_bounds_ordered I _)) in J. rewrite find_of_bounds in J. congruence. Qed.
  (** a bounded constraint set is made exactly from bounds on different variables, and constraints on these variables; it has those bounds *)
  Theorem C177_bounded_partial : forall l (cs : list (constraint X)) r, bounded_of_list I X l cs = Some r <-> NoDup (map fst l) /\ (forall c v, In c cs -> In v (c_args X c) -> In v (map fst l)) /\ r = (of_bounds I l, cs).
  Proof.
    intros l cs r. unfold bounded_of_list, bounded_of_map.
    assert (K : forall v, In v (map fst (of_bounds I l)) <-> In v (map fst l)).
    { intros v. split; intros H; apply in_map_iff in H; destruct H as [[u i] [<- J]]; cbn [fst].
      - apply (In_find _ _ _ _ (of_bounds_ordered I _)) in J. rewrite find_of_bounds in J. exact (in_map fst _ _ (find_In _ _ _ _ J)).
      - destruct (find u l) as [j|] eqn:F; [|exfalso; exact (find_None _ _ _ F i J)]. rewrite <- find_of_bounds in F. exact (in_map fst _ _ (find_In _ _ _ _ F)). }
    assert (A : contains_all (map fst (of_bounds I l)) (arguments X cs) = true <-> forall c v, In c cs -> In v (c_args X c) -> In v (map fst l)).
    { rewrite contains_all_In. unfold arguments. split.
      - intros H c v C V. apply K. apply H. apply in_flat_map. exists c. split; assumption.
      - intros H v V. apply in_flat_map in V. destruct V as [c [C V]]. apply K. exact (H c v C V). }
    assert (U : unique_keys I l = true <-> NoDup (map fst l)).
    { unfold unique_keys. rewrite unique_keys_from_spec. split; [intros [D _]; exact D|intros D; split; [exact D|intros v _ []]]. }
    destruct (contains_all (map fst (of_bounds I l)) (arguments X cs)).
    - destruct (unique_keys I l).
      + split; [intros E; injection E as <-; split; [apply U; reflexivity|split; [apply A; reflexivity|reflexivity]]|intros [_ [_ ->]]; reflexivity].
      + split; [discriminate|]. intros [D _]. apply U in D. discriminate.
    - split; [discriminate|]. intros [_ [H _]]. apply A in H. discriminate.
  Qed.

  (** C179: in any order of the variables a constraint set has exactly the coordinates of the valuations which satisfy the constraints *)
  Variable dflt : X.
  Lemma make_function_at : forall s c w, depends_on_arguments c -> (forall v, In v (c_args X c) -> In v s) -> make_function X dflt s c (coordinates s w) = c_holds X c w.
  Proof.
    intros s c w H A. unfold make_function. apply H. intros v V. destruct (index s v) as [k|] eqn:K; [|apply index_None in K; contradiction (K (A v V))].
    unfold coordinates. apply nth_error_nth. rewrite nth_error_map, (index_Some _ _ _ K). reflexivity.
  Qed.
  Theorem C179_constraint_set : forall cs s, (forall c, In c cs -> depends_on_arguments c) ->
    (constraint_set X dflt cs s <> None <-> forall c v, In c cs -> In v (c_args X c) -> In v s) /\
    forall fs, constraint_set X dflt cs s = Some fs -> forall w, (forall f, In f fs -> f (coordinates s w) = true) <-> (forall c, In c cs -> c_holds X c w = true).
  Proof.
    intros cs s H. unfold constraint_set.
    assert (A : contains_all s (arguments X cs) = true <-> forall c v, In c cs -> In v (c_args X c) -> In v s).
    { rewrite contains_all_In. unfold arguments. split; [intros G c v C V; apply G; apply in_flat_map; exists c; split; assumption|]. intros G v V. apply in_flat_map in V. destruct V as [c [C V]]. exact (G c v C V). }
    destruct (contains_all s (arguments X cs)).
    - split; [split; [intros _; apply A; reflexivity|discriminate]|]. intros fs E w. injection E as <-. pose proof (proj1 A eq_refl) as A'. split.
      + intros G c C. rewrite <- (make_function_at s c w (H c C) (fun v => A' c v C)). apply G. apply in_map. exact C.
      + intros G f F. apply in_map_iff in F. destruct F as [c [<- C]]. rewrite (make_function_at s c w (H c C) (fun v => A' c v C)). exact (G c C).
    - split; [split; [congruence|intros G; apply A in G; discriminate]|discriminate].
  Qed.
  Theorem C179_bounded_set : forall b cs s, ordered b -> (forall c, In c cs -> depends_on_arguments c) -> (forall c v, In c cs -> In v (c_args X c) -> In v (map fst b)) ->
    (bounded_set I X dflt b cs s <> None <-> forall v, In v s <-> In v (map fst b)) /\
    forall bx fs, bounded_set I X dflt b cs s = Some (bx, fs) -> forall w,
      (in_box inI bx (coordinates s w) /\ forall f, In f fs -> f (coordinates s w) = true) <-> (satisfies inI b w /\ forall c, In c cs -> c_holds X c w = true).
  Proof.
    intros b cs s O H B. unfold bounded_set.
    assert (V : contains_all (map fst b) s && contains_all s (map fst b) = true <-> forall v, In v s <-> In v (map fst b)).
    { rewrite andb_true_iff, !contains_all_In. split; [intros [P Q] v; split; [apply P|apply Q]|intros P; split; intros v; apply P]. }
    destruct (contains_all (map fst b) s && contains_all s (map fst b)).
    - pose proof (proj1 V eq_refl) as V'. destruct (proj1 (euclidean_defined_iff I b s)) as [bx E].
      { intros v U. apply V' in U. apply in_map_iff in U. destruct U as [[u i] [<- J]]. exists i. exact J. }
      rewrite E. split; [split; [intros _; exact V'|discriminate]|]. intros bx' fs Q w. injection Q as <- <-.
      assert (S : in_box inI bx (coordinates s w) <-> satisfies inI b w) by (apply C176_euclidean; [exact O|exact E|intros v i J; apply V'; exact (in_map fst _ _ J)]).
      rewrite S. split; intros [P G]; (split; [exact P|]).
      + intros c C. rewrite <- (make_function_at s c w (H c C) (fun v U => proj2 (V' v) (B c v C U))). apply G. apply in_map. exact C.
      + intros f F. apply in_map_iff in F. destruct F as [c [<- C]]. rewrite (make_function_at s c w (H c C) (fun v U => proj2 (V' v) (B c v C U))). exact (G c C).
    - split; [split; [congruence|intros G; apply V in G; discriminate]|discriminate].
  Qed.

  (** C180: if the comparison of labelled boxes answers true, they have the same points; it answers if the variables are in the same order, or differ.  Missing: the same variables in another order
      ([C180_equal_refuted]). *)
  Variable same : list I -> list I -> bool.
  Hypothesis same_right : forall a b, same a b = true <-> a = b.
  Theorem C180_equal_partial : forall l m, equal I same l m = Some true -> l_space I l = l_space I m /\ forall w, in_box inI (l_box I l) (coordinates (l_space I l) w) <-> in_box inI (l_box I m) (coordinates (l_space I m) w).
  Proof using same_right.
    intros l m H. unfold equal in H. destruct (negb _); [discriminate|]. destruct (list_eq_dec Nat.eq_dec (l_space I l) (l_space I m)) as [E|E]; [|discriminate].
    injection H as H. apply same_right in H. split; [exact E|]. intros w. rewrite E, H. reflexivity.
  Qed.
  Theorem C180_equal_defined_partial : forall l m, equal I same l m = None <-> l_space I l <> l_space I m /\ forall v, In v (l_space I l) <-> In v (l_space I m).
  Proof using.
    intros l m. unfold equal. destruct (contains_all (l_space I l) (l_space I m) && contains_all (l_space I m) (l_space I l)) eqn:E; cbn [negb].
    - apply andb_prop in E. destruct E as [A B]. rewrite contains_all_In in A, B. destruct (list_eq_dec Nat.eq_dec (l_space I l) (l_space I m)) as [Q|Q].
      + split; [discriminate|intros [N _]; contradiction].
      + split; [intros _; split; [exact Q|intros v; split; [apply B|apply A]]|reflexivity].
    - split; [discriminate|]. intros [_ P]. exfalso. apply Bool.not_true_iff_false in E. apply E. rewrite andb_true_iff, !contains_all_In. split; intros v V; apply P; exact V.
  Qed.
  Theorem C180_equal_complete_partial : forall l m, l_space I l = l_space I m -> equal I same l m = Some (same (l_box I l) (l_box I m)).
  Proof using.
    intros l m E. unfold equal. rewrite <- E. assert (C : contains_all (l_space I l) (l_space I l) = true) by (apply contains_all_In; intros v V; exact V). rewrite C. cbn [andb negb].
    destruct (list_eq_dec Nat.eq_dec (l_space I l) (l_space I l)) as [Q|Q]; [reflexivity|congruence].
  Qed.
End BOXES.

Section VALUATIONS.
  Variable X : Type.
  (** C178: set gives the variable the value and keeps all others *)
  Theorem C178_set : forall m v x, ordered m -> ordered (v_set X m v x) /\ v_get X (v_set X m v x) v = Some x /\ forall u, u <> v -> v_get X (v_set X m v x) u = v_get X m u.
  Proof.
    intros m v x O. split; [apply v_set_ordered; exact O|]. unfold v_get. split; [rewrite find_v_set, Nat.eqb_refl by exact O; reflexivity|]. intros u N. rewrite find_v_set by exact O.
    destruct (Nat.eqb_spec u v) as [E|E]; [contradiction|reflexivity].
  Qed.
  (** insert gives a new variable the value and never changes one which has a value *)
  Theorem C178_insert : forall m v x, ordered m -> ordered (v_insert X m v x) /\ (v_get X m v = None -> v_get X (v_insert X m v x) v = Some x) /\ forall u y, v_get X m u = Some y -> v_get X (v_insert X m v x) u = Some y.
  Proof.
    intros m v x O. unfold v_get, v_insert. split; [apply insert_ordered; exact O|]. split.
    - intros N. rewrite find_insert by exact O. rewrite Nat.eqb_refl, N. reflexivity.
    - intros u y H. rewrite find_insert by exact O. destruct (Nat.eqb_spec u v) as [->|E]; [rewrite H; reflexivity|exact H].
  Qed.
  (** a valuation made from an array gives each variable of the space its coordinate *)
  Theorem C178_of_array : forall ary s, NoDup s -> length ary <= length s -> exists m, of_array X ary s = Some m /\ ordered m /\ forall i v, variable s i = Some v -> v_get X m v = nth_error ary i.
  Proof.
    intros ary s D L. destruct (of_array_from_spec X ary 0 s [] D ltac:(constructor) L ltac:(reflexivity)) as [r [E [O F]]]. exists r. split; [exact E|]. split; [exact O|].
    intros i v V. unfold v_get. rewrite (F i v V). cbn. rewrite Nat.sub_0_r. reflexivity.
  Qed.
End VALUATIONS.

(** intervals of integers *)
Definition zin (i : Z * Z) (x : Z) : Prop := (fst i <= x <= snd i)%Z.
Definition zsame (a b : list (Z * Z)) : bool := if list_eq_dec (fun p q : Z * Z => ltac:(decide equality; apply Z.eq_dec)) a b then true else false.
Lemma zsame_right : forall a b, zsame a b = true <-> a = b.
Proof. intros a b. unfold zsame. destruct (list_eq_dec _ a b) as [E|E]; split; congruence. Qed.
(** 0 <= x <= 2 and 1 <= x <= 3: the box has the point x = 0 *)
Theorem C177_bounds_refuted : exists l w, satisfies zin (of_bounds (Z * Z) l) w /\ ~ satisfies zin l w.
Proof.
  exists [(0, (0, 2)%Z); (0, (1, 3)%Z)], (fun _ => 0%Z). split.
  - intros v i [E|[]]. injection E as <- <-. unfold zin. cbn. lia.
  - intros H. specialize (H 0 (1, 3)%Z (or_intror (or_introl eq_refl))). unfold zin in H. cbn in H. lia.
Qed.
(** the same box with the variables in another order: an assertion fails *)
Theorem C180_equal_refuted : exists l m : labelled (Z * Z), NoDup (l_space _ l) /\ NoDup (l_space _ m) /\
  (forall w, in_box zin (l_box _ l) (coordinates (l_space _ l) w) <-> in_box zin (l_box _ m) (coordinates (l_space _ m) w)) /\ equal (Z * Z) zsame l m = None.
Proof.
  exists {| l_space := [0; 1]; l_box := [(0, 1)%Z; (2, 3)%Z] |}, {| l_space := [1; 0]; l_box := [(2, 3)%Z; (0, 1)%Z] |}. cbn [l_space l_box].
  split; [repeat constructor; cbn; intuition lia|]. split; [repeat constructor; cbn; intuition lia|]. split; [|reflexivity].
  intros w. unfold in_box, coordinates. cbn [map]. split; intros H; inversion H as [|a b c d P Q]; subst; inversion Q as [|a' b' c' d' P' Q']; subst; (constructor; [exact P'|constructor; [exact P|constructor]]).
Qed.

Example C175_nonvacuous : make_space [5; 3; 8] = Some [5; 3; 8] /\ make_space [5; 3; 5] = None /\ index [5; 3; 8] 8 = Some 2 /\ adjoin [5; 3] [8; 3; 1] = [5; 3; 8; 1] /\ indices [5; 3; 8] = Some [(3, 1); (5, 0); (8, 2)] /\ append [5] 5 = None.
Proof. repeat split. Qed.
Example C176_nonvacuous : named nat [5; 3; 8] [50; 30; 80] = Some [(3, 30); (5, 50); (8, 80)] /\ euclidean nat [(3, 30); (5, 50); (8, 80)] [8; 3] = Some [80; 30] /\ euclidean_labelled nat {| l_space := [5; 3; 8]; l_box := [50; 30; 80] |} [8; 3] = Some [80; 30]
  /\ to_labelled nat [(3, 30); (5, 50)] = Some {| l_space := [3; 5]; l_box := [30; 50] |} /\ euclidean nat [(3, 30)] [3; 4] = None.
Proof. repeat split. Qed.
Example C177_nonvacuous : of_bounds nat [(5, 50); (3, 30)] = [(3, 30); (5, 50)] /\ bounded_of_list nat nat [(5, 50); (3, 30)] [{| c_args := [3]; c_holds := fun w => Nat.leb (w 3) 7 |}] <> None /\ bounded_of_list nat nat [(5, 50); (5, 30)] [] = None.
Proof. repeat split. discriminate. Qed.
Example C178_nonvacuous : v_set nat [(3, 30); (5, 50)] 5 51 = [(3, 30); (5, 51)] /\ v_insert nat [(3, 30); (5, 50)] 4 40 = [(3, 30); (4, 40); (5, 50)] /\ of_array nat [50; 30] [5; 3] = Some [(3, 30); (5, 50)].
Proof. repeat split. Qed.
(** x5 <= x3, with the coordinates in the order x5, x3 *)
Example C179_nonvacuous : let c := {| c_args := [5; 3]; c_holds := fun w => Nat.leb (w 5) (w 3) |} in depends_on_arguments c /\
  option_map (map (fun f => f [1; 2])) (constraint_set nat 0 [c] [5; 3]) = Some [true] /\ option_map (map (fun f => f [1; 2])) (constraint_set nat 0 [c] [3; 5]) = Some [false] /\ constraint_set nat 0 [c] [3] = None
  /\ option_map fst (bounded_set nat nat 0 [(3, 30); (5, 50)] [c] [5; 3]) = Some [50; 30] /\ bounded_set nat nat 0 [(3, 30); (5, 50)] [c] [5; 3; 4] = None.
Proof.
  cbn zeta. split; [|repeat split]. intros w u H. cbn [c_args c_holds] in *. rewrite (H 5), (H 3); [reflexivity|right; left; reflexivity|left; reflexivity].
Qed.
Example C180_nonvacuous : (forall a b, zsame a b = true <-> a = b) /\ equal (Z * Z) zsame {| l_space := [0]; l_box := [(0, 1)%Z] |} {| l_space := [0]; l_box := [(0, 1)%Z] |} = Some true /\
  equal (Z * Z) zsame {| l_space := [0]; l_box := [(0, 1)%Z] |} {| l_space := [1]; l_box := [(0, 1)%Z] |} = Some false.
Proof. split; [exact zsame_right|split; reflexivity]. Qed.
Print Assumptions C175_make_space.
Print Assumptions C175_index.
Print Assumptions C175_contains.
Print Assumptions C175_append.
Print Assumptions C175_adjoin.
Print Assumptions C175_indices.
Print Assumptions C176_named.
Print Assumptions C176_euclidean.
Print Assumptions C176_euclidean_coordinates.
Print Assumptions C176_euclidean_defined.
Print Assumptions C176_round_trip.
Print Assumptions C176_reorder.
Print Assumptions C176_to_labelled.
Print Assumptions C177_bounds_partial.
Print Assumptions C177_bounds_weaker_partial.
Print Assumptions C177_first_bound_refuted.
Print Assumptions C177_bounded_partial.
Print Assumptions C179_constraint_set.
Print Assumptions C179_bounded_set.
Print Assumptions C180_equal_partial.
Print Assumptions C180_equal_defined_partial.
Print Assumptions C180_equal_complete_partial.
Print Assumptions C178_set.
Print Assumptions C178_insert.
Print Assumptions C178_of_array.
Print Assumptions C177_bounds_refuted.
Print Assumptions C180_equal_refuted.
