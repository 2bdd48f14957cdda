From Coq Require Import List Bool Arith Sorted Lia.
From Verif Require Import HybridPaving_Model HybridPaving_Spec HybridPaving_Proofs HybridSet_Model HybridSet_Spec.
Import ListNotations.

Section MAP.
  Variable T : Type.
  Implicit Types (m : list (nat * T)) (t : T).
  Lemma insert_keys : forall q t m k, In k (map fst (insert q t m)) <-> k = q \/ In k (map fst m).
  Proof.
    induction m as [|[c s] m IH]; intros k; cbn [insert map fst In]; [intuition congruence|].
    destruct (Nat.eqb_spec q c) as [->|D]; [cbn [map fst In]; intuition congruence|]. destruct (Nat.ltb q c); cbn [map fst In]; [|rewrite IH]; intuition congruence.
  Qed.
  Lemma insert_ordered : forall q t m, ordered m -> ordered (insert q t m).
  Proof.
    unfold ordered. induction m as [|[c s] m IH]; intros O; cbn [insert]; [repeat constructor|].
    cbn [map fst] in O. inversion O as [|y z S F]; subst. destruct (Nat.eqb_spec q c) as [->|D]; [exact O|]. destruct (Nat.ltb_spec q c) as [Q|Q]; cbn [map fst].
    - constructor; [exact O|]. constructor; [exact Q|]. apply Forall_forall. intros k Hk. pose proof (proj1 (Forall_forall _ _) F k Hk). lia.
    - constructor; [apply IH; exact S|]. apply Forall_forall. intros k Hk. apply insert_keys in Hk. destruct Hk as [->|Hk]; [lia|]. exact (proj1 (Forall_forall _ _) F k Hk).
  Qed.
  Lemma ordered_tail_find : forall c s m q, ordered ((c, s) :: m) -> q <= c -> find q m = None.
  Proof.
    intros c s m q O Q. unfold ordered in O. cbn [map fst] in O. inversion O as [|y z S F]; subst. destruct (find q m) eqn:E; [|reflexivity].
    apply find_In in E. pose proof (proj1 (Forall_forall _ _) F q (in_map fst _ _ E)). lia.
  Qed.
  Lemma ordered_tail : forall e m, ordered (e :: m) -> ordered m.
  Proof. intros e m O. unfold ordered in *. cbn [map] in O. inversion O. assumption. Qed.
  Lemma find_insert : forall q t m k, ordered m -> find k (insert q t m) = if Nat.eqb k q then match find q m with Some s => Some s | None => Some t end else find k m.
  Proof.
    induction m as [|[c s] m IH]; intros k O; cbn [insert find]; [destruct (Nat.eqb k q); reflexivity|].
    destruct (Nat.eqb_spec q c) as [->|D]; [cbn [find]; destruct (Nat.eqb_spec k c) as [->|E]; reflexivity|].
    destruct (Nat.ltb_spec q c) as [Q|Q]; cbn [find].
    - rewrite (ordered_tail_find c s m q O) by lia. reflexivity.
    - rewrite IH by exact (ordered_tail _ _ O). destruct (Nat.eqb_spec k c) as [->|E]; [|reflexivity]. destruct (Nat.eqb_spec c q) as [E|E]; [congruence|reflexivity].
  Qed.
  Lemma insert_length_present : forall q t m s, ordered m -> find q m = Some s -> insert q t m = m.
  Proof.
    induction m as [|[c u] m IH]; intros s O H; [discriminate|]. cbn [insert]. cbn [find] in H. destruct (Nat.eqb_spec q c) as [->|D]; [reflexivity|].
    destruct (Nat.ltb_spec q c) as [Q|Q]; [rewrite (ordered_tail_find c u m q O) in H by lia; discriminate|]. rewrite (IH s); [reflexivity|exact (ordered_tail _ _ O)|exact H].
  Qed.
  Lemma member_find : forall (point : Type) (ins : T -> point -> Prop) m q x, ordered m -> (member ins m q x <-> exists s, find q m = Some s /\ ins s x).
  Proof. intros point ins m q x O. split; intros [t [H X]]; exists t; (split; [|exact X]); [apply In_find; assumption|apply find_In; exact H]. Qed.
  Lemma fold_insert_ordered : forall (A : Type) (f : A -> nat) (g : A -> T) l m, ordered m -> ordered (fold_left (fun r e => insert (f e) (g e) r) l m).
  Proof. intros A f g. induction l as [|e l IH]; intros m O; cbn [fold_left]; [exact O|]. apply IH. apply insert_ordered. exact O. Qed.
  (** what is found after inserting a list: what was there, and else the first entry with the key *)
  Lemma find_fold_insert : forall (A : Type) (f : A -> nat) (g : A -> T) l m k, ordered m ->
    find k (fold_left (fun r e => insert (f e) (g e) r) l m) = match find k m with Some t => Some t | None => find k (map (fun e => (f e, g e)) l) end.
  Proof.
    intros A f g. induction l as [|e l IH]; intros m k O; cbn [fold_left map find]; [destruct (find k m); reflexivity|].
    rewrite IH by (apply insert_ordered; exact O). rewrite find_insert by exact O.
    destruct (Nat.eqb_spec k (f e)) as [->|N]; [|reflexivity]. destruct (find (f e) m); reflexivity.
  Qed.
End MAP.

Section INSIDE.
  Variable O : set_ops.
  Lemma inside_from_answer : forall m acc bxs r, inside_from O acc m bxs = Some r ->
    (r = true -> acc = true /\ forall q s, In (q, s) m -> exists bx, find q bxs = Some bx /\ s_inside O s bx = true).
  Proof.
    induction m as [|[c t] m IH]; intros acc bxs r H R; cbn [inside_from] in H.
    - injection H as ->. split; [exact R|intros q s []].
    - destruct (find c bxs) as [bx|] eqn:E; [|discriminate]. destruct (IH _ _ _ H R) as [A B]. apply andb_prop in A. destruct A as [A S]. split; [exact A|].
      intros q s [I|I]; [injection I as <- <-; exists bx; split; assumption|exact (B q s I)].
  Qed.
  Lemma inside_from_defined : forall m acc bxs, (forall q, In q (locations O m) -> find q bxs <> None) <-> inside_from O acc m bxs <> None.
  Proof.
    induction m as [|[c t] m IH]; intros acc bxs; cbn [inside_from locations map fst]; [split; [intros _; discriminate|intros _ q []]|].
    destruct (find c bxs) as [bx|] eqn:E.
    - rewrite <- IH. split; [intros H q I; apply H; right; exact I|]. intros H q [<-|I]; [rewrite E; discriminate|exact (H q I)].
    - split; [intros H _; exact (H c (or_introl eq_refl) E)|intros H; exfalso; apply H; reflexivity].
  Qed.
  Lemma inside_from_complete : forall m acc bxs, acc = true -> (forall q s, In (q, s) m -> exists bx, find q bxs = Some bx /\ s_inside O s bx = true) -> inside_from O acc m bxs = Some true.
  Proof.
    induction m as [|[c t] m IH]; intros acc bxs A H; cbn [inside_from]; [rewrite A; reflexivity|].
    destruct (H c t (or_introl eq_refl)) as [bx [E S]]. rewrite E. apply IH; [rewrite A, S; reflexivity|]. intros q s I. apply H. right. exact I.
  Qed.
End INSIDE.

Section MEET.
  Variables (V C B : Type) (meet : V -> C -> B) (plain : V -> B).
  Lemma intersection_from_some : forall bounds res cs r, ordered bounds -> ordered res -> intersection_from V C B meet plain res bounds cs = Some r ->
    ordered r /\ forall k, find k r = match find k res with Some b => Some b | None => match find k bounds with Some v => match find k cs with Some c => Some (meet v c) | None => None end | None => None end end.
  Proof using.
    induction bounds as [|[q v] bounds IH]; intros res cs r Ob Or H; cbn [intersection_from] in H.
    - injection H as <-. split; [exact Or|]. intros k. cbn [find]. destruct (find k res); reflexivity.
    - destruct (find q cs) as [c|] eqn:E; [|discriminate]. unfold has_key in H. rewrite E in H. cbn zeta in H.
      assert (O1 : ordered (insert q (meet v c) res)) by (apply insert_ordered; exact Or).
      destruct (IH _ _ _ (ordered_tail _ _ _ Ob) (insert_ordered _ q (meet v c) _ O1) H) as [R F]. split; [exact R|].
      intros k. rewrite F. rewrite find_insert by exact O1. rewrite !find_insert by exact Or. cbn [find]. rewrite Nat.eqb_refl.
      destruct (Nat.eqb_spec k q) as [->|N]; [|reflexivity]. destruct (find q res); [reflexivity|]. rewrite E. reflexivity.
  Qed.
  Lemma intersection_from_defined : forall bounds res cs, (forall q, In q (map fst bounds) -> find q cs <> None) <-> intersection_from V C B meet plain res bounds cs <> None.
  Proof using.
    induction bounds as [|[c t] m IH]; intros res cs; cbn [intersection_from map fst]; [split; [intros _; discriminate|intros _ q []]|].
    destruct (find c cs) as [bx|] eqn:E.
    - cbn zeta. rewrite <- IH. split; [intros H q I; apply H; right; exact I|]. intros H q [<-|I]; [rewrite E; discriminate|exact (H q I)].
    - split; [intros H _; exact (H c (or_introl eq_refl) E)|intros H; exfalso; apply H; reflexivity].
  Qed.
End MEET.

Section ITER.
  Variable cell : Type.
  Definition all_cells (m : hmap cell) : list (nat * cell) := flat_map (fun e => map (pair (fst e)) (snd e)) m.
  Lemma loop_from : forall n rest q cs, length (all_cells ((q, cs) :: rest)) <= n -> loop cell n (increment_loc cell q cs rest) = Some (all_cells ((q, cs) :: rest)).
  Proof.
    induction n as [|n IHn]; induction rest as [|[q' cs'] rest IHr]; intros q cs L; destruct cs as [|c cs]; cbn [increment_loc].
    - reflexivity.
    - cbn in L. lia.
    - apply IHr. exact L.
    - cbn in L. lia.
    - reflexivity.
    - cbn [loop dereference increment]. rewrite IHn by (cbn in L |- *; lia). reflexivity.
    - apply IHr. exact L.
    - cbn [loop dereference increment]. rewrite IHn; [reflexivity|]. unfold all_cells in *. cbn [flat_map map fst snd app length] in *. lia.
  Qed.
End ITER.
