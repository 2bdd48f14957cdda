From Coq Require Import List Bool Arith Sorted Lia.
From Verif Require Import HybridPaving_Model HybridPaving_Spec HybridPaving_Proofs HybridSet_Model HybridSet_Proofs Labelled_Model Labelled_Spec.
Import ListNotations.

Lemma contains_In : forall s v, contains s v = true <-> In v s.
Proof.
  induction s as [|u s IH]; intros v; cbn [contains In]; [split; [discriminate|intros []]|]. destruct (Nat.eqb_spec v u) as [->|N]; [split; [left; reflexivity|reflexivity]|].
  rewrite IH. split; [right; assumption|intros [E|H]; [congruence|exact H]].
Qed.
Lemma contains_all_In : forall s vs, contains_all s vs = true <-> forall v, In v vs -> In v s.
Proof.
  intros s. induction vs as [|v vs IH]; cbn [contains_all]; [split; [intros _ u []|reflexivity]|]. destruct (contains s v) eqn:E; cbn [negb].
  - rewrite IH. apply contains_In in E. split; [intros H u [<-|U]; [exact E|exact (H u U)]|intros H u U; apply H; right; exact U].
  - split; [discriminate|]. intros H. pose proof (proj2 (contains_In s v) (H v (or_introl eq_refl))). congruence.
Qed.
Lemma index_from_spec : forall s i v, match index_from i s v with
  | Some k => exists j, k = i + j /\ nth_error s j = Some v /\ (forall j', j' < j -> nth_error s j' <> Some v)
  | None => ~ In v s end.
Proof.
  induction s as [|u s IH]; intros i v; cbn [index_from]; [intros []|]. destruct (Nat.eqb_spec v u) as [->|N].
  - exists 0. split; [lia|]. split; [reflexivity|]. intros j' H. lia.
  - specialize (IH (S i) v). destruct (index_from (S i) s v) as [k|].
    + destruct IH as [j [E [A B]]]. exists (S j). split; [lia|]. split; [exact A|]. intros [|j'] H; cbn; [congruence|apply B; lia].
    + intros [E|H]; [congruence|exact (IH H)].
Qed.
Lemma index_Some : forall s v k, index s v = Some k -> nth_error s k = Some v.
Proof. intros s v k H. pose proof (index_from_spec s 0 v) as P. unfold index in H. rewrite H in P. destruct P as [j [E [A _]]]. subst k. exact A. Qed.
Lemma index_None : forall s v, index s v = None <-> ~ In v s.
Proof.
  intros s v. pose proof (index_from_spec s 0 v) as P. unfold index. destruct (index_from 0 s v) as [k|].
  - destruct P as [j [E [A _]]]. split; [discriminate|]. intros N. exfalso. apply N. exact (nth_error_In _ _ A).
  - split; [intros _; exact P|reflexivity].
Qed.
Lemma index_unique : forall s i v, NoDup s -> nth_error s i = Some v -> index s v = Some i.
Proof.
  intros s i v D H. destruct (index s v) as [k|] eqn:E.
  - f_equal. pose proof (index_Some _ _ _ E) as K. apply (proj1 (NoDup_nth_error s) D); [apply nth_error_Some; congruence|congruence].
  - exfalso. apply index_None in E. apply E. exact (nth_error_In _ _ H).
Qed.
Lemma NoDup_snoc : forall (s : list nat) v, NoDup s -> ~ In v s -> NoDup (s ++ [v]).
Proof.
  intros s v D N. induction D as [|u s U D IH]; [repeat constructor; intros []|]. cbn [app]. constructor.
  - rewrite in_app_iff. intros [H|[H|[]]]; [exact (U H)|subst; apply N; left; reflexivity].
  - apply IH. intros H. apply N. right. exact H.
Qed.
Lemma append_all_spec : forall vs s, NoDup s -> match append_all s vs with Some r => r = s ++ vs /\ NoDup r | None => ~ NoDup (s ++ vs) end.
Proof.
  induction vs as [|v vs IH]; intros s D; cbn [append_all].
  - rewrite app_nil_r. split; [reflexivity|exact D].
  - unfold append. destruct (contains s v) eqn:E.
    + apply contains_In in E. intros N. apply NoDup_remove_2 in N. apply N. rewrite in_app_iff. left. exact E.
    + assert (N : ~ In v s) by (intros H; apply contains_In in H; congruence). specialize (IH (s ++ [v]) (NoDup_snoc s v D N)). rewrite <- app_assoc in IH. exact IH.
Qed.
Lemma insert_variable_spec : forall s v, NoDup s -> NoDup (insert_variable s v) /\ (forall u, In u (insert_variable s v) <-> In u s \/ u = v) /\ exists l, insert_variable s v = s ++ l.
Proof.
  intros s v D. unfold insert_variable. destruct (contains s v) eqn:E.
  - apply contains_In in E. split; [exact D|]. split; [intros u; split; [left; assumption|intros [H| ->]; assumption]|exists []; rewrite app_nil_r; reflexivity].
  - assert (N : ~ In v s) by (intros H; apply contains_In in H; congruence). split; [apply NoDup_snoc; assumption|].
    split; [intros u; rewrite in_app_iff; cbn [In]; intuition congruence|exists [v]; reflexivity].
Qed.
Lemma adjoin_spec : forall t s, NoDup s -> NoDup (adjoin s t) /\ (forall u, In u (adjoin s t) <-> In u s \/ In u t) /\ exists l, adjoin s t = s ++ l.
Proof.
  unfold adjoin. induction t as [|v t IH]; intros s D; cbn [fold_left].
  - split; [exact D|]. split; [intros u; cbn [In]; intuition|exists []; rewrite app_nil_r; reflexivity].
  - destruct (insert_variable_spec s v D) as [D1 [M1 [l1 E1]]]. destruct (IH _ D1) as [D2 [M2 [l2 E2]]]. split; [exact D2|]. split.
    + intros u. rewrite M2, M1. cbn [In]. intuition congruence.
    + exists (l1 ++ l2). rewrite E2, E1, app_assoc. reflexivity.
Qed.
Lemma indices_from_spec : forall s i m, ordered m -> NoDup s -> (forall v, In v s -> find v m = None) ->
  exists r, indices_from i s m = Some r /\ ordered r /\ forall v, find v r = match find v m with Some k => Some k | None => index_from i s v end.
Proof.
  induction s as [|u s IH]; intros i m O D N; cbn [indices_from].
  - exists m. split; [reflexivity|]. split; [exact O|]. intros v. cbn [index_from]. destruct (find v m); reflexivity.
  - inversion D as [|y z U D']; subst. unfold has_key. rewrite (N u (or_introl eq_refl)).
    destruct (IH (S i) (insert u i m)) as [r [E [Or F]]]; [apply insert_ordered; exact O|exact D'| |].
    + intros v V. rewrite find_insert by exact O. destruct (Nat.eqb_spec v u) as [->|X]; [contradiction|apply N; right; exact V].
    + exists r. split; [exact E|]. split; [exact Or|]. intros v. rewrite F, find_insert by exact O. cbn [index_from].
      destruct (Nat.eqb_spec v u) as [->|X]; [rewrite (N u (or_introl eq_refl)); reflexivity|reflexivity].
Qed.

Section BOX.
  Variable I : Type.
  Lemma of_bounds_ordered : forall l, ordered (of_bounds I l).
  Proof. intros l. apply (fold_insert_ordered _ (nat * I) fst snd). constructor. Qed.
  Lemma find_of_bounds : forall l v, find v (of_bounds I l) = find v l.
  Proof.
    intros l v. unfold of_bounds. rewrite (find_fold_insert _ (nat * I) fst snd) by constructor. cbn [find]. f_equal. erewrite map_ext; [apply map_id|intros [? ?]; reflexivity].
  Qed.
  Lemma NoDup_find : forall (l : list (nat * I)) v i, NoDup (map fst l) -> In (v, i) l -> find v l = Some i.
  Proof.
    induction l as [|[u j] l IH]; intros v i D H; [destruct H|]. cbn [map fst] in D. inversion D as [|y z N D']; subst. cbn [find]. destruct H as [H|H].
    - injection H as -> ->. rewrite Nat.eqb_refl. reflexivity.
    - destruct (Nat.eqb_spec v u) as [->|X]; [exfalso; apply N; exact (in_map fst _ _ H)|apply IH; assumption].
  Qed.
  Lemma unique_keys_from_spec : forall l seen, unique_keys_from I seen l = true <-> NoDup (map fst l) /\ forall v, In v (map fst l) -> ~ In v seen.
  Proof.
    induction l as [|[u j] l IH]; intros seen; cbn [unique_keys_from map fst]; [split; [intros _; split; [constructor|intros v []]|reflexivity]|].
    destruct (existsb (Nat.eqb u) seen) eqn:E.
    - split; [discriminate|]. intros [_ H]. exfalso. apply existsb_exists in E. destruct E as [x [X Q]]. apply Nat.eqb_eq in Q. subst x. exact (H u (or_introl eq_refl) X).
    - assert (N : ~ In u seen). { intros H. apply Bool.not_true_iff_false in E. apply E. apply existsb_exists. exists u. split; [exact H|apply Nat.eqb_refl]. }
      rewrite IH. cbn [In]. split.
      + intros [D H]. split.
        * constructor; [|exact D]. intros U. exact (H u U (or_introl eq_refl)).
        * intros v [<-|V]; [exact N|]. intros W. exact (H v V (or_intror W)).
      + intros [D H]. inversion D as [|y z U D']; subst. split; [exact D'|]. intros v V [W|W]; [subst; exact (U V)|exact (H v (or_intror V) W)].
  Qed.
  Lemma euclidean_spec : forall (b : vbox I) s, match euclidean I b s with
    | Some bx => length bx = length s /\ forall k v, nth_error s k = Some v -> nth_error bx k = find v b /\ find v b <> None
    | None => exists v, In v s /\ find v b = None end.
  Proof.
    intros b. induction s as [|v s IH]; cbn [euclidean]; [split; [reflexivity|intros [|k] v; discriminate]|].
    destruct (find v b) as [i|] eqn:E; [|exists v; split; [left; reflexivity|exact E]]. destruct (euclidean I b s) as [r|].
    - destruct IH as [L H]. split; [cbn; rewrite L; reflexivity|]. intros [|k] u U; cbn in *; [injection U as <-; rewrite E; split; [reflexivity|discriminate]|exact (H k u U)].
    - destruct IH as [u [U F]]. exists u. split; [right; exact U|exact F].
  Qed.
  Lemma euclidean_all : forall (b : vbox I) s, (forall v, In v s -> find v b <> None) -> exists bx, euclidean I b s = Some bx.
  Proof. intros b s H. pose proof (euclidean_spec b s) as P. destruct (euclidean I b s) as [bx|]; [exists bx; reflexivity|]. destruct P as [v [V N]]. exfalso. exact (H v V N). Qed.
  Lemma euclidean_in_box : forall X (inI : I -> X -> Prop) (b : vbox I) (w : nat -> X) s bx, euclidean I b s = Some bx ->
    (in_box inI bx (coordinates s w) <-> forall v i, In v s -> find v b = Some i -> inI i (w v)).
  Proof.
    intros X inI b w. unfold in_box, coordinates. induction s as [|v s IH]; intros bx H; cbn [euclidean] in H.
    - injection H as <-. cbn. split; [intros _ v i []|constructor].
    - destruct (find v b) as [i|] eqn:E; [|discriminate]. destruct (euclidean I b s) as [r|]; [|discriminate]. injection H as <-. cbn [map]. split.
      + intros F u j [<-|U] J; inversion F; subst; [congruence|]. apply (proj1 (IH r eq_refl)) with (v := u) (i := j); assumption.
      + intros F. constructor; [apply F; [left; reflexivity|exact E]|]. apply (proj2 (IH r eq_refl)). intros u j U J. apply F; [right; exact U|exact J].
  Qed.
  Lemma find_combine : forall (s : space) (bx : list I) v, length s = length bx -> find v (combine s bx) = match index s v with Some k => nth_error bx k | None => None end.
  Proof.
    intros s bx v L. unfold index. change (nth_error bx) with (fun k => nth_error bx k).
    assert (G : forall s (bx : list I) i, length s = length bx -> find v (combine s bx) = match index_from i s v with Some k => nth_error bx (k - i) | None => None end).
    { clear. induction s as [|u s IH]; intros bx i L; destruct bx as [|b bx]; try discriminate; cbn [combine find index_from]; [reflexivity|].
      destruct (Nat.eqb_spec v u) as [->|N]; [rewrite Nat.sub_diag; reflexivity|]. injection L as L. rewrite (IH bx (S i) L).
      pose proof (index_from_spec s (S i) v) as P. destruct (index_from (S i) s v) as [k|]; [|reflexivity]. destruct P as [j [-> _]].
      replace (S i + j - i) with (S j) by lia. replace (S i + j - S i) with j by lia. reflexivity. }
    rewrite (G s bx 0 L). destruct (index_from 0 s v); [rewrite Nat.sub_0_r|]; reflexivity.
  Qed.
  Lemma euclidean_ext : forall (b c : vbox I) s, (forall v, In v s -> find v b = find v c) -> euclidean I b s = euclidean I c s.
  Proof.
    intros b c. induction s as [|v s IH]; intros H; [reflexivity|]. cbn [euclidean]. rewrite (H v (or_introl eq_refl)), IH by (intros u U; apply H; right; exact U). reflexivity.
  Qed.
End BOX.
Section VAL.
  Variable X : Type.
  Lemma find_v_set : forall (m : list (nat * X)) v x u, ordered m -> find u (v_set X m v x) = if Nat.eqb u v then Some x else find u m.
  Proof.
    induction m as [|[c y] m IH]; intros v x u O; cbn [v_set find]; [reflexivity|]. destruct (Nat.eqb_spec v c) as [->|D]; cbn [find].
    - destruct (Nat.eqb u c); reflexivity.
    - destruct (Nat.ltb_spec v c) as [Q|Q]; cbn [find]; [reflexivity|]. rewrite IH by exact (ordered_tail _ _ _ O).
      destruct (Nat.eqb_spec u c) as [->|E]; [|reflexivity]. destruct (Nat.eqb_spec c v) as [E|E]; [congruence|reflexivity].
  Qed.
  Lemma v_set_keys : forall (m : list (nat * X)) v x k, In k (map fst (v_set X m v x)) <-> k = v \/ In k (map fst m).
  Proof.
    induction m as [|[c s] m IH]; intros v x k; cbn [v_set map fst In]; [intuition congruence|].
    destruct (Nat.eqb_spec v c) as [->|D]; [cbn [map fst In]; intuition congruence|]. destruct (Nat.ltb v c); cbn [map fst In]; [|rewrite IH]; intuition congruence.
  Qed.
  Lemma v_set_ordered : forall (m : list (nat * X)) v x, ordered m -> ordered (v_set X m v x).
  Proof.
    unfold ordered. induction m as [|[c s] m IH]; intros v x O; cbn [v_set]; [repeat constructor|].
    cbn [map fst] in O. inversion O as [|y z S F]; subst. destruct (Nat.eqb_spec v c) as [->|D]; [exact O|]. destruct (Nat.ltb_spec v c) as [Q|Q]; cbn [map fst].
    - constructor; [exact O|]. constructor; [exact Q|]. apply Forall_forall. intros k Hk. pose proof (proj1 (Forall_forall _ _) F k Hk). lia.
    - constructor; [apply IH; exact S|]. apply Forall_forall. intros k Hk. apply v_set_keys in Hk. destruct Hk as [->|Hk]; [lia|]. exact (proj1 (Forall_forall _ _) F k Hk).
  Qed.
  Lemma of_array_from_spec : forall ary i s m, NoDup s -> ordered m -> i + length ary <= length s -> (forall k v, i <= k -> nth_error s k = Some v -> find v m = None) ->
    exists r, of_array_from X i ary s m = Some r /\ ordered r /\ forall k v, nth_error s k = Some v -> find v r = if Nat.ltb k i then find v m else nth_error ary (k - i).
  Proof.
    induction ary as [|x ary IH]; intros i s m D O L N; cbn [of_array_from].
    - exists m. split; [reflexivity|]. split; [exact O|]. intros k v K. destruct (Nat.ltb_spec k i) as [Q|Q]; [reflexivity|]. rewrite (N k v Q K). destruct (k - i); reflexivity.
    - cbn [length] in L. unfold variable. destruct (nth_error s i) as [v|] eqn:E; [|apply nth_error_None in E; lia].
      destruct (IH (S i) s (v_insert X m v x)) as [r [R [Or F]]]; [exact D|apply insert_ordered; exact O|lia| |].
      + intros k u K U. unfold v_insert. rewrite find_insert by exact O. destruct (Nat.eqb_spec u v) as [->|Q]; [|apply (N k u); [lia|exact U]].
        exfalso. assert (k = i) by (apply (proj1 (NoDup_nth_error s) D); [apply nth_error_Some; congruence|congruence]). lia.
      + exists r. split; [exact R|]. split; [exact Or|]. intros k u U. rewrite (F k u U). unfold v_insert. rewrite find_insert by exact O.
        destruct (Nat.ltb_spec k (S i)) as [A|A]; destruct (Nat.ltb_spec k i) as [B|B]; try lia.
        * destruct (Nat.eqb_spec u v) as [->|Q]; [|reflexivity]. exfalso. assert (k = i) by (apply (proj1 (NoDup_nth_error s) D); [apply nth_error_Some; congruence|congruence]). lia.
        * assert (k = i) by lia. subst k. assert (u = v) by congruence. subst u. rewrite Nat.eqb_refl, (N i v (le_n i) E), Nat.sub_diag. reflexivity.
        * replace (k - i) with (S (k - S i)) by lia. reflexivity.
  Qed.
End VAL.

Lemma nth_error_ext_nat : forall (T : Type) (l m : list T), (forall k, nth_error l k = nth_error m k) -> l = m.
Proof.
  induction l as [|a l IH]; intros [|b m] H; [reflexivity|discriminate (H 0)|discriminate (H 0)|]. pose proof (H 0) as E. injection E as ->. f_equal. apply IH. intros k. exact (H (S k)).
Qed.
Lemma euclidean_defined_iff : forall (I : Type) (b : vbox I) s, (forall v, In v s -> exists i, In (v, i) b) <-> exists bx, euclidean I b s = Some bx.
Proof.
  intros I b s. split.
  - intros H. apply euclidean_all. intros v V F. destruct (H v V) as [i J]. exact (find_None _ _ _ F i J).
  - intros [bx E] v V. pose proof (euclidean_spec I b s) as P. rewrite E in P. destruct (In_nth_error _ _ V) as [k K]. destruct P as [_ P]. destruct (P k v K) as [_ B].
    destruct (find v b) as [i|] eqn:F; [|congruence]. exists i. apply find_In. exact F.
Qed.
