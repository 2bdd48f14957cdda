(** Maps, locations and building of hybrid automata. *)
From Coq Require Import List Bool Arith Lia Sorted Permutation.
From Verif Require Import Logical_Model Expr_Model Expr_Spec Expr_Proofs Automaton_Model Automaton_Spec.
Import ListNotations.

Section ORDER.
  Context {K V : Type} (lt : K -> K -> bool).
  Hypothesis lt_irrefl : forall a, lt a a = false.
  Hypothesis lt_trans : forall a b c, lt a b = true -> lt b c = true -> lt a c = true.
  Hypothesis lt_total : forall a b, lt a b = false -> lt b a = false -> a = b.
  Notation sorted := (StronglySorted (fun x y : K * V => lt (fst x) (fst y) = true)).

  Lemma neither a b : lt a b || lt b a = false <-> a = b.
  Proof using lt_irrefl lt_total.
    rewrite orb_false_iff. split; [ intros [H1 H2]; auto | intros ->; auto ].
  Qed.
  Lemma sorted_nodup (m : list (K * V)) : sorted m -> NoDup (map fst m).
  Proof using lt_irrefl.
    induction 1 as [|x m S IH F]; simpl; constructor; auto.
    intros H. apply in_map_iff in H as (y & E & Hy). rewrite Forall_forall in F. specialize (F y Hy).
    rewrite E, lt_irrefl in F. discriminate.
  Qed.
  Lemma mfind_in (m : list (K * V)) k v : NoDup (map fst m) -> (mfind lt k m = Some v <-> In (k, v) m).
  Proof using lt_irrefl lt_total.
    induction m as [|[k' v'] m IH]; simpl; intros N; [ split; [ discriminate | tauto ] | ].
    inversion N as [|? ? N1 N2]; subst. destruct (lt k k' || lt k' k) eqn:E.
    - rewrite IH by auto. split; [ auto | ]. intros [H|H]; [ | auto ]. injection H as -> ->. rewrite lt_irrefl in E. discriminate.
    - apply neither in E. subst k'. split; [ intros H; left; congruence | ].
      intros [H|H]; [ congruence | ]. exfalso. apply N1. apply in_map_iff. exists (k, v). auto.
  Qed.
  Lemma mfind_none (m : list (K * V)) k : mfind lt k m = None <-> ~ In k (map fst m).
  Proof using lt_irrefl lt_total.
    induction m as [|[k' v'] m IH]; simpl; [ split; auto | ]. destruct (lt k k' || lt k' k) eqn:E.
    - rewrite IH. split; [ | tauto ]. intros H [H'|H']; [ subst; rewrite lt_irrefl in E; discriminate | auto ].
    - apply neither in E. subst. split; [ discriminate | tauto ].
  Qed.
  Lemma mfind_some (m : list (K * V)) k v : mfind lt k m = Some v -> In (k, v) m.
  Proof using lt_irrefl lt_total.
    induction m as [|[k' v'] m IH]; simpl; [ discriminate | ]. destruct (lt k k' || lt k' k) eqn:E; [ auto | ].
    apply neither in E. intros H. left. congruence.
  Qed.
  Lemma mhas_in (m : list (K * V)) k : mhas lt k m = true <-> In k (map fst m).
  Proof using lt_irrefl lt_total.
    unfold mhas. destruct (mfind lt k m) as [v|] eqn:E.
    - split; [ | auto ]. intros _. apply mfind_some in E. change k with (fst (k, v)). now apply in_map.
    - apply mfind_none in E. split; [ discriminate | tauto ].
  Qed.
  Lemma minsert_in (m : list (K * V)) k v x : sorted m -> In x (minsert lt k v m) <-> In x m \/ (x = (k, v) /\ ~ In k (map fst m)).
  Proof using lt_irrefl lt_total lt_trans.
    induction 1 as [|[k' v'] m S IH F]; simpl; [ intuition | ].
    destruct (lt k k') eqn:E1; [ | destruct (lt k' k) eqn:E2 ].
    - assert (~ In k (map fst m)).
      { intros H. apply in_map_iff in H as (y & E & Hy). rewrite Forall_forall in F. specialize (F y Hy). simpl in F.
        rewrite E in F. pose proof (lt_trans _ _ _ E1 F) as Q. rewrite lt_irrefl in Q. discriminate. }
      assert (k' <> k) by (intros ->; rewrite lt_irrefl in E1; discriminate). simpl. intuition.
    - assert (k' <> k) by (intros ->; rewrite lt_irrefl in E2; discriminate). simpl. rewrite IH. intuition.
    - assert (k = k') by auto. subst. simpl. intuition.
  Qed.
  Lemma minsert_sorted (m : list (K * V)) k v : sorted m -> sorted (minsert lt k v m).
  Proof using lt_irrefl lt_total lt_trans.
    induction 1 as [|[k' v'] m S IH F]; simpl; [ repeat constructor | ].
    destruct (lt k k') eqn:E1; [ | destruct (lt k' k) eqn:E2 ].
    - constructor; [ constructor; auto | ]. constructor; [ auto | ]. rewrite Forall_forall in *. intros y Hy.
      simpl. eapply lt_trans; [ exact E1 | apply (F y Hy) ].
    - constructor; [ exact IH | ]. rewrite Forall_forall in *. intros y Hy. apply minsert_in in Hy; [ | exact S ].
      destruct Hy as [Hy|[-> _]]; [ auto | exact E2 ].
    - constructor; auto.
  Qed.
  Lemma mset_in (m : list (K * V)) k v x : sorted m -> In x (mset lt k v m) <-> x = (k, v) \/ (In x m /\ fst x <> k).
  Proof using lt_irrefl lt_total lt_trans.
    induction 1 as [|[k' v'] m S IH F]; simpl; [ intuition | ].
    assert (G : lt k k' = true \/ k = k' -> forall y, In y m -> fst y <> k).
    { intros H y Hy E. rewrite Forall_forall in F. specialize (F y Hy). simpl in F. rewrite E in F.
      destruct H as [H| ->]; [ | rewrite lt_irrefl in F; discriminate ].
      pose proof (lt_trans _ _ _ H F) as Q. rewrite lt_irrefl in Q. discriminate. }
    destruct (lt k k') eqn:E1; [ | destruct (lt k' k) eqn:E2 ].
    - assert (k' <> k) by (intros ->; rewrite lt_irrefl in E1; discriminate). simpl. split; [ | intuition ].
      intros [H'|[H'|H']]; [ auto | subst; right; split; auto | right; split; auto ].
    - assert (k' <> k) by (intros ->; rewrite lt_irrefl in E2; discriminate). simpl. rewrite IH. split; intuition; subst; auto.
    - assert (k = k') by auto. subst. simpl. split.
      + intros [H'|H']; [ auto | right; split; auto ].
      + intros [H'|[[H'|H'] H'']]; [ auto | subst; simpl in H''; tauto | auto ].
  Qed.
  Lemma mset_sorted (m : list (K * V)) k v : sorted m -> sorted (mset lt k v m).
  Proof using lt_irrefl lt_total lt_trans.
    induction 1 as [|[k' v'] m S IH F]; simpl; [ repeat constructor | ].
    destruct (lt k k') eqn:E1; [ | destruct (lt k' k) eqn:E2 ].
    - constructor; [ constructor; auto | ]. constructor; [ auto | ]. rewrite Forall_forall in *. intros y Hy.
      simpl. eapply lt_trans; [ exact E1 | apply (F y Hy) ].
    - constructor; [ exact IH | ]. rewrite Forall_forall in *. intros y Hy. apply mset_in in Hy; [ | exact S ].
      destruct Hy as [->|[Hy _]]; [ exact E2 | auto ].
    - assert (k = k') by auto. subst. constructor; auto.
  Qed.
  Lemma adjoin_sorted (m2 : list (K * V)) : forall m, sorted m -> sorted (adjoin lt m m2).
  Proof using lt_irrefl lt_total lt_trans.
    induction m2 as [|[k v] m2 IH]; simpl; intros m S; auto. apply IH. now apply minsert_sorted.
  Qed.
  Lemma adjoin_in (m2 : list (K * V)) x : forall m, sorted m -> NoDup (map fst m2) ->
    In x (adjoin lt m m2) <-> In x m \/ (In x m2 /\ ~ In (fst x) (map fst m)).
  Proof using lt_irrefl lt_total lt_trans.
    induction m2 as [|[k v] m2 IH]; simpl; intros m S N; [ intuition | ]. inversion N as [|? ? N1 N2]; subst.
    change (fold_left _ m2 (minsert lt k v m)) with (adjoin lt (minsert lt k v m) m2).
    rewrite IH; auto using minsert_sorted. rewrite (minsert_in m k v x) by auto.
    assert (KK : forall y, In y (map fst (minsert lt k v m)) <-> In y (map fst m) \/ y = k).
    { intros y. rewrite !in_map_iff. split.
      - intros (z & <- & Hz). apply minsert_in in Hz; [ | exact S ]. destruct Hz as [Hz|[-> _]]; [ left; exists z; auto | auto ].
      - intros [(z & <- & Hz)| ->]; [ exists z; split; [ auto | apply minsert_in; auto ] | ].
        destruct (mfind lt k m) as [v'|] eqn:E.
        + exists (k, v'). split; [ auto | ]. apply minsert_in; [ exact S | left ]. apply mfind_in; [ now apply sorted_nodup | exact E ].
        + apply mfind_none in E. exists (k, v). split; [ auto | ]. apply minsert_in; auto. }
    rewrite KK. split.
    - intros [[H|[-> H]]|[H H']]; [ auto | auto | ]. right. split; [ auto | tauto ].
    - intros [H|[[<-|H] H']]; [ auto | simpl in H'; auto | ].
      right. split; [ auto | ]. intros [Q|Q]; [ auto | ]. apply N1. rewrite <- Q. now apply in_map.
  Qed.
  Lemma mupdate_keys (m : list (K * V)) k f : map fst (mupdate lt k f m) = map fst m.
  Proof. induction m as [|[k' v'] m IH]; simpl; auto. destruct (_ || _); simpl; f_equal; auto. Qed.
  Lemma mupdate_in (m : list (K * V)) k f x : NoDup (map fst m) ->
    In x (mupdate lt k f m) <-> (In x m /\ fst x <> k) \/ (exists v, In (k, v) m /\ x = (k, f v)).
  Proof using lt_irrefl lt_total.
    induction m as [|[k' v'] m IH]; simpl; intros N; [ split; [ tauto | intros [[]|(v & [] & _)]; tauto ] | ].
    inversion N as [|? ? N1 N2]; subst. destruct (lt k k' || lt k' k) eqn:E.
    - assert (k <> k') by (intros Q; apply neither in Q; congruence). simpl. rewrite IH by auto. split.
      + intros [<-|[[H1 H2]|(v & H1 & H2)]]; [ left; split; auto | left; auto | right; exists v; auto ].
      + intros [[[<-|H1] H2]|(v & [H1|H1] & H2)]; [ auto | auto | congruence | eauto ].
    - apply neither in E. subst k'. simpl. split.
      + intros [<-|H]; [ right; exists v'; auto | left ]. split; [ auto | ]. intros Q. apply N1. rewrite <- Q. now apply in_map.
      + intros [[[<-|H1] H2]|(v & [H1|H1] & H2)]; [ simpl in H2; tauto | auto | left; congruence | ].
        exfalso. apply N1. apply in_map_iff. exists (k, v). auto.
  Qed.
  Lemma sorted_keys (m m' : list (K * V)) : map fst m = map fst m' -> sorted m -> sorted m'.
  Proof.
    revert m'. induction m as [|x m IH]; intros [|x' m']; simpl; intros E S; try discriminate; [ constructor | ].
    injection E as E1 E2. inversion S as [|? ? S1 F]; subst. constructor; [ now apply IH | ].
    rewrite Forall_forall in *. intros y Hy. rewrite <- E1.
    assert (In (fst y) (map fst m)) by (rewrite E2; now apply in_map). apply in_map_iff in H as (z & <- & Hz). auto.
  Qed.
End ORDER.

Section SETORDER.
  Context {K : Type} (lt : K -> K -> bool).
  Hypothesis lt_irrefl : forall a, lt a a = false.
  Hypothesis lt_total : forall a b, lt a b = false -> lt b a = false -> a = b.
  Lemma smem_in s k : smem lt k s = true <-> In k s.
  Proof using lt_irrefl lt_total.
    unfold smem. rewrite existsb_exists. split.
    - intros (x & H & E). apply andb_true_iff in E as [E1 E2]. apply negb_true_iff in E1, E2. assert (k = x) by auto. now subst.
    - intros H. exists k. split; [ exact H | ]. now rewrite lt_irrefl.
  Qed.
  Lemma sinsert_in s k x : In x (sinsert lt k s) <-> x = k \/ In x s.
  Proof using lt_irrefl lt_total.
    induction s as [|y s IH]; simpl; [ intuition | ].
    destruct (lt k y) eqn:E1; [ simpl; intuition | ]. destruct (lt y k) eqn:E2; simpl; [ rewrite IH; intuition | ].
    assert (k = y) by auto. subst. intuition.
  Qed.
  Lemma sadjoin_in t x : forall s, In x (sadjoin lt s t) <-> In x s \/ In x t.
  Proof using lt_irrefl lt_total.
    induction t as [|y t IH]; simpl; intros s; [ intuition | ].
    change (fold_left _ t (sinsert lt y s)) with (sadjoin lt (sinsert lt y s) t). rewrite IH, sinsert_in. intuition.
  Qed.
End SETORDER.

(** ** Numbers as keys *)
Lemma nlt_irrefl a : Nat.ltb a a = false. Proof. apply Nat.ltb_irrefl. Qed.
Lemma nlt_trans a b c : Nat.ltb a b = true -> Nat.ltb b c = true -> Nat.ltb a c = true.
Proof. rewrite !Nat.ltb_lt. lia. Qed.
Lemma nlt_total a b : Nat.ltb a b = false -> Nat.ltb b a = false -> a = b.
Proof. rewrite !Nat.ltb_ge. lia. Qed.
Lemma wf_sorted {V} (m : nmap V) : wf_map m <-> StronglySorted (fun x y => Nat.ltb (fst x) (fst y) = true) m.
Proof.
  unfold wf_map. split; intros H; induction H as [|x m S IH F]; constructor; auto; rewrite Forall_forall in *; intros y Hy;
    specialize (F y Hy); now apply Nat.ltb_lt.
Qed.
Lemma wf_nodup {V} (m : nmap V) : wf_map m -> NoDup (map fst m).
Proof. intros H. apply wf_sorted in H. eapply sorted_nodup; [ apply nlt_irrefl | exact H ]. Qed.
Lemma nfind_in {V} (m : nmap V) k v : wf_map m -> (nfind k m = Some v <-> In (k, v) m).
Proof. intros H. apply mfind_in; auto using nlt_irrefl, nlt_total, wf_nodup. Qed.
Lemma nfind_none {V} (m : nmap V) k : nfind k m = None <-> ~ In k (map fst m).
Proof. apply mfind_none; auto using nlt_irrefl, nlt_total. Qed.
Lemma nhas_in {V} (m : nmap V) k : nhas k m = true <-> In k (map fst m).
Proof. apply mhas_in; auto using nlt_irrefl, nlt_total. Qed.
Lemma ninsert_in {V} (m : nmap V) k v x : wf_map m -> In x (ninsert k v m) <-> In x m \/ (x = (k, v) /\ ~ In k (map fst m)).
Proof. intros H. apply minsert_in; auto using nlt_irrefl, nlt_total. apply nlt_trans. now apply wf_sorted. Qed.
Lemma ninsert_wf {V} (m : nmap V) k v : wf_map m -> wf_map (ninsert k v m).
Proof. intros H. apply wf_sorted. apply minsert_sorted; auto using nlt_irrefl, nlt_total. apply nlt_trans. now apply wf_sorted. Qed.
Lemma nset_in {V} (m : nmap V) k v x : wf_map m -> In x (nset k v m) <-> x = (k, v) \/ (In x m /\ fst x <> k).
Proof. intros H. apply mset_in; auto using nlt_irrefl, nlt_total. apply nlt_trans. now apply wf_sorted. Qed.
Lemma nset_wf {V} (m : nmap V) k v : wf_map m -> wf_map (nset k v m).
Proof. intros H. apply wf_sorted. apply mset_sorted; auto using nlt_irrefl, nlt_total. apply nlt_trans. now apply wf_sorted. Qed.
Lemma nadjoin_in {V} (m m2 : nmap V) x : wf_map m -> wf_map m2 ->
  In x (adjoin Nat.ltb m m2) <-> In x m \/ (In x m2 /\ ~ In (fst x) (map fst m)).
Proof. intros H H2. apply adjoin_in; auto using nlt_irrefl, nlt_total, wf_nodup. apply nlt_trans. now apply wf_sorted. Qed.
Lemma nadjoin_wf {V} (m m2 : nmap V) : wf_map m -> wf_map (adjoin Nat.ltb m m2).
Proof. intros H. apply wf_sorted. apply adjoin_sorted; auto using nlt_irrefl, nlt_total. apply nlt_trans. now apply wf_sorted. Qed.
Lemma subset_incl s t : subset s t = true <-> incl s t.
Proof. unfold subset, incl. rewrite forallb_forall. split; intros H v Hv; [ apply mem_in | apply mem_in ]; auto. Qed.
Lemma unique_nodup l : unique l = true <-> NoDup l.
Proof.
  induction l as [|v l IH]; simpl; [ split; auto; constructor | ]. rewrite andb_true_iff, negb_true_iff, IH. split.
  - intros [H1 H2]. constructor; [ | exact H2 ]. intros H. apply mem_in in H. congruence.
  - intros H. inversion H; subst. split; [ | auto ]. destruct (mem v l) eqn:E; [ | auto ]. apply mem_in in E. contradiction.
Qed.

(** ** Locations *)
Lemma loc_lt_irrefl q : loc_lt q q = false.
Proof. induction q as [|[k v] q IH]; simpl; auto. now rewrite !Nat.eqb_refl. Qed.
Lemma loc_lt_total q1 : forall q2, loc_lt q1 q2 = false -> loc_lt q2 q1 = false -> q1 = q2.
Proof.
  induction q1 as [|[k1 v1] q1 IH]; intros [|[k2 v2] q2]; simpl; try discriminate; auto.
  destruct (Nat.eqb_spec k1 k2) as [->|N]; [ rewrite Nat.eqb_refl | ]; simpl.
  - destruct (Nat.eqb_spec v1 v2) as [->|N]; [ rewrite Nat.eqb_refl | ]; simpl; [ intros H1 H2; f_equal; auto | ].
    destruct (Nat.eqb_spec v2 v1); [ congruence | ]. simpl. rewrite !Nat.ltb_ge. lia.
  - destruct (Nat.eqb_spec k2 k1); [ congruence | ]. simpl. rewrite !Nat.ltb_ge. lia.
Qed.
Lemma loc_lt_trans q1 : forall q2 q3, loc_lt q1 q2 = true -> loc_lt q2 q3 = true -> loc_lt q1 q3 = true.
Proof.
  induction q1 as [|[k1 v1] q1 IH]; intros [|[k2 v2] q2] [|[k3 v3] q3]; simpl; try discriminate; auto.
  destruct (Nat.eqb_spec k1 k2) as [->|N1]; simpl.
  - destruct (Nat.eqb_spec k2 k3) as [->|N2]; simpl; [ | auto ].
    destruct (Nat.eqb_spec v1 v2) as [->|N3]; simpl.
    + destruct (Nat.eqb_spec v2 v3) as [->|N4]; simpl; eauto.
    + destruct (Nat.eqb_spec v2 v3) as [->|N4]; simpl.
      * intros H _. destruct (Nat.eqb_spec v1 v3); [ congruence | exact H ].
      * rewrite !Nat.ltb_lt. intros H1 H2. destruct (Nat.eqb_spec v1 v3); [ lia | ]. simpl. apply Nat.ltb_lt. lia.
  - destruct (Nat.eqb_spec k2 k3) as [->|N2]; simpl.
    + intros H _. destruct (Nat.eqb_spec k1 k3); [ congruence | exact H ].
    + rewrite !Nat.ltb_lt. intros H1 H2. destruct (Nat.eqb_spec k1 k3); [ lia | ]. simpl. apply Nat.ltb_lt. lia.
Qed.

Lemma are_same_eq q1 : forall q2, are_same q1 q2 = true <-> q1 = q2.
Proof.
  induction q1 as [|[k1 v1] q1 IH]; intros [|[k2 v2] q2]; simpl; split; try discriminate; auto.
  - intros H. apply andb_true_iff in H as [H H3]. apply andb_true_iff in H as [H1 H2]. apply Nat.eqb_eq in H1, H2. apply IH in H3. congruence.
  - intros H. injection H as -> -> ->. rewrite !Nat.eqb_refl. simpl. now apply IH.
Qed.
Lemma loc_eqb_eq q1 q2 : loc_eqb q1 q2 = true <-> q1 = q2.
Proof. exact (are_same_eq q1 q2). Qed.

Lemma wf_cons {V} (k : nat) (v : V) m : wf_map ((k, v) :: m) <-> (forall k' v', In (k', v') m -> k < k') /\ wf_map m.
Proof.
  unfold wf_map. split.
  - intros H. inversion H as [|? ? S F]; subst. rewrite Forall_forall in F. split; [ intros k' v' H'; apply (F _ H') | exact S ].
  - intros [H S]. constructor; [ exact S | ]. rewrite Forall_forall. intros [k' v'] H'. simpl. eauto.
Qed.

Lemma loc_eq_go_spec : forall q1 q2 b, wf_map q1 -> wf_map q2 ->
  match loc_eq_go q1 q2 b with
  | Some true => b = true /\ q1 = q2
  | Some false => differ q1 q2
  | None => (b = false \/ q1 <> q2) /\ ~ differ q1 q2
  end.
Proof.
  induction q1 as [|[k1 v1] r1 IH1]; intros q2 b W1.
  - destruct q2 as [|[k2 v2] r2]; intros W2; simpl.
    + destruct b; [ auto | split; [ auto | intros (k & x & y & [] & _) ] ].
    + split; [ right; discriminate | intros (k & x & y & [] & _) ].
  - revert b. induction q2 as [|[k2 v2] r2 IH2]; intros b W2; simpl.
    + split; [ right; discriminate | intros (k & x & y & _ & [] & _) ].
    + pose proof W1 as W1'. pose proof W2 as W2'. apply wf_cons in W1' as [L1 W1']. apply wf_cons in W2' as [L2 W2'].
      destruct (Nat.eqb_spec k1 k2) as [->|N].
      * destruct (Nat.eqb_spec v1 v2) as [->|Nv].
        -- specialize (IH1 r2 b W1' W2'). destruct (loc_eq_go r1 r2 b) as [[|]|].
           ++ destruct IH1 as [-> ->]. auto.
           ++ destruct IH1 as (k & x & y & H1 & H2 & H3). exists k, x, y. simpl. auto.
           ++ destruct IH1 as [H1 H2]. split; [ destruct H1 as [H1|H1]; [ auto | right; congruence ] | ].
              intros (k & x & y & Hx & Hy & Hn). apply H2. destruct Hx as [Hx|Hx], Hy as [Hy|Hy].
              ** congruence. ** injection Hx as <- <-. specialize (L2 _ _ Hy). lia.
              ** injection Hy as <- <-. specialize (L1 _ _ Hx). lia. ** exists k, x, y. auto.
        -- exists k2, v1, v2. simpl. auto.
      * destruct (Nat.ltb_spec k1 k2) as [L|L].
        -- specialize (IH1 ((k2, v2) :: r2) false W1' W2). destruct (loc_eq_go r1 ((k2, v2) :: r2) false) as [[|]|].
           ++ destruct IH1; discriminate.
           ++ destruct IH1 as (k & x & y & H1 & H2 & H3). exists k, x, y. simpl in *. auto.
           ++ destruct IH1 as [H1 H2]. split; [ right; congruence | ].
              intros (k & x & y & Hx & Hy & Hn). apply H2. destruct Hx as [Hx|Hx]; [ | exists k, x, y; auto ].
              injection Hx as <- <-. destruct Hy as [Hy|Hy]; [ injection Hy as <- <-; lia | specialize (L2 _ _ Hy); lia ].
        -- assert (L' : k2 < k1) by lia.
           change ((fix go (q2 : loc) (identical : bool) {struct q2} : option bool :=
              match q2 with
              | [] => None
              | (k2, v2) :: r2 => if k1 =? k2 then if v1 =? v2 then loc_eq_go r1 r2 identical else Some false
                  else if k1 <? k2 then loc_eq_go r1 q2 false else go r2 false
              end) r2 false) with (loc_eq_go ((k1, v1) :: r1) r2 false).
           specialize (IH2 false W2'). destruct (loc_eq_go ((k1, v1) :: r1) r2 false) as [[|]|].
           ++ destruct IH2; discriminate.
           ++ destruct IH2 as (k & x & y & H1 & H2 & H3). exists k, x, y. simpl in *. auto.
           ++ destruct IH2 as [H1 H2]. split; [ right; congruence | ].
              intros (k & x & y & Hx & Hy & Hn). apply H2. destruct Hy as [Hy|Hy]; [ | exists k, x, y; auto ].
              injection Hy as <- <-. destruct Hx as [Hx|Hx]; [ injection Hx as <- <-; lia | specialize (L1 _ _ Hx); lia ].
Qed.
Lemma wf_ext {V} (q1 : nmap V) : forall q2, wf_map q1 -> wf_map q2 -> (forall x, In x q1 <-> In x q2) -> q1 = q2.
Proof.
  induction q1 as [|[k1 v1] q1 IH]; intros [|[k2 v2] q2] W1 W2 H; auto.
  - exfalso. apply (proj2 (H (k2, v2))). left. reflexivity.
  - exfalso. apply (proj1 (H (k1, v1))). left. reflexivity.
  - apply wf_cons in W1 as [L1 W1]. apply wf_cons in W2 as [L2 W2].
    assert (E : (k1, v1) = (k2, v2)).
    { destruct (proj1 (H (k1, v1)) (or_introl eq_refl)) as [E|E]; [ auto | ].
      destruct (proj2 (H (k2, v2)) (or_introl eq_refl)) as [E'|E']; [ auto | ]. specialize (L1 _ _ E'). specialize (L2 _ _ E). lia. }
    injection E as <- <-. f_equal. apply IH; auto. intros [k v]. split; intros Hx.
    + destruct (proj1 (H (k, v)) (or_intror Hx)) as [E|E]; [ injection E as <- <-; specialize (L1 _ _ Hx); lia | exact E ].
    + destruct (proj2 (H (k, v)) (or_intror Hx)) as [E|E]; [ injection E as <- <-; specialize (L2 _ _ Hx); lia | exact E ].
Qed.
Lemma distinguishable_spec q1 q2 : wf_map q2 -> (are_distinguishable q1 q2 = true <-> differ q1 q2).
Proof.
  intros W. unfold are_distinguishable. rewrite existsb_exists. split.
  - intros ([k v] & H & E). simpl in E. destruct (nfind k q2) as [v'|] eqn:F; [ | discriminate ].
    apply nfind_in in F; [ | exact W ]. exists k, v, v'. apply negb_true_iff, Nat.eqb_neq in E. auto.
  - intros (k & x & y & Hx & Hy & N). exists (k, x). split; [ exact Hx | ]. simpl.
    apply (nfind_in _ _ _ W) in Hy. rewrite Hy. now apply negb_true_iff, Nat.eqb_neq; auto.
Qed.
Lemma restriction_spec q1 q2 : wf_map q2 -> (is_restriction q1 q2 = true <-> within q1 q2).
Proof.
  intros W. unfold is_restriction, within. rewrite forallb_forall. split.
  - intros H k v Hkv. specialize (H _ Hkv). simpl in H. destruct (nfind k q2) as [v'|] eqn:F; [ | discriminate ].
    apply Nat.eqb_eq in H. subst. now apply nfind_in in F.
  - intros H [k v] Hkv. apply H, (nfind_in _ _ _ W) in Hkv. simpl. rewrite Hkv. apply Nat.eqb_refl.
Qed.
Lemma differ_sym q1 q2 : differ q1 q2 -> differ q2 q1.
Proof. intros (k & x & y & H1 & H2 & H3). exists k, y, x. auto. Qed.
Lemma within_differ q1 q2 l : wf_map l -> within q1 l -> within q2 l -> ~ differ q1 q2.
Proof.
  intros W H1 H2 (k & x & y & Hx & Hy & N). apply N. apply H1, (nfind_in _ _ _ W) in Hx. apply H2, (nfind_in _ _ _ W) in Hy. congruence.
Qed.
