(** Reconditioning of sets given by Taylor models. *)
From Coq Require Import ZArith NArith Reals List Bool Lra Lia Sorted Permutation.
From Flocq Require Import Core IEEE754.BinarySingleNaN.
From Verif Require Import Logical_Model Float_Model Float_Spec Float_Proofs Bounds_Model Bounds_Spec Bounds_Proofs Ball_Proofs.
From Verif Require Import LRU_Model Poly_Model Poly_Spec Poly_Proofs Taylor_Model Taylor_Spec Taylor_Proofs Taylor_Arith_Proofs Taylor_Range_Proofs.
From Verif Require ConstraintSolver_Proofs.
From Verif Require Import Enclosure_Model Enclosure_Spec.
Import ListNotations.
Local Open Scope R_scope.

(** ** Sorting *)
Lemma insert_perm {A} (b : A -> A -> bool) x l : Permutation (insert_by b x l) (x :: l).
Proof. induction l as [|y l IH]; cbn; auto. destruct (b y x); auto. rewrite IH. apply perm_swap. Qed.
Lemma sort_perm {A} (b : A -> A -> bool) l : Permutation (sort_by b l) l.
Proof. induction l as [|x l IH]; cbn; auto. rewrite insert_perm, IH. auto. Qed.
Lemma insert_sorted x l : ~ In x l -> StronglySorted lt l -> StronglySorted lt (insert_by Nat.ltb x l).
Proof.
  induction l as [|y l IH]; intros N S; cbn [insert_by]; [repeat constructor|]. inversion_clear S as [|? ? S0 F]. cbn in N.
  destruct (Nat.ltb_spec y x) as [L|L].
  - constructor; [apply IH; auto|]. eapply Permutation_Forall; [symmetry; apply insert_perm|]. constructor; auto.
  - assert (x < y)%nat by lia. constructor; [constructor; auto|]. constructor; auto. eapply Forall_impl; [|exact F]. cbn. intros; lia.
Qed.
Lemma sort_sorted l : NoDup l -> StronglySorted lt (sort_by Nat.ltb l).
Proof.
  induction 1 as [|x l N D IH]; cbn; [constructor|]. apply insert_sorted; auto. intros I. apply N. eapply Permutation_in; [apply (sort_perm Nat.ltb)|exact I].
Qed.
Lemma sorted_same : forall l l', StronglySorted lt l -> StronglySorted lt l' -> (forall x, In x l <-> In x l') -> l = l'.
Proof.
  induction l as [|x l IH]; intros [|y l'] S S' E; auto.
  - destruct (proj2 (E y)); cbn; auto.
  - destruct (proj1 (E x)); cbn; auto.
  - inversion_clear S as [|? ? S0 F]. inversion_clear S' as [|? ? S0' F']. rewrite Forall_forall in F, F'.
    assert (x = y) as ->.
    { destruct (proj1 (E x) (or_introl eq_refl)) as [|I]; auto. destruct (proj2 (E y) (or_introl eq_refl)) as [|I']; auto.
      apply F' in I. apply F in I'. lia. }
    f_equal. apply IH; auto. intros z. split; intros I.
    + destruct (proj1 (E z) (or_intror I)) as [->|]; auto. apply F in I. lia.
    + destruct (proj2 (E z) (or_intror I)) as [->|]; auto. apply F' in I. lia.
Qed.
Lemma seq_sorted n : forall j, StronglySorted lt (seq j n).
Proof.
  induction n as [|n IH]; intros j; cbn; constructor; auto. apply Forall_forall. intros x I. apply in_seq in I. lia.
Qed.
Lemma filter_sorted f l : StronglySorted lt l -> StronglySorted lt (filter f l).
Proof.
  induction 1 as [|x l S IH F]; cbn; [constructor|]. destruct (f x); auto. constructor; auto.
  rewrite Forall_forall in *. intros y I. apply filter_In in I. apply F. tauto.
Qed.
Lemma sorted_increasing l : StronglySorted lt l -> increasing l = true.
Proof.
  induction 1 as [|x l S IH F]; auto. destruct l as [|y l]; auto. cbn [increasing]. inversion_clear F. apply andb_true_iff. split; auto.
  apply Nat.ltb_lt. auto.
Qed.

(** ** The variables kept *)
Definition kept_flag (disc : list nat) (j : nat) : bool := negb (existsb (Nat.eqb j) disc).
Definition mask (n : nat) (disc : list nat) : list bool := map (kept_flag disc) (seq 0 n).
Lemma flag_in disc j : kept_flag disc j = true <-> ~ In j disc.
Proof.
  unfold kept_flag. rewrite negb_true_iff, <- not_true_iff_false, existsb_exists. split; intros H I; apply H.
  - exists j. split; auto. apply Nat.eqb_refl.
  - destruct I as (x & I & E). apply Nat.eqb_eq in E. subst. auto.
Qed.
Lemma increasing_sorted l : increasing l = true -> StronglySorted lt l.
Proof.
  induction l as [|x l IH]; intros H; [constructor|]. destruct l as [|y l]; [repeat constructor|]. cbn [increasing] in H.
  apply andb_true_iff in H. destruct H as [L H]. apply Nat.ltb_lt in L. specialize (IH H). constructor; auto.
  inversion_clear IH as [|? ? S F]. constructor; auto. eapply Forall_impl; [|exact F]. cbn. intros; lia.
Qed.
Lemma complement_from_filter n : forall j vars, StronglySorted lt vars -> Forall (fun v => (j <= v)%nat) vars ->
  complement_from j n vars = filter (kept_flag vars) (seq j n).
Proof.
  induction n as [|n IH]; intros j vars S F; auto. cbn [complement_from seq filter]. destruct vars as [|v vars].
  - cbn. f_equal. rewrite IH by constructor. reflexivity.
  - inversion_clear F as [|? ? F0 F1]. inversion_clear S as [|? ? S0 G]. destruct (Nat.eqb_spec j v) as [->|N].
    + assert (kept_flag (v :: vars) v = false) as ->. { apply not_true_iff_false. rewrite flag_in. cbn. tauto. }
      rewrite IH; auto. apply filter_ext_in. intros x I. apply in_seq in I.
      destruct (kept_flag vars x) eqn:E; symmetry.
      * apply flag_in in E. apply flag_in. cbn. intros [|]; auto. lia.
      * apply not_true_iff_false in E. apply not_true_iff_false. intros K. apply E. apply flag_in in K. apply flag_in. cbn in K. tauto.
    + assert (kept_flag (v :: vars) j = true) as ->.
      { apply flag_in. cbn. intros [|I]; [congruence|]. rewrite Forall_forall in G. apply G in I. lia. }
      f_equal. apply IH; [constructor; auto|]. constructor; [lia|]. eapply Forall_impl; [|exact G]. cbn. intros; lia.
Qed.
Lemma complement_filter n vars : increasing vars = true -> complement n vars = filter (kept_flag vars) (seq 0 n).
Proof. intros I. apply complement_from_filter; [apply increasing_sorted; auto|]. apply Forall_forall. intros; lia. Qed.

Lemma select_filter {A} (d : A) f : forall a j, map (fun k => nth (k - j) a d) (filter f (seq j (length a))) = select (map f (seq j (length a))) a.
Proof.
  induction a as [|x a IH]; intros j; auto. cbn [length seq filter map select].
  assert (map (fun k => nth (k - j) (x :: a) d) (filter f (seq (S j) (length a))) = select (map f (seq (S j) (length a))) a) as E.
  { rewrite <- IH. apply map_ext_in. intros k I. apply filter_In in I. destruct I as [I _]. apply in_seq in I.
    replace (k - j)%nat with (S (k - S j)) by lia. reflexivity. }
  destruct (f j); [cbn [map]; rewrite Nat.sub_diag, E; reflexivity|exact E].
Qed.
Lemma select_complement {A} (d : A) n vars a : increasing vars = true -> length a = n -> map (fun k => nth k a d) (complement n vars) = select (mask n vars) a.
Proof.
  intros I L. subst n. rewrite complement_filter by auto. unfold mask. rewrite <- (select_filter d). apply map_ext. intros k. rewrite Nat.sub_0_r. reflexivity.
Qed.
Lemma uses_iff f : forall a j, uses_discarded (map f (seq j (length a))) a = true <-> exists k, (j <= k)%nat /\ f k = false /\ nth (k - j) a 0%N <> 0%N.
Proof.
  induction a as [|x a IH]; intros j; cbn [length seq map uses_discarded].
  - split; [discriminate|]. intros (k & _ & _ & N). destruct (k - j)%nat; cbn in N; congruence.
  - rewrite orb_true_iff, IH, andb_true_iff, !negb_true_iff. split.
    + intros [[E N]|(k & L & E & N)].
      * exists j. rewrite Nat.sub_diag. cbn. apply N.eqb_neq in N. auto.
      * exists k. replace (k - j)%nat with (S (k - S j)) by lia. split; [lia|]. auto.
    + intros (k & L & E & N). destruct (Nat.eq_dec k j) as [->|D].
      * left. rewrite Nat.sub_diag in N. cbn in N. apply N.eqb_neq in N. auto.
      * right. exists k. replace (k - j)%nat with (S (k - S j)) in N by lia. split; [lia|]. auto.
Qed.
Lemma uses_mask n disc a : length a = n -> existsb (fun k => negb (nth k a 0 =? 0)%N) disc = uses_discarded (mask n disc) a.
Proof.
  intros <-. apply eq_true_iff_eq. unfold mask. rewrite uses_iff, existsb_exists. split.
  - intros (k & I & N). exists k. rewrite Nat.sub_0_r. apply negb_true_iff, N.eqb_neq in N. split; [lia|]. split; auto.
    apply not_true_iff_false. rewrite flag_in. tauto.
  - intros (k & _ & E & N). rewrite Nat.sub_0_r in N. exists k. apply N.eqb_neq in N. rewrite N. split; auto.
    apply not_true_iff_false in E. rewrite flag_in in E. destruct (in_dec Nat.eq_dec k disc); tauto.
Qed.
Lemma mask_length n disc : length (mask n disc) = n.
Proof. unfold mask. rewrite map_length, seq_length. reflexivity. Qed.

Section Models.
Context {prec emax : Z} {Hprec : Prec_gt_0 prec} {Hemax : Prec_lt_emax prec emax}.
Local Notation fl := (binary_float prec emax).
Local Notation bnd := (bounds prec emax).
Local Notation tmodel := (tm prec emax).
Local Notation fin x := (is_finite x = true).
Local Notation allfin p := (Forall (fun m => is_finite (snd m) = true) p).

Definition no_model : tmodel := mkTM [] fzero.
Definition padded (nerr : nat) (q : list (mi * fl)) : list (mi * fl) := map (fun m => (fst m ++ repeat 0%N nerr, snd m)) q.
Lemma terms_discard n disc nerr : increasing disc = true -> forall (p : list (mi * fl)) e, sized n p ->
  recondition_terms (complement n disc) disc nerr p e = (padded nerr (fst (discard_terms (mask n disc) p e)), snd (discard_terms (mask n disc) p e)).
Proof.
  intros I. induction p as [|[a v] p IH]; intros e Z; auto. inversion_clear Z as [|? ? Z0 Z1]. cbn [fst] in Z0.
  cbn [recondition_terms discard_terms]. rewrite (uses_mask n) by auto. destruct (uses_discarded (mask n disc) a); auto.
  rewrite IH by auto. destruct (discard_terms (mask n disc) p e) as [q e']. cbn [fst snd padded map]. rewrite select_complement by auto. reflexivity.
Qed.
Lemma padded_peval m nerr (q : list (mi * fl)) z w : sized m q -> length z = m -> peval (padded nerr q) (z ++ w) = peval q z.
Proof.
  intros Z L. induction q as [|[a c] q IH]; auto. inversion_clear Z as [|? ? Z0 Z1]. cbn [fst] in Z0. cbn [padded map fst snd].
  rewrite !peval_cons. fold (padded nerr q). rewrite IH by auto. rewrite (monom_app RTheory) by lia. rewrite (monom_zeros RTheory). ring.
Qed.
Lemma padded_fin nerr (q : list (mi * fl)) : allfin q -> allfin (padded nerr q).
Proof. intros A. apply Forall_map. exact A. Qed.
Lemma fin_padded nerr (q : list (mi * fl)) : allfin (padded nerr q) -> allfin q.
Proof. intros A. unfold padded in A. rewrite Forall_map in A. exact A. Qed.
Lemma unit_monom (k i : nat) (z ev : list R) r : length z = k -> (i < length ev)%nat -> r = (length ev - S i)%nat ->
  monom 1 Rmult (repeat 0%N k ++ repeat 0%N i ++ 1%N :: repeat 0%N r) (z ++ ev) = nth i ev 0.
Proof.
  intros L H ->. rewrite (monom_app RTheory) by (rewrite repeat_length; auto). rewrite (monom_zeros RTheory), Rmult_1_l.
  revert i H. induction ev as [|x ev IH]; intros i H; cbn in H; [lia|]. destruct i as [|i].
  - cbn [repeat app monom nth]. rewrite (monom_zeros RTheory). change (N.to_nat 1) with 1%nat. cbn [power]. ring.
  - cbn [repeat app monom nth]. change (N.to_nat 0) with 0%nat. cbn [power length]. replace (S (length ev) - S (S i))%nat with (length ev - S i)%nat by lia. rewrite IH by lia. ring.
Qed.
Definition kept_values (n : nat) (disc : list nat) (z : list R) : list R := map (fun j => nth j z 0) (complement n disc).

Lemma recondition_error n disc (t : tmodel) z v (e : fl) : sized n (t_exp t) -> in_box n z -> model_value t z v ->
  snd (discard_terms (mask n disc) (t_exp t) (fadd mode_UP fzero (t_err t))) = e -> fin e ->
  allfin (fst (discard_terms (mask n disc) (t_exp t) (fadd mode_UP fzero (t_err t)))) /\
  Rabs (v - peval (fst (discard_terms (mask n disc) (t_exp t) (fadd mode_UP fzero (t_err t)))) (select (mask n disc) z)) <= B2R e.
Proof.
  intros Z X M E F. rewrite <- E in F. pose proof (discard_err_fin _ _ _ F) as F0. destruct (fadd_fin _ _ _ F0) as [_ Ft].
  destruct (M Ft) as [A B]. rewrite <- (mask_length n disc) in Z, X. destruct (discard_ok _ _ _ Z A F) as (_ & Q & I).
  specialize (I z X). rewrite E in *. split; auto. pose proof (fadd_up_ge _ _ F0) as G. cbn [fzero B2R] in G.
  match goal with |- Rabs (?u - ?y) <= _ => replace (u - y) with ((u - peval (t_exp t) z) + (peval (t_exp t) z - y)) by ring end.
  eapply Rle_trans; [apply Rabs_triang|]. lra.
Qed.
Lemma recondition_some n disc nerr index (t t' : tmodel) : tm_recondition n disc nerr index t = Some t' ->
  increasing disc = true /\ (index <= nerr)%nat.
Proof.
  unfold tm_recondition. destruct disc as [|i disc]; [discriminate|]. match goal with |- context [if ?b then _ else _] => destruct b eqn:E end; [|discriminate].
  intros _. apply andb_true_iff in E. destruct E as [E E2]. apply andb_true_iff in E. destruct E as [E E1]. apply Nat.leb_le in E2. auto.
Qed.
Lemma recondition_eq n disc nerr index (t t' : tmodel) : tm_recondition n disc nerr index t = Some t' -> sized n (t_exp t) ->
  let d := discard_terms (mask n disc) (t_exp t) (fadd mode_UP fzero (t_err t)) in
  t' = if (nerr =? index)%nat then mkTM (padded nerr (fst d)) (snd d)
       else mkTM ((repeat 0%N (length (complement n disc)) ++ repeat 0%N index ++ 1%N :: repeat 0%N (nerr - S index), snd d) :: padded nerr (fst d)) fzero.
Proof.
  intros R Z. destruct (recondition_some _ _ _ _ _ _ R) as [I _]. revert R. unfold tm_recondition. destruct disc as [|i disc]; [discriminate|].
  match goal with |- context [if ?b then _ else _] => destruct b end; [|discriminate].
  rewrite (terms_discard n (i :: disc) nerr I) by auto. intros R. injection R as <-. reflexivity.
Qed.
Lemma discarded_sized n disc (t : tmodel) e z : increasing disc = true -> sized n (t_exp t) -> length z = n ->
  sized (length (kept_values n disc z)) (fst (discard_terms (mask n disc) (t_exp t) e)).
Proof.
  intros I Z L. unfold kept_values. rewrite (select_complement (0:R)) by auto.
  apply sized_keys. apply sized_keys in Z. apply (discard_forall _ (fun a => length a = n)); auto.
  intros a La _. apply select_length. congruence.
Qed.
Lemma recondition_index n disc nerr index (t t' : tmodel) z v : sized n (t_exp t) -> in_box n z -> model_value t z v ->
  tm_recondition n disc nerr index t = Some t' -> (index < nerr)%nat -> allfin (t_exp t') ->
  exists w, -1 <= w <= 1 /\ forall ev, length ev = nerr -> nth index ev 0 = w -> model_value t' (kept_values n disc z ++ ev) v.
Proof.
  intros Z X M R L F. destruct (recondition_some _ _ _ _ _ _ R) as [I _]. pose proof (recondition_eq _ _ _ _ _ _ R Z) as E. cbv zeta in E.
  destruct (Nat.eqb_spec nerr index) as [|_]; [lia|].
  assert (kept_values n disc z = select (mask n disc) z) as KV. { apply select_complement; auto. apply X. }
  pose proof (discarded_sized n disc t (fadd mode_UP fzero (t_err t)) z I Z (proj1 X)) as ZS.
  rewrite E in F. cbn [t_exp] in F. apply Forall_cons_iff in F. destruct F as [F0 F1]. cbn [snd] in F0.
  destruct (recondition_error n disc t z v _ Z X M eq_refl F0) as [A B]. subst t'.
  destruct (discard_terms (mask n disc) (t_exp t) (fadd mode_UP fzero (t_err t))) as [q e]. cbn [fst snd] in *.
  assert (exists w, -1 <= w <= 1 /\ v = B2R e * w + peval q (select (mask n disc) z)) as (w & W & Ew).
  { destruct (Req_dec (B2R e) 0) as [E0|N].
    - exists 0. split; [lra|]. rewrite E0 in *. pose proof (Rabs_pos (v - peval q (select (mask n disc) z))) as P.
      destruct (Req_dec (v - peval q (select (mask n disc) z)) 0) as [D|D]; [lra|]. apply Rabs_pos_lt in D. lra.
    - exists ((v - peval q (select (mask n disc) z)) / B2R e). split.
      + apply Rabs_le_inv. unfold Rdiv. rewrite Rabs_mult. rewrite Rabs_inv.
        pose proof (Rabs_pos (v - peval q (select (mask n disc) z))). assert (0 < B2R e) by lra. rewrite (Rabs_pos_eq (B2R e)) by lra.
        apply (Rmult_le_reg_r (B2R e)); auto. rewrite Rmult_assoc, Rinv_l by lra. lra.
      + field. auto. }
  exists w. split; auto. intros ev Lev Nw _. cbn [t_exp t_err]. split.
  - constructor; [exact F0|exact F1].
  - rewrite peval_cons. rewrite (padded_peval (length (kept_values n disc z))) by auto.
    rewrite unit_monom by (rewrite ?Lev; auto; unfold kept_values; rewrite map_length; auto). rewrite Nw, Ew, KV. cbn [fzero B2R].
    match goal with |- Rabs ?u <= _ => replace u with 0 by ring end. rewrite Rabs_R0. lra.
Qed.
Lemma recondition_uniform n disc nerr (t t' : tmodel) z v ev : sized n (t_exp t) -> in_box n z -> model_value t z v ->
  tm_recondition n disc nerr nerr t = Some t' -> model_value t' (kept_values n disc z ++ ev) v.
Proof.
  intros Z X M R. destruct (recondition_some _ _ _ _ _ _ R) as [I _]. pose proof (recondition_eq _ _ _ _ _ _ R Z) as E. cbv zeta in E.
  rewrite Nat.eqb_refl in E. pose proof (discarded_sized n disc t (fadd mode_UP fzero (t_err t)) z I Z (proj1 X)) as ZS.
  assert (kept_values n disc z = select (mask n disc) z) as KV. { apply select_complement; auto. apply X. }
  subst t'. intros F. cbn [t_err t_exp] in *.
  destruct (recondition_error n disc t z v _ Z X M eq_refl F) as [A B]. split; [apply padded_fin; auto|].
  rewrite (padded_peval _ _ _ _ _ ZS eq_refl), KV. auto.
Qed.

(** ** The sets *)
Definition ranking (T : @tset prec emax) : list nat :=
  map snd (sort_by pair_greater (map (fun j => (max_dependency (ts_state T) j, j)) (seq 0 (length (ts_domain T))))).
Definition kept_parameters (k : nat) (T : @tset prec emax) : list nat := sort_by Nat.ltb (firstn k (ranking T)).
Definition lost_parameters (k : nat) (T : @tset prec emax) : list nat := sort_by Nat.ltb (skipn k (ranking T)).
Lemma ranking_perm T : Permutation (ranking T) (seq 0 (length (ts_domain T))).
Proof.
  unfold ranking. rewrite (Permutation_map snd (sort_perm _ _)). rewrite map_map. cbn [snd]. rewrite map_id. reflexivity.
Qed.
Lemma ranking_nodup T : NoDup (ranking T).
Proof. eapply Permutation_NoDup; [symmetry; apply ranking_perm|apply seq_NoDup]. Qed.
Lemma nodup_parts k T : NoDup (firstn k (ranking T)) /\ NoDup (skipn k (ranking T)) /\ forall x, In x (firstn k (ranking T)) -> ~ In x (skipn k (ranking T)).
Proof.
  pose proof (ranking_nodup T) as N. rewrite <- (firstn_skipn k (ranking T)) in N. revert N.
  generalize (firstn k (ranking T)) (skipn k (ranking T)). intros l l'. induction l as [|x l IH]; cbn; intros N.
  - split; [constructor|]. split; auto.
  - inversion_clear N as [|? ? N0 N1]. destruct (IH N1) as (A & B & C). rewrite in_app_iff in N0. split; [constructor; tauto|]. split; auto.
    intros y [->|I]; auto.
Qed.
Lemma kept_complement k T : complement (length (ts_domain T)) (lost_parameters k T) = kept_parameters k T.
Proof.
  destruct (nodup_parts k T) as (N1 & N2 & D). pose proof (sort_sorted _ N1) as S1. pose proof (sort_sorted _ N2) as S2.
  rewrite complement_filter by (apply sorted_increasing; auto). apply sorted_same; auto; [apply filter_sorted, seq_sorted|].
  intros x. rewrite filter_In, flag_in. unfold kept_parameters, lost_parameters.
  assert (forall l, In x (sort_by Nat.ltb l) <-> In x l) as PI. { intros l. split; apply Permutation_in; [|symmetry]; apply sort_perm. }
  rewrite !PI. assert (In x (seq 0 (length (ts_domain T))) <-> In x (firstn k (ranking T)) \/ In x (skipn k (ranking T))) as ->.
  { rewrite <- in_app_iff, firstn_skipn. split; apply Permutation_in; [symmetry|]; apply ranking_perm. }
  split; [tauto|]. intros I. split; auto.
Qed.
Lemma kept_length k T : (k <= length (ts_domain T))%nat -> length (kept_parameters k T) = k.
Proof.
  intros L. unfold kept_parameters. rewrite (Permutation_length (sort_perm _ _)), firstn_length.
  rewrite (Permutation_length (ranking_perm T)), seq_length. lia.
Qed.
Lemma lost_bound k T : (k < length (ts_domain T))%nat -> exists i l, lost_parameters k T = i :: l /\ (last (i :: l) 0 < length (ts_domain T))%nat.
Proof.
  intros L. destruct (lost_parameters k T) as [|i l] eqn:E.
  - exfalso. assert (length (lost_parameters k T) = length (ts_domain T) - k)%nat as H.
    { unfold lost_parameters. rewrite (Permutation_length (sort_perm _ _)), skipn_length, (Permutation_length (ranking_perm T)), seq_length. reflexivity. }
    rewrite E in H. cbn in H. lia.
  - exists i, l. split; auto. assert (In (last (i :: l) 0%nat) (lost_parameters k T)) as I.
    { rewrite E. clear E. revert i. induction l as [|j l IH]; intros i; cbn; auto. right. apply IH. }
    unfold lost_parameters in I. eapply Permutation_in in I; [|apply sort_perm].
    assert (In (last (i :: l) 0%nat) (ranking T)) as J. { rewrite <- (firstn_skipn k). apply in_app_iff. auto. }
    eapply Permutation_in in J; [|apply ranking_perm]. apply in_seq in J. lia.
Qed.
Lemma lost_increasing k T : increasing (lost_parameters k T) = true.
Proof. apply sorted_increasing, sort_sorted. apply nodup_parts. Qed.
Lemma recondition_defined k T nerr index (t : tmodel) : (k < length (ts_domain T))%nat -> (index <= nerr)%nat ->
  exists t', tm_recondition (length (ts_domain T)) (lost_parameters k T) nerr index t = Some t'.
Proof.
  intros L I. pose proof (lost_increasing k T) as S. destruct (lost_bound k T L) as (i & l & E & B). rewrite E in *. unfold tm_recondition.
  rewrite S. apply Nat.ltb_lt in B. rewrite B. apply Nat.leb_le in I. rewrite I. cbn [andb].
  destruct (recondition_terms _ _ _ _ _) as [q e]. eauto.
Qed.
Lemma all_some_iff {A} (l : list (option A)) r : all_some l = Some r <-> Forall2 (fun o x => o = Some x) l r.
Proof.
  revert r. induction l as [|[x|] l IH]; intros r; cbn.
  - split; [intros E; injection E as <-; constructor|intros F; inversion F; auto].
  - split.
    + destruct (all_some l) as [r'|]; [|discriminate]. cbn. intros E. injection E as <-. constructor; auto. apply IH. auto.
    + intros F. inversion F as [|? y ? r' E F']. subst. injection E as ->. apply IH in F'. rewrite F'. reflexivity.
  - split; [discriminate|]. intros F. inversion F. discriminate.
Qed.
Lemma all_some_total {A B} (f : A -> option B) l : (forall x, In x l -> exists y, f x = Some y) -> exists r, all_some (map f l) = Some r.
Proof.
  intros H. induction l as [|x l IH]; cbn; [eauto|]. destruct (H x) as [y E]; [cbn; auto|]. rewrite E. destruct IH as [r Er].
  - intros z I. apply H. cbn. auto.
  - rewrite Er. cbn. eauto.
Qed.
Lemma kuhn_defined k T : (k < length (ts_domain T))%nat -> exists T', kuhn_recondition k T = Some T'.
Proof.
  intros L. unfold kuhn_recondition. fold (ranking T). fold (lost_parameters k T).
  destruct (all_some_total (fun p => tm_recondition (length (ts_domain T)) (lost_parameters k T) (length (ts_state T)) (fst p) (snd p)) (combine (seq 0 (length (ts_state T))) (ts_state T))) as [st Es].
  { intros [i t] I. apply recondition_defined; auto. apply in_combine_l, in_seq in I. cbn. lia. }
  rewrite Es. destruct (recondition_defined k T (length (ts_state T)) (length (ts_state T)) (ts_time T) L (le_n _)) as [ti Et].
  destruct (recondition_defined k T (length (ts_state T)) (length (ts_state T)) (ts_dwell T) L (le_n _)) as [dw Ed]. rewrite Et, Ed.
  match goal with |- context [all_some (map ?f (ts_constraints T))] => destruct (all_some_total f (ts_constraints T)) as [cs Ec] end.
  { intros c _. destruct (recondition_defined k T (length (ts_state T)) (length (ts_state T)) (fst c) L (le_n _)) as [t' E]. rewrite E. cbn. eauto. }
  rewrite Ec. eauto.
Qed.
Lemma forall2_nth_exists {A B C} (R : A -> B -> C -> Prop) : forall l1 l2, Forall2 (fun a b => exists c, R a b c) l1 l2 ->
  exists l3, length l3 = length l1 /\ forall i d1 d2 d3, (i < length l1)%nat -> R (nth i l1 d1) (nth i l2 d2) (nth i l3 d3).
Proof.
  induction 1 as [|a b l1 l2 [c H] _ (l3 & L & IH)]; [exists []; split; auto; cbn; intros; lia|]. exists (c :: l3). cbn. split; [lia|].
  intros [|i] d1 d2 d3 I; auto. apply IH. lia.
Qed.
Lemma forall2_len {A B} (R : A -> B -> Prop) l1 l2 : Forall2 R l1 l2 -> length l1 = length l2.
Proof. induction 1; cbn; congruence. Qed.
Lemma forall2_nth {A B} (R : A -> B -> Prop) l1 l2 i d1 d2 : Forall2 R l1 l2 -> (i < length l1)%nat -> R (nth i l1 d1) (nth i l2 d2).
Proof. intros F. revert i. induction F; cbn; intros [|i] L; auto; try lia. apply IHF. lia. Qed.
Lemma nth_forall2 {A B} (R : A -> B -> Prop) d1 d2 : forall l1 l2, length l1 = length l2 ->
  (forall i, (i < length l1)%nat -> R (nth i l1 d1) (nth i l2 d2)) -> Forall2 R l1 l2.
Proof.
  induction l1 as [|x l1 IH]; intros [|y l2] L H; cbn in L; try discriminate; constructor.
  - apply (H 0%nat). cbn. lia.
  - apply IH; [lia|]. intros i I. apply (H (S i)). cbn. lia.
Qed.
(** The unit interval is scaled by one. *)
Lemma unit_scaled w : (11 <= prec)%Z -> -1 <= w <= 1 -> scaled (unit_interval : bnd) w w.
Proof.
  intros digits W. split; auto. cbn [unit_interval b_l b_u]. destruct (@ConstraintSolver_Proofs.fnat_exact prec emax _ _ digits 1) as [E _]; [lia|].
  rewrite fneg_val, E. cbn [INR]. lra.
Qed.
Lemma app_combine {A B} (a1 a2 : list A) (b1 b2 : list B) : length a1 = length b1 -> combine (a1 ++ a2) (b1 ++ b2) = combine a1 b1 ++ combine a2 b2.
Proof. revert b1. induction a1 as [|x a1 IH]; intros [|y b1] L; cbn in *; try discriminate; auto. rewrite IH by lia. reflexivity. Qed.
Lemma map_combine {A B C} (f : C -> A) (g : C -> B) l : combine (map f l) (map g l) = map (fun c => (f c, g c)) l.
Proof. induction l; cbn; congruence. Qed.
Lemma forall2_map_l {A B C} (R : B -> C -> Prop) (f : A -> B) (g : A -> C) l : (forall x, In x l -> R (f x) (g x)) -> Forall2 R (map f l) (map g l).
Proof. intros H. induction l; cbn; constructor; [apply H; cbn; auto|]. apply IHl. intros. apply H. cbn. auto. Qed.

Lemma constraints_kept n disc dim z w : in_box n z -> forall (l cs : list (tmodel * bnd)), Forall (fun c => sized n (t_exp (fst c))) l ->
  Forall (fun c => exists v, model_value (fst c) z v /\ contains (snd c) v) l ->
  Forall2 (fun o c => o = Some c) (map (fun c => option_map (fun t => (t, snd c)) (tm_recondition n disc dim dim (fst c))) l) cs ->
  Forall (fun c => exists v, model_value (fst c) (kept_values n disc z ++ w) v /\ contains (snd c) v) cs.
Proof.
  intros X. induction l as [|c l IH]; intros cs Z C E; cbn [map] in E.
  - inversion_clear E. constructor.
  - inversion E as [|? c' ? cs' E0 E1]; subst. apply Forall_cons_iff in Z. destruct Z as [Z0 Z]. apply Forall_cons_iff in C. destruct C as [(v & M & B) C].
    constructor; [|apply IH; auto]. destruct (tm_recondition n disc dim dim (fst c)) as [t'|] eqn:R; [|discriminate E0]. cbn in E0. injection E0 as <-.
    exists v. split; [|exact B]. cbn [fst]. eapply recondition_uniform; eauto.
Qed.
Theorem kuhn_kept k (T T' : @tset prec emax) s x t d : (11 <= prec)%Z -> (k < length (ts_domain T))%nat -> sized_set T -> kuhn_recondition k T = Some T' ->
  Forall (fun m : tmodel => allfin (t_exp m)) (ts_state T') -> tpoint_at T s x t d ->
  exists w, length w = length (ts_state T) /\ tpoint_at T' (map (fun j => nth j s 0) (kept_parameters k T) ++ w) x t d.
Proof.
  intros digits L (Z1 & Z2 & Z3 & Z4) K F (z & Sc & Ls & St & Ti & Dw & Cs).
  set (n := length (ts_domain T)) in *. set (dim := length (ts_state T)) in *.
  assert (length (combine (ts_domain T) s) = n) as Lc. { rewrite combine_length. unfold n in *. lia. }
  assert (length z = n) as Lz. { apply forall2_len in Sc. congruence. }
  assert (in_box n z) as X.
  { split; auto. clear - Sc. induction Sc as [|? ? ? ? [H _] _ IH]; constructor; auto. }
  revert K. unfold kuhn_recondition. fold (ranking T). fold (lost_parameters k T). fold (kept_parameters k T). fold n. fold dim.
  destruct (all_some _) as [st|] eqn:Est; [|discriminate].
  destruct (tm_recondition n (lost_parameters k T) dim dim (ts_time T)) as [ti|] eqn:Eti; [|discriminate].
  destruct (tm_recondition n (lost_parameters k T) dim dim (ts_dwell T)) as [dw|] eqn:Edw; [|discriminate].
  destruct (all_some (map _ (ts_constraints T))) as [cs|] eqn:Ecs; [|discriminate]. intros K. injection K as <-. cbn [ts_state] in F.
  apply all_some_iff in Est. apply all_some_iff in Ecs.
  assert (length st = dim) as Lst. { apply forall2_len in Est. rewrite map_length, combine_length, seq_length in Est. unfold dim in *. lia. }
  assert (length x = dim) as Lx. { apply forall2_len in St. unfold dim. congruence. }
  assert (exists w, length w = dim /\ Forall (fun y => -1 <= y <= 1) w /\ forall i, (i < dim)%nat -> forall ev, length ev = dim -> nth i ev 0 = nth i w 0 ->
    model_value (nth i st no_model) (kept_values n (lost_parameters k T) z ++ ev) (nth i x 0)) as (w & Lw & Uw & Mw).
  { assert (forall i, (i < dim)%nat -> exists w, -1 <= w <= 1 /\ forall ev, length ev = dim -> nth i ev 0 = w ->
      model_value (nth i st no_model) (kept_values n (lost_parameters k T) z ++ ev) (nth i x 0)) as H.
    { intros i I. apply (recondition_index n _ dim i (nth i (ts_state T) no_model)); auto.
      - rewrite Forall_forall in Z1. apply Z1, nth_In. auto.
      - apply (forall2_nth (fun m v => model_value m z v)); auto.
      - assert (length (combine (seq 0 dim) (ts_state T)) = dim) as Lc'. { rewrite combine_length, seq_length. unfold dim. lia. }
        pose proof (forall2_nth _ _ _ i None no_model Est) as E. rewrite map_length in E. specialize (E ltac:(lia)).
        rewrite (nth_indep _ None (tm_recondition n (lost_parameters k T) dim (fst (0%nat, no_model)) (snd (0%nat, no_model)))) in E by (rewrite map_length; lia).
        rewrite (map_nth (fun p => tm_recondition n (lost_parameters k T) dim (fst p) (snd p))) in E.
        rewrite combine_nth in E by (rewrite seq_length; auto). cbn [fst snd] in E. rewrite seq_nth in E by auto. exact E.
      - rewrite Forall_forall in F. apply F, nth_In. lia. }
    clear - H. revert H. generalize (kept_values n (lost_parameters k T) z). intros kz H.
    assert (forall m, (m <= dim)%nat -> exists w, length w = m /\ Forall (fun y => -1 <= y <= 1) w /\ forall i, (i < m)%nat -> forall ev, length ev = dim -> nth i ev 0 = nth i w 0 ->
      model_value (nth i st no_model) (kz ++ ev) (nth i x 0)) as G; [|apply (G dim); auto].
    induction m as [|m IH]; intros Lm; [exists []; split; auto; split; [constructor|intros; lia]|].
    destruct IH as (w & Lw & U & W); [lia|]. destruct (H m) as (y & Y & Hy); [lia|]. exists (w ++ [y]). split; [rewrite app_length; cbn; lia|].
    split; [apply Forall_app; split; auto|]. intros i I ev Le E. destruct (Nat.eq_dec i m) as [->|N].
    - apply Hy; auto. rewrite E, app_nth2 by lia. rewrite Lw, Nat.sub_diag. reflexivity.
    - apply W; auto; [lia|]. rewrite E, app_nth1 by lia. reflexivity. }
  exists w. split; auto. exists (map (fun j => nth j z 0) (kept_parameters k T) ++ w).
  pose proof (kept_complement k T) as KC. fold n in KC. assert (forall j, In j (kept_parameters k T) -> (j < n)%nat) as In_n.
  { intros j I. rewrite <- KC, complement_filter in I by apply lost_increasing. apply filter_In in I. destruct I as [I _]. apply in_seq in I. lia. }
  unfold kept_values in Mw. rewrite KC in Mw. cbn [ts_domain ts_state ts_time ts_dwell ts_constraints]. split; [|split; [|split; [|split; [|split]]]].
  - rewrite app_combine by (rewrite !map_length; auto). rewrite map_combine. apply Forall2_app.
    + apply forall2_map_l. intros j I. apply In_n in I.
      pose proof (forall2_nth _ _ _ j (unit_interval, 0) 0 Sc) as H. rewrite combine_nth in H by (unfold n in *; lia). cbn [fst snd] in *. apply H. lia.
    + clear - digits Uw Lw. revert w Lw Uw. generalize dim. induction dim0 as [|m IH]; intros [|y w] Lw U; cbn in *; try discriminate; constructor; inversion_clear U as [|? ? U0 U1].
      * cbn [fst snd]. apply unit_scaled; auto.
      * apply IH; auto.
  - rewrite !app_length, !map_length, repeat_length. lia.
  - apply (nth_forall2 _ no_model 0); [lia|]. intros i I. refine (Mw i _ w Lw eq_refl). lia.
  - pose proof (recondition_uniform n (lost_parameters k T) dim (ts_time T) ti z t w Z2 X Ti Eti) as H. unfold kept_values in H. rewrite KC in H. exact H.
  - pose proof (recondition_uniform n (lost_parameters k T) dim (ts_dwell T) dw z d w Z3 X Dw Edw) as H. unfold kept_values in H. rewrite KC in H. exact H.
  - pose proof (constraints_kept n (lost_parameters k T) dim z w X _ _ Z4 Cs Ecs) as H. unfold kept_values in H. rewrite KC in H. exact H.
Qed.
(** The terms stay in order. *)
Lemma first_diff_zeros g k : (forall x, g x x = false) -> forall a b, first_diff g (repeat 0%N k ++ a) (repeat 0%N k ++ b) = first_diff g a b.
Proof. intros G a b. induction k as [|k IH]; cbn [repeat app first_diff]; auto. Qed.
Lemma rev_zeros k : rev (repeat 0%N k) = repeat 0%N k.
Proof. induction k as [|k IH]; auto. cbn [repeat rev]. rewrite IH. symmetry. apply repeat_cons. Qed.
Theorem recondition_sorted n disc nerr index (t t' : tmodel) : well_formed n t -> tm_recondition n disc nerr index t = Some t' ->
  well_formed (length (complement n disc) + nerr) t'.
Proof.
  intros [Z So] R. destruct (recondition_some _ _ _ _ _ _ R) as [I L]. pose proof (recondition_eq _ _ _ _ _ _ R Z) as E. cbv zeta in E.
  pose proof (discarded_sized n disc t (fadd mode_UP fzero (t_err t)) (repeat 0 n) I Z (repeat_length _ _)) as ZS.
  unfold kept_values in ZS. rewrite map_length in ZS.
  assert (StronglySorted keys_lt (map fst (fst (discard_terms (mask n disc) (t_exp t) (fadd mode_UP fzero (t_err t)))))) as SS.
  { apply discard_sorted; [rewrite mask_length; apply sized_keys; exact Z|apply sorted_keys; exact So]. }
  destruct (discard_terms (mask n disc) (t_exp t) (fadd mode_UP fzero (t_err t))) as [q e]. cbn [fst snd] in *.
  assert (sized (length (complement n disc) + nerr) (padded nerr q)) as PZ.
  { apply Forall_map. eapply Forall_impl; [|exact ZS]. intros m H. cbn [fst] in *. rewrite app_length, repeat_length, H. reflexivity. }
  assert (StronglySorted keys_lt (map fst (padded nerr q))) as PS.
  { unfold padded. rewrite map_map. cbn [fst]. clear - SS. induction q as [|m q IH]; cbn [map] in *; [constructor|].
    apply StronglySorted_inv in SS. destruct SS as [SS F]. constructor; auto. rewrite Forall_map in *. eapply Forall_impl; [|exact F].
    intros b H. unfold keys_lt, reverse_lexicographic_less in *. rewrite !rev_app_distr, !rev_zeros, first_diff_zeros; auto.
    intros x. unfold gtb. apply N.ltb_irrefl. }
  destruct (Nat.eqb_spec nerr index) as [->|NE]; subst t'; split; cbn [t_exp]; try (apply sorted_keys); auto.
  - constructor; auto. cbn [fst]. rewrite !app_length. cbn [length]. rewrite !repeat_length. lia.
  - cbn [map fst]. constructor; auto. unfold padded. rewrite map_map. cbn [fst]. apply Forall_map. apply Forall_forall. intros m _.
    unfold keys_lt, reverse_lexicographic_less. cbn [fst].
    replace (repeat 0%N nerr) with (repeat 0%N index ++ 0%N :: repeat 0%N (nerr - S index)).
    + rewrite !rev_app_distr. cbn [rev]. rewrite !rev_zeros, <- !app_assoc. rewrite first_diff_zeros; [reflexivity|].
      intros x. unfold gtb. apply N.ltb_irrefl.
    + change (0%N :: repeat 0%N (nerr - S index)) with (repeat 0%N (S (nerr - S index))). rewrite <- repeat_app. f_equal. lia.
Qed.
End Models.
