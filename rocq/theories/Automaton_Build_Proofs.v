(** Building hybrid automata: what every history of calls preserves. *)
From Coq Require Import List Bool Arith Lia Sorted Permutation.
From Verif Require Import Logical_Model Expr_Model Expr_Spec Expr_Proofs Automaton_Model Automaton_Spec Automaton_Proofs.
Import ListNotations.

Lemma loc_dec (a b : loc) : {a = b} + {a <> b}.
Proof. repeat decide equality. Qed.

Section BUILD.
Context {C : RealConst}.
Notation automaton := (@automaton C).
Notation mode := (@mode C).

Definition maps_wf (m : mode) : Prop :=
  wf_map (m_invariants m) /\ wf_map (m_guards m) /\ wf_map (m_kinds m) /\ wf_map (m_targets m) /\ wf_map (m_resets m).
Record ok (a : automaton) : Prop := {
  ok_sorted : StronglySorted (fun x y : loc * mode => loc_lt (fst x) (fst y) = true) a;
  ok_wf : forall l m, In (l, m) a -> wf_map l;
  ok_maps : forall l m, In (l, m) a -> maps_wf m;
  ok_differ : forall l1 m1 l2 m2, In (l1, m1) a -> In (l2, m2) a -> l1 <> l2 -> differ l1 l2;
  ok_modes : forall l m, In (l, m) a -> mode_ok a l m
}.

Lemma ok_nodup a : ok a -> NoDup (map fst a).
Proof. intros O. eapply sorted_nodup; [ apply loc_lt_irrefl | apply O ]. Qed.
Lemma ok_find a l m : ok a -> (mfind loc_lt l a = Some m <-> In (l, m) a).
Proof. intros O. apply mfind_in; auto using loc_lt_irrefl, loc_lt_total, ok_nodup. Qed.
Lemma ok_fun a l m m' : ok a -> In (l, m) a -> In (l, m') a -> m = m'.
Proof. intros O H H'. apply (ok_find a l m O) in H. apply (ok_find a l m' O) in H'. congruence. Qed.
Lemma has_location_in (a : automaton) l : has_location a l = true <-> In l (map fst a).
Proof. apply mhas_in; auto using loc_lt_irrefl, loc_lt_total. Qed.
Lemma keys_in {K V} (m : list (K * V)) k : In k (map fst m) <-> exists v, In (k, v) m.
Proof. rewrite in_map_iff. split; [ intros ([k' v] & <- & H); eauto | intros (v & H); exists (k, v); auto ]. Qed.

Lemma ok_nil : ok [].
Proof. split; simpl; try tauto. constructor. Qed.

(** ** Looking up a mode *)
Lemma mode_at_some (a : automaton) l m : wf_map l -> mode_at a l = Some m -> exists l', In (l', m) a /\ within l' l.
Proof.
  intros W. unfold mode_at. destruct (List.find _ a) as [[l' m']|] eqn:E; [ | discriminate ]. intros Q. injection Q as <-.
  apply find_some in E as [E1 E2]. simpl in *. exists l'. split; [ exact E1 | now apply restriction_spec in E2 ].
Qed.
Lemma mode_at_none (a : automaton) l : wf_map l -> mode_at a l = None -> forall l' m, In (l', m) a -> ~ within l' l.
Proof.
  intros W. unfold mode_at. destruct (List.find _ a) as [[l' m']|] eqn:E; [ discriminate | ]. intros _ l' m H H'.
  pose proof (find_none _ _ E _ H) as Q. simpl in Q. apply restriction_spec in H'; [ congruence | exact W ].
Qed.
Lemma mode_at_in a l l' m : ok a -> wf_map l -> In (l', m) a -> within l' l -> mode_at a l = Some m.
Proof.
  intros O W H H'. destruct (mode_at a l) as [m'|] eqn:E.
  - apply mode_at_some in E as (l'' & E1 & E2); [ | exact W ].
    destruct (loc_dec l' l'') as [<-|N].
    + f_equal. eapply ok_fun; eauto.
    + exfalso. eapply within_differ; [ exact W | exact H' | exact E2 | eapply ok_differ; eauto ].
  - exfalso. eapply mode_at_none; eauto.
Qed.
Lemma mode_at_key a l m : ok a -> In (l, m) a -> mode_at a l = Some m.
Proof. intros O H. eapply mode_at_in; eauto; [ eapply ok_wf; eauto | intros k v; auto ]. Qed.

(** ** Changing one mode *)
Lemma update_at_aux (a : automaton) l f : wf_map l -> (forall l' m, In (l', m) a -> is_restriction l' l = true -> l' = l) ->
  update_at a l f = mupdate loc_lt l f a.
Proof.
  intros W. induction a as [|[l' m] a IH]; simpl; intros D; auto.
  assert (E : is_restriction l' l = negb (loc_lt l l' || loc_lt l' l)).
  { destruct (loc_lt l l' || loc_lt l' l) eqn:E; simpl.
    - destruct (is_restriction l' l) eqn:R; [ | reflexivity ]. apply (D l' m) in R; [ | left; reflexivity ]. subst.
      rewrite loc_lt_irrefl in E. discriminate.
    - apply neither in E; auto using loc_lt_irrefl, loc_lt_total. subst. apply restriction_spec; [ exact W | intros k v; auto ]. }
  rewrite E. destruct (loc_lt l l' || loc_lt l' l); simpl; f_equal. apply IH. intros l0 m0 H. apply (D l0 m0). auto.
Qed.
Lemma update_at_mupdate a l f : ok a -> In l (map fst a) -> update_at a l f = mupdate loc_lt l f a.
Proof.
  intros O Hl. apply keys_in in Hl as (m0 & H0). assert (W : wf_map l) by (eapply ok_wf; eauto).
  apply update_at_aux; [ exact W | ]. intros l' m H H'. apply restriction_spec in H'; [ | exact W ].
  destruct (loc_dec l' l) as [E|N]; [ exact E | ].
  exfalso. eapply (within_differ l' l l W); [ exact H' | intros k v; auto | eapply ok_differ; eauto ].
Qed.
Lemma mupdate_in' a l f x : ok a -> In x (mupdate loc_lt l f a) <-> (In x a /\ fst x <> l) \/ (exists m, In (l, m) a /\ x = (l, f m)).
Proof. intros O. apply mupdate_in; auto using loc_lt_irrefl, loc_lt_total, ok_nodup. Qed.

Lemma mode_extends_refl (m : mode) : mode_extends m m.
Proof. unfold mode_extends. intuition. Qed.
Lemma mode_extends_trans (m1 m2 m3 : mode) : mode_extends m1 m2 -> mode_extends m2 m3 -> mode_extends m1 m3.
Proof.
  unfold mode_extends. intros (A1 & A2 & A3 & A4 & A5 & A6 & A7 & A8 & A9) (B1 & B2 & B3 & B4 & B5 & B6 & B7 & B8 & B9).
  repeat (split; [ try congruence; eapply incl_tran; eauto | ]); eapply incl_tran; eauto.
Qed.
Lemma extends_refl (a : automaton) : extends a a.
Proof. intros l m H. exists m. split; [ exact H | apply mode_extends_refl ]. Qed.
Lemma extends_trans (a b c : automaton) : extends a b -> extends b c -> extends a c.
Proof.
  intros H1 H2 l m H. apply H1 in H as (m' & H & E). apply H2 in H as (m'' & H & E'). exists m''. split; [ exact H | eapply mode_extends_trans; eauto ].
Qed.
Lemma mode_ok_extends (a a' : automaton) l m : extends a a' -> mode_ok a l m -> mode_ok a' l m.
Proof.
  unfold mode_ok. intros X (H1 & H2 & H3 & H4 & H5 & H6 & H7 & H8 & H9 & H10 & H11).
  repeat (split; [ assumption | ]). intros e t H. destruct (H11 e t H) as (tm & Ht & Hr). apply X in Ht as (tm' & Ht & E).
  exists tm'. split; [ exact Ht | ]. destruct E as (_ & E & _). rewrite E. exact Hr.
Qed.

Lemma mupdate_extends a l f : ok a -> (forall m, In (l, m) a -> mode_extends m (f m)) -> extends a (mupdate loc_lt l f a).
Proof.
  intros O H l' m Hm. destruct (loc_dec l' l) as [->|N].
  - exists (f m). split; [ apply mupdate_in'; eauto | auto ].
  - exists m. split; [ apply mupdate_in'; auto | apply mode_extends_refl ].
Qed.
Lemma mupdate_ok a l f : ok a -> (forall m, In (l, m) a -> mode_extends m (f m) /\ maps_wf (f m) /\ mode_ok (mupdate loc_lt l f a) l (f m)) ->
  ok (mupdate loc_lt l f a).
Proof.
  intros O H. assert (K : forall l' m', In (l', m') (mupdate loc_lt l f a) -> exists m, In (l', m) a).
  { intros l' m' H'. apply mupdate_in' in H'; [ | exact O ]. destruct H' as [[H' _]|(m & H' & E)]; [ eauto | ]. injection E as -> ->. eauto. }
  assert (X : extends a (mupdate loc_lt l f a)) by (apply mupdate_extends; [ exact O | intros m Hm; apply H; exact Hm ]).
  split.
  - eapply sorted_keys; [ symmetry; apply mupdate_keys | apply O ].
  - intros l' m' H'. apply K in H' as (m & H'). eapply ok_wf; eauto.
  - intros l' m' H'. apply mupdate_in' in H'; [ | exact O ]. destruct H' as [[H' _]|(m & H' & E)]; [ eapply ok_maps; eauto | ].
    injection E as -> ->. now apply H.
  - intros l1 m1 l2 m2 H1 H2. apply K in H1 as (m1' & H1). apply K in H2 as (m2' & H2). eapply ok_differ; eauto.
  - intros l' m' H'. apply mupdate_in' in H'; [ | exact O ]. destruct H' as [[H' _]|(m & H' & E)].
    + eapply mode_ok_extends; [ exact X | eapply ok_modes; eauto ].
    + injection E as -> ->. now apply H.
Qed.

(** ** The calls *)
Lemma ninsert_keys {V} (m : nmap V) k v x : wf_map m -> In x (map fst (ninsert k v m)) <-> In x (map fst m) \/ x = k.
Proof.
  intros W. rewrite !keys_in. split.
  - intros (v' & H). apply ninsert_in in H; [ | exact W ]. destruct H as [H|[E _]]; [ eauto | injection E as -> _; auto ].
  - intros [(v' & H)| ->]; [ exists v'; apply ninsert_in; auto | ].
    destruct (nfind k m) as [v'|] eqn:E.
    + exists v'. apply ninsert_in; [ exact W | left ]. now apply nfind_in in E.
    + exists v. apply ninsert_in; [ exact W | right; split; [ auto | now apply nfind_none in E ] ].
Qed.

Lemma new_mode_cases a l aux dyn : ok a -> wf_map l ->
  match new_mode a l aux dyn with
  | (a', Some _) => a' = a
  | (a', None) => (forall l' m', In (l', m') a -> differ l l') /\ NoDup (map fst aux ++ map fst dyn) /\
      exists sorted, algebraic_sort aux = Ok sorted /\
      a' = minsert loc_lt l (new_record l aux sorted dyn) a /\ ~ In l (map fst a)
  end.
Proof.
  intros O W. unfold new_mode. destruct (existsb _ a) eqn:E; [ reflexivity | ].
  destruct (twice_defined aux dyn) eqn:D; [ reflexivity | ]. destruct (algebraic_sort aux) as [sorted|e] eqn:S; [ | reflexivity ].
  assert (X : forall l' m', In (l', m') a -> differ l l').
  { intros l' m' H. rewrite <- not_true_iff_false, existsb_exists in E. apply distinguishable_spec; [ eapply ok_wf; eauto | ].
    destruct (are_distinguishable l l') eqn:R; [ reflexivity | ]. exfalso. apply E. exists (l', m'). split; [ exact H | simpl; now rewrite R ]. }
  split; [ exact X | ]. split; [ unfold twice_defined in D; apply negb_false_iff in D; now apply unique_nodup in D | ].
  exists sorted. split; [ reflexivity | ]. split; [ reflexivity | ].
  intros H. apply keys_in in H as (m & H). apply X in H. eapply (within_differ l l l W); eauto; intros k v; auto.
Qed.
Lemma new_mode_ok a l aux dyn : ok a -> wf_map l -> ok (fst (new_mode a l aux dyn)) /\ extends a (fst (new_mode a l aux dyn)).
Proof.
  intros O W. pose proof (new_mode_cases a l aux dyn O W) as H. destruct (new_mode a l aux dyn) as [a' [e|]]; simpl.
  - subst. split; [ exact O | apply extends_refl ].
  - destruct H as (X & N & sorted & S & -> & NI).
    assert (I : forall x, In x (minsert loc_lt l (new_record l aux sorted dyn) a) <-> In x a \/ x = (l, new_record l aux sorted dyn)).
    { intros x. rewrite minsert_in; [ | apply loc_lt_irrefl | apply loc_lt_trans | apply loc_lt_total | apply O ]. intuition. }
    assert (XT : extends a (minsert loc_lt l (new_record l aux sorted dyn) a)).
    { intros l' m' H. exists m'. split; [ apply I; auto | apply mode_extends_refl ]. }
    split; [ | exact XT ]. split.
    + apply minsert_sorted; [ apply loc_lt_irrefl | apply loc_lt_trans | apply loc_lt_total | apply O ].
    + intros l' m' H. apply I in H as [H|H]; [ eapply ok_wf; eauto | injection H as -> _; exact W ].
    + intros l' m' H. apply I in H as [H|H]; [ eapply ok_maps; eauto | injection H as -> ->; repeat split; constructor ].
    + intros l1 m1 l2 m2 H1 H2 N12. apply I in H1 as [H1|H1]; apply I in H2 as [H2|H2].
      * eapply ok_differ; eauto.
      * injection H2 as -> ->. apply differ_sym. eauto.
      * injection H1 as -> ->. eauto.
      * congruence.
    + intros l' m' H. apply I in H as [H|H]; [ eapply mode_ok_extends; [ exact XT | eapply ok_modes; eauto ] | ].
      injection H as -> ->. unfold mode_ok, new_record, defined_once; simpl. repeat (split; [ try assumption; try constructor; try tauto | ]).
      all: tauto.
Qed.

Lemma new_constraint_cases a l inv grd e k : ok a ->
  match new_constraint a l inv grd e k with
  | (a', Some _) => a' = a
  | (a', None) => exists m, In (l, m) a /\ ~ In e (map fst (m_kinds m)) /\ a' = mupdate loc_lt l (add_constraint inv grd e k) a
  end.
Proof.
  intros O. unfold new_constraint. destruct (mfind loc_lt l a) as [m|] eqn:E; [ | reflexivity ].
  apply ok_find in E; [ | exact O ]. destruct (nhas e (m_kinds m)) eqn:H; [ reflexivity | ].
  exists m. split; [ exact E | ]. split; [ | reflexivity ]. intros Q. apply nhas_in in Q. congruence.
Qed.
Lemma add_constraint_extends inv grd e k (m : mode) : maps_wf m -> mode_extends m (add_constraint inv grd e k m).
Proof.
  intros (W1 & W2 & W3 & W4 & W5). unfold mode_extends, add_constraint; simpl. repeat (split; [ reflexivity | ]).
  assert (I : forall V (x : nmap V) v, wf_map x -> incl x (ninsert e v x)) by (intros V x v W y Hy; apply ninsert_in; auto).
  repeat split; try (destruct inv); try (destruct grd); auto using incl_refl.
Qed.
Lemma add_constraint_maps inv grd e k (m : mode) : maps_wf m -> maps_wf (add_constraint inv grd e k m).
Proof.
  intros (W1 & W2 & W3 & W4 & W5). unfold maps_wf, add_constraint; simpl.
  repeat split; try (destruct inv); try (destruct grd); auto using ninsert_wf.
Qed.
Lemma add_constraint_mode_ok a' inv grd e k l (m : mode) : (inv <> None \/ grd <> None) -> maps_wf m -> mode_ok a' l m -> mode_ok a' l (add_constraint inv grd e k m).
Proof.
  intros NE (W1 & W2 & W3 & W4 & W5) (H1 & H2 & H3 & H4 & H5 & H6 & H7 & H8 & H9 & H10 & H11). unfold mode_ok, add_constraint, defined_once; simpl.
  split; [ exact H1 | ]. split; [ exact H2 | ]. split; [ exact H3 | ].
  split; [ destruct inv; auto using wf_nodup, ninsert_wf | ]. split; [ destruct grd; auto using wf_nodup, ninsert_wf | ].
  split; [ auto using wf_nodup, ninsert_wf | ]. split; [ exact H7 | ]. split; [ exact H8 | ].
  split; [ | split; [ exact H10 | exact H11 ] ].
  intros e'. rewrite ninsert_keys by exact W3. rewrite H9.
  destruct inv, grd; try (destruct NE; congruence); rewrite ?ninsert_keys by assumption; tauto.
Qed.
Lemma new_constraint_ok a l inv grd e k : (inv <> None \/ grd <> None) -> ok a ->
  ok (fst (new_constraint a l inv grd e k)) /\ extends a (fst (new_constraint a l inv grd e k)).
Proof.
  intros NE O. pose proof (new_constraint_cases a l inv grd e k O) as H. destruct (new_constraint a l inv grd e k) as [a' [er|]]; simpl.
  - subst. split; [ exact O | apply extends_refl ].
  - destruct H as (m & Hm & He & ->).
    assert (X : extends a (mupdate loc_lt l (add_constraint inv grd e k) a)).
    { apply mupdate_extends; [ exact O | ]. intros m' H'. apply add_constraint_extends. eapply ok_maps; eauto. }
    split; [ | exact X ]. apply mupdate_ok; [ exact O | ]. intros m' H'. pose proof (ok_maps _ O _ _ H') as W.
    split; [ now apply add_constraint_extends | ]. split; [ now apply add_constraint_maps | ].
    apply add_constraint_mode_ok; [ exact NE | exact W | ]. eapply mode_ok_extends; [ exact X | eapply ok_modes; eauto ].
Qed.

Lemma disjoint_spec (xs ys : list nat) : existsb (fun v => mem v ys) xs = false -> forall v, In v xs -> ~ In v ys.
Proof.
  intros H v Hx Hy. rewrite <- not_true_iff_false, existsb_exists in H. apply H. exists v. split; [ exact Hx | now apply mem_in ].
Qed.
Lemma new_update_cases a src e tgt rst : ok a ->
  match new_update a src e tgt rst with
  | (a', Some _) => a' = a
  | (a', None) => exists sm tm, In (src, sm) a /\ In (tgt, tm) a /\ ~ In e (map fst (m_targets sm)) /\ NoDup (map fst rst) /\
      (forall v, In v (map fst rst) -> ~ In v (map fst (m_auxiliary tm))) /\ a' = mupdate loc_lt src (add_update e tgt rst) a
  end.
Proof.
  intros O. unfold new_update. destruct (has_location a src) eqn:Hs; [ | reflexivity ]. destruct (has_location a tgt) eqn:Ht; [ | reflexivity ].
  cbn [negb]. apply has_location_in in Hs, Ht. pose proof Hs as Hs'. apply keys_in in Hs as (sm & Hs). apply keys_in in Ht as (tm & Ht).
  rewrite (mode_at_key a src sm O Hs), (mode_at_key a tgt tm O Ht).
  destruct (nhas e (m_targets sm)) eqn:He; [ reflexivity | ]. destruct (existsb _ (map fst rst)) eqn:Hd; [ reflexivity | ].
  destruct (unique (map fst rst)) eqn:Hu; [ | reflexivity ]. cbn [negb]. exists sm, tm. split; [ exact Hs | ]. split; [ exact Ht | ].
  split; [ intros Q; apply nhas_in in Q; congruence | ]. split; [ now apply unique_nodup | ]. split; [ now apply disjoint_spec | ].
  now apply update_at_mupdate.
Qed.
Lemma add_update_extends e tgt rst (m : mode) : maps_wf m -> mode_extends m (add_update e tgt rst m).
Proof.
  intros (W1 & W2 & W3 & W4 & W5). unfold mode_extends, add_update; simpl. repeat (split; [ reflexivity | ]).
  repeat split; auto using incl_refl; intros y Hy; apply ninsert_in; auto.
Qed.
Lemma new_update_ok a src e tgt rst : ok a -> ok (fst (new_update a src e tgt rst)) /\ extends a (fst (new_update a src e tgt rst)).
Proof.
  intros O. pose proof (new_update_cases a src e tgt rst O) as H. destruct (new_update a src e tgt rst) as [a' [er|]]; simpl.
  - subst. split; [ exact O | apply extends_refl ].
  - destruct H as (sm & tm & Hs & Ht & He & Hn & Hd & ->).
    assert (X : extends a (mupdate loc_lt src (add_update e tgt rst) a)).
    { apply mupdate_extends; [ exact O | ]. intros m' H'. apply add_update_extends. eapply ok_maps; eauto. }
    split; [ | exact X ]. apply mupdate_ok; [ exact O | ]. intros m' H'. assert (m' = sm) by (eapply ok_fun; eauto). subst m'.
    pose proof (ok_maps _ O _ _ Hs) as W.
    split; [ now apply add_update_extends | ]. destruct W as (W1 & W2 & W3 & W4 & W5).
    split; [ repeat split; simpl; auto using ninsert_wf | ].
    pose proof (mode_ok_extends _ _ _ _ X (ok_modes _ O _ _ Hs)) as (H1 & H2 & H3 & H4 & H5 & H6 & H7 & H8 & H9 & H10 & H11).
    unfold mode_ok, add_update, defined_once; simpl.
    do 8 (split; [ auto using wf_nodup, ninsert_wf | ]). split; [ exact H9 | ].
    split; [ intros e'; rewrite !ninsert_keys by assumption; now rewrite H10 | ].
    assert (Re : ~ In e (map fst (m_resets sm))) by (rewrite <- H10; exact He).
    intros e' t Het. apply ninsert_in in Het; [ | exact W4 ]. destruct Het as [Het|[E _]].
    + destruct (H11 _ _ Het) as (tm' & Ht' & Hr). exists tm'. split; [ exact Ht' | ]. intros r Her.
      apply ninsert_in in Her; [ | exact W5 ]. destruct Her as [Her|[E _]]; [ auto | ]. injection E as -> ->.
      exfalso. apply He. apply keys_in. eauto.
    + injection E as -> ->. apply X in Ht as (tm' & Ht' & E). exists tm'. split; [ exact Ht' | ]. intros r Her.
      apply ninsert_in in Her; [ | exact W5 ]. destruct Her as [Her|[Er _]]; [ exfalso; apply Re; apply keys_in; eauto | ].
      injection Er as ->. split; [ exact Hn | ]. destruct E as (_ & E & _). rewrite E. exact Hd.
Qed.

Lemma new_transition_ok a src e tgt rst grd k : ok a ->
  ok (fst (new_transition a src e tgt rst grd k)) /\ extends a (fst (new_transition a src e tgt rst grd k)).
Proof.
  intros O. unfold new_transition.
  set (r := match k with URGENT | IMPACT => _ | PERMISSIVE => _ | _ => _ end).
  assert (R : ok (fst r) /\ extends a (fst r)).
  { unfold r. destruct k; try (split; [ exact O | apply extends_refl ]); apply new_constraint_ok; auto; right; discriminate. }
  destruct (snd r); [ exact R | ]. destruct R as [R1 R2]. destruct (new_update_ok (fst r) src e tgt rst R1) as [U1 U2].
  split; [ exact U1 | eapply extends_trans; eauto ].
Qed.
Lemma build_step_ok a b : ok a -> wf_build b -> ok (fst (build_step a b)) /\ extends a (fst (build_step a b)).
Proof.
  intros O W. destruct b; simpl.
  - apply new_mode_ok; [ exact O | apply W; simpl; auto ].
  - apply new_constraint_ok; auto; left; discriminate.
  - apply new_constraint_ok; auto; right; discriminate.
  - apply new_constraint_ok; auto; left; discriminate.
  - now apply new_update_ok.
  - now apply new_transition_ok.
Qed.
Lemma build_from_ok bs : forall a : automaton, ok a -> (forall b, In b bs -> wf_build b) -> ok (fold_left (fun a b => fst (build_step a b)) bs a).
Proof.
  induction bs as [|b bs IH]; simpl; intros a O W; auto. apply IH; [ apply build_step_ok; auto | auto ].
Qed.
Lemma built_ok (a : automaton) : built a -> ok a.
Proof. intros (bs & W & ->). apply build_from_ok; [ apply ok_nil | exact W ]. Qed.
End BUILD.
