(** Proofs about the compilation of formulae to procedures. *)
From Coq Require Import ZArith List Bool Lia.
From Verif Require Import Expr_Model Proc_Model Proc_Spec.
Import ListNotations.

Section Compile.
Context {Y : Type} (A : Alg Y).
Implicit Types (s : pstate Y) (f g : form Y) (x v : list A).

Lemma exec_snoc c x p i :
  exec A c x (p ++ [i]) = exec A c x p ++ [exec1 A c x (exec A c x p) i].
Proof. unfold exec. now rewrite fold_left_app. Qed.

Lemma exec_length c x p : length (exec A c x p) = length p.
Proof.
  induction p as [|i p IH] using rev_ind; [ reflexivity | ].
  rewrite exec_snoc, !app_length, IH. reflexivity.
Qed.

(** constants in range *)
Definition cok1 (n : nat) (i : instr) : Prop :=
  match i with ICst k | IScal _ k _ => k < n | _ => True end.
Definition cok (n : nat) (p : list instr) : Prop := Forall (cok1 n) p.

Lemma cok_mono n m p : n <= m -> cok n p -> cok m p.
Proof. intros L. apply Forall_impl. intros i. destruct i; simpl; lia || auto. Qed.

Lemma exec_more c d x p : cok (length c) p -> exec A (c ++ d) x p = exec A c x p.
Proof.
  induction p as [|i p IH] using rev_ind; [ reflexivity | ].
  intros K. apply Forall_app in K. destruct K as [K1 K2]. rewrite !exec_snoc, IH by exact K1.
  f_equal. f_equal. apply Forall_inv in K2.
  destruct i; simpl in *; try reflexivity; now rewrite nth_error_app1 by exact K2.
Qed.

Definition vals s x : list A := exec A (ps_cst s) x (ps_ins s).

Lemma vals_length s x : length (vals s x) = length (ps_ins s).
Proof. apply exec_length. Qed.

Lemma vals_push s x y : cok (length (ps_cst s)) (ps_ins s) -> vals (push y s) x = vals s x.
Proof. intros K. unfold vals. simpl. now apply exec_more. Qed.

Lemma vals_emit s x i : vals (emit i s) x = vals s x ++ [exec1 A (ps_cst s) x (vals s x) i].
Proof. unfold vals. simpl. apply exec_snoc. Qed.

Section Universe.
Context (U : form Y -> Prop) (x : list A).
Hypothesis addr_inj : forall f g, U f -> U g -> addr f = addr g -> f = g.

(** the invariant of the conversion *)
Record inv s : Prop := {
  inv_c : cok (length (ps_cst s)) (ps_ins s);
  inv_cache : forall p k, In (p, k) (ps_cache s) ->
    k < length (ps_ins s) /\
    exists g, U g /\ addr g = p /\ nth k (vals s x) (al_zero A) = feval A x g;
  inv_inj : forall p q k, In (p, k) (ps_cache s) -> In (q, k) (ps_cache s) -> p = q
}.

(** [s'] extends [s] *)
Record ext s s' : Prop := {
  ext_len : length (ps_ins s) <= length (ps_ins s');
  ext_vals : forall k, k < length (ps_ins s) -> nth k (vals s' x) (al_zero A) = nth k (vals s x) (al_zero A);
  ext_cache : forall e, In e (ps_cache s) -> In e (ps_cache s')
}.

Lemma ext_refl s : ext s s.
Proof. split; auto. Qed.
Lemma ext_trans s s' s'' : ext s s' -> ext s' s'' -> ext s s''.
Proof.
  intros [L V C] [L' V' C']. split; [ lia | | auto ].
  intros k K. rewrite V' by lia. now apply V.
Qed.

Lemma ext_push s y : inv s -> ext s (push y s).
Proof. intros [K _ _]. split; simpl; auto. intros k L. now rewrite vals_push. Qed.
Lemma inv_push s y : inv s -> inv (push y s).
Proof.
  intros [K C J]. split; simpl.
  - rewrite app_length. eapply cok_mono; [ | exact K ]. lia.
  - intros p k H. rewrite vals_push by exact K. auto.
  - exact J.
Qed.

Lemma ext_emit s i : ext s (emit i s).
Proof.
  split; simpl; auto.
  - rewrite app_length. lia.
  - intros k K. rewrite vals_emit, app_nth1; [ reflexivity | now rewrite vals_length ].
Qed.
Lemma inv_emit s i : inv s -> cok1 (length (ps_cst s)) i -> inv (emit i s).
Proof.
  intros [K C J] I. split; simpl; [ | | exact J ].
  - apply Forall_app. split; [ exact K | now constructor ].
  - intros p k H. destruct (C p k H) as (L & g & Ug & Ag & V). rewrite app_length. simpl.
    split; [ lia | ]. exists g. split; [ exact Ug | ]. split; [ exact Ag | ].
    rewrite vals_emit, app_nth1; [ exact V | now rewrite vals_length ].
Qed.
Lemma emit_value s i : nth (length (ps_ins (emit i s)) - 1) (vals (emit i s) x) (al_zero A)
  = exec1 A (ps_cst s) x (vals s x) i.
Proof.
  rewrite vals_emit. simpl. rewrite app_length. simpl.
  rewrite app_nth2 by (rewrite vals_length; lia).
  rewrite vals_length. replace (_ + 1 - 1 - _) with 0 by lia. reflexivity.
Qed.

Lemma inv_remember s g :
  inv s -> U g -> 0 < length (ps_ins s) ->
  (forall p k, In (p, k) (ps_cache s) -> k < length (ps_ins s) - 1) ->
  nth (length (ps_ins s) - 1) (vals s x) (al_zero A) = feval A x g ->
  inv (remember (addr g) (length (ps_ins s) - 1) s).
Proof.
  intros [K C J] Ug L B V. split; simpl; [ exact K | | ].
  - intros p k [H|H].
    + injection H as <- <-. split; [ lia | ]. exists g. auto.
    + auto.
  - intros p q k [H|H] [H'|H'].
    + congruence.
    + injection H as <- <-. apply B in H'. lia.
    + injection H' as <- <-. apply B in H. lia.
    + eapply J; eassumption.
Qed.
Lemma ext_remember s p k : ext s (remember p k s).
Proof. split; simpl; auto. Qed.

Lemma cached_ok s g k : inv s -> U g -> cached s (addr g) = Some k ->
  k < length (ps_ins s) /\ nth k (vals s x) (al_zero A) = feval A x g.
Proof.
  intros I Ug C. unfold cached in C.
  destruct (List.find _ (ps_cache s)) as [[p k']|] eqn:F; [ | discriminate ]. injection C as <-.
  apply List.find_some in F. destruct F as [H E]. simpl in E. apply Nat.eqb_eq in E. subst p.
  destruct (inv_cache s I _ _ H) as (L & g' & Ug' & Ag & V). simpl.
  rewrite (addr_inj g' g Ug' Ug Ag) in V. auto.
Qed.

Lemma cached_some s p : In p (map fst (ps_cache s)) -> exists k, cached s p = Some k.
Proof.
  unfold cached. intros H. apply in_map_iff in H. destruct H as ([q k] & E & H). simpl in E. subst q.
  destruct (List.find (fun e => Nat.eqb (fst e) p) (ps_cache s)) as [e|] eqn:F.
  - eauto.
  - exfalso. apply (find_none _ _ F) in H. simpl in H. now rewrite Nat.eqb_refl in H.
Qed.

Definition post rtl s f : Prop :=
  let (k, s') := convert rtl s f in
  inv s' /\ ext s s' /\ k < length (ps_ins s') /\ nth k (vals s' x) (al_zero A) = feval A x f /\
  In (addr f) (map fst (ps_cache s')) /\
  (cached s (addr f) = None -> k = length (ps_ins s') - 1).

(** closing step of every case *)
Lemma finish s s1 f i :
  inv s1 -> ext s s1 -> cok1 (length (ps_cst s1)) i -> U f ->
  exec1 A (ps_cst s1) x (vals s1 x) i = feval A x f ->
  let s' := emit i s1 in
  let num := length (ps_ins s') - 1 in
  let s'' := remember (addr f) num s' in
  inv s'' /\ ext s s'' /\ num < length (ps_ins s'') /\
  nth num (vals s'' x) (al_zero A) = feval A x f /\
  In (addr f) (map fst (ps_cache s'')).
Proof.
  intros I E C Uf V s' num s''.
  assert (L : 0 < length (ps_ins s')) by (simpl; rewrite app_length; simpl; lia).
  assert (W : nth num (vals s' x) (al_zero A) = feval A x f) by (unfold num, s'; now rewrite emit_value).
  split; [ | split; [ | split; [ | split ] ] ].
  - apply inv_remember; auto. now apply inv_emit.
    intros p k H. simpl in H. apply (inv_cache s1 I) in H. simpl. rewrite app_length. simpl. lia.
  - eapply ext_trans; [ exact E | ]. eapply ext_trans; [ apply ext_emit | apply ext_remember ].
  - unfold s''. change (num < length (ps_ins s')). unfold num. lia.
  - exact W.
  - now left.
Qed.

Lemma convert_cached rtl s f k : cached s (addr f) = Some k -> convert rtl s f = (k, s).
Proof. intros E. destruct f; simpl in *; now rewrite E. Qed.

Lemma post_cached rtl s f k : cached s (addr f) = Some k -> inv s -> U f -> post rtl s f.
Proof.
  intros CA I Uf. unfold post. rewrite (convert_cached _ _ _ _ CA).
  destruct (cached_ok s f k I Uf CA) as [L V].
  split; [ exact I | split; [ apply ext_refl | split; [ exact L | split; [ exact V | split ] ] ] ].
  - unfold cached in CA. destruct (List.find _ _) as [e|] eqn:F; [ | discriminate ].
    apply List.find_some in F. destruct F as [H E]. apply Nat.eqb_eq in E.
    apply in_map_iff. exists e. auto.
  - congruence.
Qed.

Lemma convert_ok rtl f : forall s, (forall g, In g (nodes f) -> U g) -> no_scalar_nodes f ->
  inv s -> post rtl s f.
Proof.
  induction f as [p y|p i|p o a IHa|p o a IHa b IHb|p a IHa n|p o y a IHa]; intros s HU NS I;
  match goal with |- post _ _ ?f =>
    destruct (cached s (addr f)) as [k|] eqn:CA;
    [ apply (post_cached rtl s f k); auto; apply HU; now left
    | unfold post; simpl convert; simpl in CA; rewrite CA ] end.
  - destruct (finish s (push y s) (FCst p y) (ICst (length (ps_cst (push y s)) - 1))) as (R1 & R2 & R3 & R4 & R5).
    + now apply inv_push.
    + now apply ext_push.
    + simpl. rewrite app_length. simpl. lia.
    + apply HU. now left.
    + simpl. rewrite nth_error_app2; rewrite app_length; simpl; [ | lia ].
      replace (_ + 1 - 1 - _) with 0 by lia. reflexivity.
    + split; [ exact R1 | split; [ exact R2 | split; [ exact R3 | split; [ exact R4 | split; [ exact R5 | ] ] ] ] ]. reflexivity.
  - destruct (finish s s (FVar p i) (IVar i)) as (R1 & R2 & R3 & R4 & R5); simpl; auto.
    + apply ext_refl.
    + apply HU. now left.
    + split; [ exact R1 | split; [ exact R2 | split; [ exact R3 | split; [ exact R4 | split; [ exact R5 | ] ] ] ] ]. reflexivity.
  - assert (Pa : post rtl s a).
    { apply IHa; auto. intros g H. apply HU. now right. intros g H. apply NS. now right. }
    unfold post in Pa. destruct (convert rtl s a) as [k s1]. destruct Pa as (I1 & E1 & L1 & V1 & _).
    destruct (finish s s1 (FUn p o a) (IUn o k)) as (R1 & R2 & R3 & R4 & R5); simpl; auto.
    + apply HU. now left.
    + now rewrite V1.
    + split; [ exact R1 | split; [ exact R2 | split; [ exact R3 | split; [ exact R4 | split; [ exact R5 | ] ] ] ] ]. reflexivity.
  - assert (Pa : forall s, inv s -> post rtl s a).
    { intros. apply IHa; auto. intros g H'. apply HU. right. simpl. apply in_or_app. now left.
      intros g H'. apply NS. right. apply in_or_app. now left. }
    assert (Pb : forall s, inv s -> post rtl s b).
    { intros. apply IHb; auto. intros g H'. apply HU. right. simpl. apply in_or_app. now right.
      intros g H'. apply NS. right. apply in_or_app. now right. }
    unfold post in Pa, Pb. destruct rtl.
    + specialize (Pb s I). destruct (convert true s b) as [k2 s1]. destruct Pb as (I1 & E1 & L1 & V1 & _).
      specialize (Pa s1 I1). destruct (convert true s1 a) as [k1 s2]. destruct Pa as (I2 & E2 & L2 & V2 & _).
      destruct (finish s s2 (FBin p o a b) (IBin o k1 k2)) as (R1 & R2 & R3 & R4 & R5); simpl; auto.
      * eapply ext_trans; eassumption.
      * apply HU. now left.
      * rewrite V2, (ext_vals s1 s2 E2 k2 L1), V1. reflexivity.
      * split; [ exact R1 | split; [ exact R2 | split; [ exact R3 | split; [ exact R4 | split; [ exact R5 | ] ] ] ] ]. reflexivity.
    + specialize (Pa s I). destruct (convert false s a) as [k1 s1]. destruct Pa as (I1 & E1 & L1 & V1 & _).
      specialize (Pb s1 I1). destruct (convert false s1 b) as [k2 s2]. destruct Pb as (I2 & E2 & L2 & V2 & _).
      destruct (finish s s2 (FBin p o a b) (IBin o k1 k2)) as (R1 & R2 & R3 & R4 & R5); simpl; auto.
      * eapply ext_trans; eassumption.
      * apply HU. now left.
      * rewrite V2, (ext_vals s1 s2 E2 k1 L1), V1. reflexivity.
      * split; [ exact R1 | split; [ exact R2 | split; [ exact R3 | split; [ exact R4 | split; [ exact R5 | ] ] ] ] ]. reflexivity.
  - assert (Pa : post rtl s a).
    { apply IHa; auto. intros g H. apply HU. now right. intros g H. apply NS. now right. }
    unfold post in Pa. destruct (convert rtl s a) as [k s1]. destruct Pa as (I1 & E1 & L1 & V1 & _).
    destruct (finish s s1 (FPow p a n) (IPow k n)) as (R1 & R2 & R3 & R4 & R5); simpl; auto.
    + apply HU. now left.
    + now rewrite V1.
    + split; [ exact R1 | split; [ exact R2 | split; [ exact R3 | split; [ exact R4 | split; [ exact R5 | ] ] ] ] ]. reflexivity.
  - exfalso. exact (NS _ (or_introl eq_refl)).
Qed.

Lemma inv_empty : inv empty_state.
Proof. split; simpl; [ constructor | contradiction | contradiction ]. Qed.

Lemma convert_all_ok rtl fs : forall s,
  (forall f, In f fs -> forall g, In g (nodes f) -> U g) -> (forall f, In f fs -> no_scalar_nodes f) ->
  inv s ->
  let s' := fold_left (fun s f => snd (convert rtl s f)) fs s in
  inv s' /\ ext s s' /\ forall f, In f fs -> In (addr f) (map fst (ps_cache s')).
Proof.
  induction fs as [|f fs IH]; intros s HU NS I; simpl.
  - split; [ exact I | split; [ apply ext_refl | contradiction ] ].
  - assert (P : post rtl s f).
    { apply convert_ok; auto. apply HU. now left. apply NS. now left. }
    unfold post in P. destruct (convert rtl s f) as [k s1]. simpl.
    destruct P as (I1 & E1 & L1 & V1 & C1 & _).
    destruct (IH s1) as (I2 & E2 & C2); auto.
    { intros. apply (HU f0); auto. now right. }
    { intros. apply NS. now right. }
    split; [ exact I2 | split; [ eapply ext_trans; eassumption | ] ].
    intros g [<-|H]; [ | now apply C2 ].
    apply in_map_iff in C1. destruct C1 as (e & Ee & H). apply in_map_iff. exists e.
    split; [ exact Ee | ]. now apply (ext_cache _ _ E2).
Qed.
End Universe.

Theorem compile_scalar rtl f x :
  same_memory [f] -> no_scalar_nodes f -> evaluate A (procedure rtl f) x = feval A x f.
Proof.
  intros M NS. unfold same_memory in M. simpl in M. rewrite app_nil_r in M.
  pose proof (convert_ok (fun g => In g (nodes f)) x M rtl f empty_state (fun _ H => H) NS
    (inv_empty _ x)) as P.
  unfold post in P. unfold evaluate, procedure. destruct (convert rtl empty_state f) as [k s'].
  destruct P as (_ & _ & L & V & _ & K). simpl. specialize (K eq_refl). subst k.
  rewrite <- V. unfold vals. fold (vals s' x) in *.
  rewrite <- (vals_length s' x) in L |- *. clear V.
  destruct (vals s' x) as [|z l] using rev_ind; [ simpl in L; lia | ].
  rewrite last_last, app_length. simpl. rewrite app_nth2 by lia.
  replace (_ + 1 - 1 - _) with 0 by lia. reflexivity.
Qed.

Lemma results_ok rtl fs x :
  same_memory fs -> (forall f, In f fs -> no_scalar_nodes f) ->
  let s := convert_all rtl fs in
  map (fun k => nth k (vals s x) (al_zero A)) (results s fs) = map (feval A x) fs /\
  Forall (fun k => k < length (ps_ins s)) (results s fs).
Proof.
  intros M NS s.
  pose (U := fun g => In g (flat_map nodes fs)).
  destruct (convert_all_ok U x M rtl fs empty_state) as (I & _ & C).
  { intros f H g G. apply in_flat_map. eauto. }
  { exact NS. }
  { apply inv_empty. }
  fold (convert_all rtl fs) in I, C. fold s in I, C.
  assert (K : forall f, In f fs -> exists k, cached s (addr f) = Some k /\
    k < length (ps_ins s) /\ nth k (vals s x) (al_zero A) = feval A x f).
  { intros f H. destruct (cached_some s (addr f) (C f H)) as (k & E). exists k. split; [ exact E | ].
    apply (cached_ok U x M s f k I); auto. apply in_flat_map. exists f. split; [ exact H | ].
    destruct f; now left. }
  unfold results. rewrite map_map. split.
  - apply map_ext_in. intros f H. destruct (K f H) as (k & E & _ & V). now rewrite E.
  - apply Forall_forall. intros k H. apply in_map_iff in H. destruct H as (f & <- & H).
    destruct (K f H) as (k' & E & L & _). now rewrite E.
Qed.

Lemma nth_set_nth k j a v d : j <> k -> nth j (set_nth A k a v) d = nth j v d.
Proof.
  revert k j. induction v as [|b v IH]; intros k j H; [ now destruct k | ].
  destruct k, j; simpl; auto; try lia.
Qed.
Lemma nth_set_nth_same k a v d : k < length v -> nth k (set_nth A k a v) d = a.
Proof.
  revert k. induction v as [|b v IH]; intros k H; [ simpl in H; lia | ].
  destruct k; simpl in *; auto. apply IH. lia.
Qed.
Lemma set_nth_id k v d : set_nth A k (nth k v d) v = v.
Proof. revert k. induction v as [|b v IH]; intros [|k]; simpl; auto. now rewrite IH. Qed.
Lemma set_nth_length k a v : length (set_nth A k a v) = length v.
Proof. revert k. induction v as [|b v IH]; intros [|k]; simpl; auto. Qed.

Lemma take_results_ok moved rs : forall t,
  (forall a, moved a = a) \/ NoDup rs ->
  take_results A moved t rs = map (fun k => nth k t (al_zero A)) rs.
Proof.
  induction rs as [|k rs IH]; intros t H; simpl; [ reflexivity | ]. f_equal.
  destruct H as [H|H].
  - rewrite H, set_nth_id. apply IH. now left.
  - inversion H as [|? ? N D]. subst. rewrite IH by now right.
    apply map_ext_in. intros j J. apply nth_set_nth. intros ->. contradiction.
Qed.

Lemma nodup_results s fs :
  (forall p q k, In (p, k) (ps_cache s) -> In (q, k) (ps_cache s) -> p = q) ->
  (forall f, In f fs -> exists k, cached s (addr f) = Some k /\ In (addr f, k) (ps_cache s)) ->
  NoDup (map addr fs) -> NoDup (results s fs).
Proof.
  intros J. unfold results. induction fs as [|f fs IH]; simpl; intros K H; [ constructor | ].
  inversion H as [|? ? N D]. subst. constructor.
  - intros T. apply in_map_iff in T. destruct T as (g & E & G).
    destruct (K g (or_intror G)) as (k & Ek & Hk). destruct (K f (or_introl eq_refl)) as (k' & Ek' & Hk').
    rewrite Ek, Ek' in E. subst k'. apply N.
    rewrite <- (J _ _ _ Hk Hk'). now apply in_map.
  - apply IH; auto.
Qed.

Theorem compile_vector rtl fs moved x :
  same_memory fs -> (forall f, In f fs -> no_scalar_nodes f) ->
  (forall a, moved a = a) \/ NoDup (map addr fs) ->
  let s := convert_all rtl fs in
  evaluate_vector A moved s (results s fs) x = map (feval A x) fs.
Proof.
  intros M NS H s. unfold evaluate_vector.
  destruct (results_ok rtl fs x M NS) as [R _]. fold s in R.
  rewrite take_results_ok; [ exact R | ].
  destruct H as [H|H]; [ now left | right ].
  (* distinct addresses have distinct indices *)
  pose (U := fun g => In g (flat_map nodes fs)).
  destruct (convert_all_ok U x M rtl fs empty_state) as (I & _ & C).
  { intros f Hf g G. apply in_flat_map. eauto. }
  { exact NS. }
  { apply inv_empty. }
  fold (convert_all rtl fs) in I, C. fold s in I, C.
  assert (K : forall f, In f fs -> exists k, cached s (addr f) = Some k /\ In (addr f, k) (ps_cache s)).
  { intros f Hf. destruct (cached_some s (addr f) (C f Hf)) as (k & E). exists k. split; [ exact E | ].
    unfold cached in E. destruct (List.find _ _) as [[q k']|] eqn:F; [ | discriminate ]. injection E as <-.
    apply List.find_some in F. destruct F as [F E]. simpl in E. apply Nat.eqb_eq in E. subst q. exact F. }
  apply nodup_results; auto. exact (inv_inj _ _ _ I).
Qed.
End Compile.
