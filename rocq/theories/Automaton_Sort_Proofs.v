(** Algebraic equations of hybrid automata and the functions made from them. *)
From Coq Require Import List Bool Arith Lia Sorted Permutation Reals.
From Verif Require Import Logical_Model Expr_Model Expr_Spec Expr_Proofs Automaton_Model Automaton_Spec Automaton_Proofs Automaton_Build_Proofs.
Import ListNotations.

Open Scope nat_scope.

Section SORT.
Context {C : RealConst}.
Notation expr := (expr C).
Notation assignments := (list (nat * expr)).

Lemma nfind_map {V W} (g : V -> W) (m : nmap V) k : nfind k (map (fun d => (fst d, g (snd d))) m) = option_map g (nfind k m).
Proof. unfold nfind. induction m as [|[k' v'] m IH]; simpl; auto. destruct (_ || _); auto. Qed.
Lemma nfind_filter {V} (m : nmap V) k v : k <> v -> nfind k (filter (fun d => negb (Nat.eqb (fst d) v)) m) = nfind k m.
Proof.
  intros N. unfold nfind. induction m as [|[k' v'] m IH]; simpl; auto. destruct (Nat.eqb_spec k' v) as [->|N']; simpl.
  - rewrite IH. destruct (Nat.ltb_spec k v); simpl; auto. destruct (Nat.ltb_spec v k); simpl; auto. lia.
  - now rewrite IH.
Qed.
Lemma fold_ninsert {A V} (key : A -> nat) (g : A -> V) l : forall m,
  fold_left (fun m a => ninsert (key a) (g a) m) l m = adjoin Nat.ltb m (map (fun a => (key a, g a)) l).
Proof. unfold adjoin. induction l as [|x l IH]; simpl; intros m; auto. Qed.
Lemma in_nodup_fun {V} (l : nmap V) k v v' : NoDup (map fst l) -> In (k, v) l -> In (k, v') l -> v = v'.
Proof.
  intros N H H'. apply (mfind_in Nat.ltb nlt_irrefl nlt_total) in H, H'; auto. congruence.
Qed.

Lemma first_free_some deps lhs v : first_free deps lhs = Some v -> In v lhs /\ (nfind v deps = None \/ nfind v deps = Some []).
Proof.
  induction lhs as [|w r IH]; simpl; [ discriminate | ]. destruct (nfind w deps) as [[|d ds]|] eqn:E; intros H.
  - injection H as <-. auto.
  - destruct (IH H). auto.
  - injection H as <-. auto.
Qed.
Lemma first_free_none deps lhs : first_free deps lhs = None -> forall v, In v lhs -> exists d ds, nfind v deps = Some (d :: ds).
Proof.
  induction lhs as [|w r IH]; simpl; [ tauto | ]. destruct (nfind w deps) as [[|d ds]|] eqn:E; intros H; try discriminate.
  intros v [<-|Hv]; eauto.
Qed.
Lemma remove_first_perm v l : In v l -> Permutation l (v :: remove_first v l).
Proof.
  induction l as [|w l IH]; simpl; [ tauto | ]. destruct (Nat.eqb_spec w v) as [->|N]; [ reflexivity | ].
  intros [->|H]; [ congruence | ]. rewrite perm_swap. constructor. now apply IH.
Qed.

Section FIXED.
Variable aux : assignments.
Hypothesis ND : NoDup (map fst aux).
Notation lhs0 := (map fst aux).

Record inv (deps : nmap (list nat)) (lhs : list nat) (sorted : assignments) : Prop := {
  inv_perm : Permutation (map fst sorted ++ lhs) lhs0;
  inv_in : forall a, In a sorted -> In a aux;
  inv_deps : forall v s, In (v, s) aux -> In v lhs -> exists D, nfind v deps = Some D /\
    forall w, In w D <-> In w (arguments s) /\ In w lhs;
  inv_ord : forall p v s q, sorted = p ++ (v, s) :: q -> forall w, In w (arguments s) -> In w lhs0 -> In w (map fst p)
}.

Lemma aux_find v : In v lhs0 -> exists s, List.find (fun a => Nat.eqb (fst a) v) aux = Some (v, s) /\ In (v, s) aux.
Proof using.
  intros H. destruct (List.find (fun a => Nat.eqb (fst a) v) aux) as [[v' s]|] eqn:E.
  - apply find_some in E as [E1 E2]. simpl in E2. apply Nat.eqb_eq in E2. subst. eauto.
  - apply keys_in in H as (s & H). pose proof (find_none _ _ E _ H) as Q. simpl in Q. rewrite Nat.eqb_refl in Q. discriminate.
Qed.

Lemma inv_step deps lhs sorted v : inv deps lhs sorted -> first_free deps lhs = Some v ->
  inv (filter (fun d => negb (Nat.eqb (fst d) v)) (map (fun d => (fst d, filter (fun w => negb (Nat.eqb w v)) (snd d))) deps))
      (remove_first v lhs)
      (match List.find (fun a => Nat.eqb (fst a) v) aux with Some a => sorted ++ [a] | None => sorted end) /\
  length lhs = S (length (remove_first v lhs)).
Proof using ND.
  intros I F. apply first_free_some in F as [Hv HD]. pose proof (remove_first_perm v lhs Hv) as P.
  assert (Nd : NoDup (map fst sorted ++ lhs)) by (eapply Permutation_NoDup; [ apply Permutation_sym, (inv_perm _ _ _ I) | exact ND ]).
  assert (NL : NoDup (v :: remove_first v lhs)).
  { eapply Permutation_NoDup; [ exact P | ]. clear - Nd. induction (map fst sorted); simpl in Nd; auto. apply IHl. now inversion Nd. }
  assert (V0 : In v lhs0) by (eapply Permutation_in; [ apply (inv_perm _ _ _ I) | apply in_or_app; auto ]).
  destruct (aux_find v V0) as (s & -> & Hs). split; [ | apply Permutation_length in P; exact P ].
  assert (IN : forall w, In w lhs <-> w = v \/ In w (remove_first v lhs)).
  { intros w. split; intros H; [ apply (Permutation_in _ P) in H; destruct H; auto | ].
    apply (Permutation_in _ (Permutation_sym P)). destruct H; [ left; auto | right; auto ]. }
  inversion NL as [|? ? NL1 NL2]; subst. split.
  - rewrite map_app. simpl. rewrite <- app_assoc. simpl. rewrite <- P. apply (inv_perm _ _ _ I).
  - intros a Ha. apply in_app_or in Ha as [Ha|[<-|[]]]; [ eapply inv_in; eauto | exact Hs ].
  - intros v' s' Hs' Hv'. destruct (inv_deps _ _ _ I v' s' Hs') as (D & E & HD'); [ apply IN; auto | ].
    exists (filter (fun w => negb (Nat.eqb w v)) D).
    rewrite nfind_filter by (intros ->; contradiction). rewrite nfind_map, E. split; [ reflexivity | ].
    intros w. rewrite filter_In, HD', IN, negb_true_iff, Nat.eqb_neq. split; [ tauto | ].
    intros [H1 H2]. split; [ auto | ]. intros ->. contradiction.
  - intros p v' s' q E w Hw H0. destruct q as [|x q].
    + apply app_inj_tail in E as [-> E]. injection E as <- <-.
      destruct (inv_deps _ _ _ I v s Hs Hv) as (D & E & HD'). destruct HD as [HD|HD]; [ congruence | ]. rewrite HD in E. injection E as <-.
      apply (Permutation_in _ (Permutation_sym (inv_perm _ _ _ I))) in H0. apply in_app_or in H0 as [H0|H0]; [ exact H0 | ].
      exfalso. apply (HD' w). auto.
    + assert (X : exists q', sorted = p ++ (v', s') :: q').
      { destruct (exists_last (l := x :: q)) as (q' & y & Eq); [ discriminate | ]. rewrite Eq in E.
        change (p ++ (v', s') :: q' ++ [y]) with (p ++ ((v', s') :: q') ++ [y]) in E. rewrite app_assoc in E.
        apply app_inj_tail in E as [E _]. exists q'. exact E. }
      destruct X as (q' & X). eapply inv_ord; eauto.
Qed.

Lemma sort_loop_inv fuel : forall deps lhs sorted, inv deps lhs sorted -> length lhs <= fuel ->
  let (rest, s) := sort_loop fuel aux deps lhs sorted in
  exists deps', inv deps' rest s /\ (rest = [] \/ first_free deps' rest = None).
Proof using ND.
  induction fuel as [|fuel IH]; intros deps lhs sorted I L; simpl.
  - exists deps. split; [ exact I | ]. left. destruct lhs; [ reflexivity | simpl in L; lia ].
  - destruct (first_free deps lhs) as [v|] eqn:F; [ | exists deps; auto ].
    destruct (inv_step deps lhs sorted v I F) as [I' L']. apply IH; [ exact I' | lia ].
Qed.

Lemma inv_init : inv (fold_left (fun m a => ninsert (fst a) (filter (fun w => mem w lhs0) (arguments (snd a))) m) aux []) lhs0 [].
Proof using ND.
  split; simpl.
  - reflexivity.
  - tauto.
  - intros v s H _. exists (filter (fun w => mem w lhs0) (arguments s)). split.
    + rewrite (fold_ninsert fst (fun a => filter (fun w => mem w lhs0) (arguments (snd a)))).
      apply nfind_in; [ apply nadjoin_wf; constructor | ].
      apply adjoin_in; auto using nlt_irrefl, nlt_total; [ apply nlt_trans | constructor | | ].
      * rewrite map_map. simpl. exact ND.
      * right. split; [ | auto ]. apply in_map_iff. exists (v, s). auto.
    + intros w. rewrite filter_In, mem_in. tauto.
  - intros p v s q E. destruct p; discriminate.
Qed.

Lemma sort_result : exists rest sorted deps,
  algebraic_sort aux = (if match lhs0 with [] => true | _ => false end then Ok sorted
                        else if Nat.eqb (length rest) (length lhs0) then Throw AlgebraicLoop
                        else if Nat.eqb (length aux) (length sorted) then Ok sorted else Throw AssertFailure) /\
  inv deps rest sorted /\ (rest = [] \/ first_free deps rest = None).
Proof using ND.
  unfold algebraic_sort. pose proof (sort_loop_inv (length lhs0) _ _ _ inv_init (Nat.le_refl _)) as H.
  destruct (sort_loop (length lhs0) aux _ lhs0 []) as [rest sorted]. destruct H as (deps & I & E).
  exists rest, sorted, deps. split; [ | auto ]. destruct lhs0; reflexivity.
Qed.

Lemma sort_ok sorted : algebraic_sort aux = Ok sorted -> Permutation aux sorted /\ ordered sorted.
Proof using ND.
  intros E. destruct sort_result as (rest & s & deps & R & I & F). rewrite R in E.
  assert (X : s = sorted /\ length s = length aux).
  { destruct lhs0 eqn:L0.
    - injection E as <-. split; [ reflexivity | ]. pose proof (map_length fst aux) as Q. rewrite L0 in Q. rewrite <- Q. destruct s as [|x s]; [ reflexivity | ].
      exfalso. pose proof (in_map fst _ _ (inv_in _ _ _ I x (or_introl eq_refl))) as Q'. rewrite L0 in Q'. exact Q'.
    - destruct (Nat.eqb (length rest) (length (n :: l))); [ discriminate | ].
      destruct (Nat.eqb_spec (length aux) (length s)) as [El|]; [ | discriminate ]. injection E as <-. auto. }
  destruct X as [<- Len].
  assert (Nd : NoDup (map fst s ++ rest)) by (eapply Permutation_NoDup; [ apply Permutation_sym, (inv_perm _ _ _ I) | exact ND ]).
  assert (Ns : NoDup s).
  { apply (NoDup_map_inv fst). clear - Nd. revert Nd. generalize (map fst s) as l. intros l. induction l as [|x l IH]; simpl; intros N; [ constructor | ].
    inversion N as [|? ? N1 N2]; subst. constructor; [ intros H; apply N1; apply in_or_app; auto | auto ]. }
  assert (P : Permutation s aux) by (apply NoDup_Permutation_bis; [ exact Ns | lia | intros a; apply (inv_in _ _ _ I) ]).
  split; [ apply Permutation_sym; exact P | ].
  intros p v e q Es w Hw H. eapply (inv_ord _ _ _ I); eauto. eapply Permutation_in; [ apply Permutation_map; exact P | exact H ].
Qed.
Lemma sort_throws e : algebraic_sort aux = Throw e -> circular aux.
Proof using ND.
  intros E. destruct sort_result as (rest & s & deps & R & I & F). rewrite R in E.
  assert (NE : rest <> []).
  { intros ->. destruct lhs0 eqn:L0; [ discriminate | ]. simpl in E.
    pose proof (Permutation_length (inv_perm _ _ _ I)) as PL. rewrite app_nil_r, !map_length in PL.
    rewrite PL, Nat.eqb_refl in E. discriminate. }
  destruct F as [F|F]; [ contradiction | ]. exists rest. split; [ exact NE | ].
  intros v Hv. assert (V0 : In v lhs0) by (eapply Permutation_in; [ apply (inv_perm _ _ _ I) | apply in_or_app; auto ]).
  apply keys_in in V0 as (sv & Hs). destruct (inv_deps _ _ _ I v sv Hs Hv) as (D & E1 & HD).
  destruct (first_free_none _ _ F v Hv) as (d & ds & E2). rewrite E2 in E1. injection E1 as <-.
  exists sv, d. split; [ exact Hs | ]. apply HD. left. reflexivity.
Qed.
Lemma circular_not_ordered sorted : Permutation aux sorted -> ordered sorted -> ~ circular aux.
Proof using ND.
  intros P O (L & NE & H).
  assert (LS : forall v, In v L -> In v (map fst sorted)).
  { intros v Hv. destruct (H v Hv) as (s & w & Hs & _). apply keys_in. exists s. eapply Permutation_in; eauto. }
  assert (G : forall q p, sorted = p ++ q -> (forall v, In v L -> ~ In v (map fst p)) -> False).
  { induction q as [|[v s] q IH]; intros p E N.
    - destruct L as [|v L']; [ congruence | ]. apply (N v); [ left; reflexivity | ]. rewrite app_nil_r in E. subst. apply LS. left. reflexivity.
    - apply (IH (p ++ [(v, s)])); [ rewrite <- app_assoc; exact E | ]. intros v' Hv' Q. rewrite map_app in Q. apply in_app_or in Q as [Q|[<-|[]]].
      + eapply N; eauto.
      + destruct (H v Hv') as (s' & w & Hs & Hw & HwL).
        assert (s' = s). { eapply (in_nodup_fun aux v); eauto. eapply Permutation_in; [ apply Permutation_sym; exact P | ]. rewrite E. apply in_or_app. right. left. reflexivity. }
        subst s'. apply (N w HwL). eapply O; eauto. }
  apply (G sorted []); auto.
Qed.
End FIXED.

(** ** Solving the equations *)
Section SOLVE.
Variable val : C -> R.
Hypothesis CS : consts_sound val.

Definition fresh (l : assignments) : Prop := forall p v s q, l = p ++ (v, s) :: q -> forall w, In w (arguments s) -> w <> v /\ ~ In w (map fst q).
Lemma ordered_fresh l : NoDup (map fst l) -> ordered l -> fresh l.
Proof using.
  intros N O p v s q E w Hw. assert (X : In w (map fst l) -> w <> v /\ ~ In w (map fst q)).
  { intros H. pose proof (O p v s q E w Hw H) as Hp. subst l. rewrite map_app in N. simpl in N.
    apply NoDup_remove in N as [N1 N2]. rewrite in_app_iff in N2.
    assert (D : forall x, In x (map fst p) -> ~ In x (map fst q)).
    { clear - N1. induction (map fst p) as [|y l IH]; simpl; [ tauto | ]. simpl in N1. inversion N1 as [|? ? M1 M2]; subst.
      intros x [<-|Hx]; [ intros Q; apply M1; apply in_or_app; auto | auto ]. }
    split; [ intros ->; auto | auto ]. }
  destruct (in_dec Nat.eq_dec w (map fst l)) as [H|H]; [ auto | ]. subst l. rewrite map_app, in_app_iff in H. simpl in H.
  split; [ intros ->; apply H; auto | intros Q; apply H; auto ].
Qed.
Lemma fresh_tail x l : fresh (x :: l) -> fresh l.
Proof using. intros F p v s q -> . apply (F (x :: p) v s q). reflexivity. Qed.

Lemma perform_solves l : forall rho rho', NoDup (map fst l) -> fresh l -> perform val rho l = Some rho' ->
  solves val rho' l /\ agree_except (map fst l) rho rho'.
Proof using.
  induction l as [|[v s] l IH]; simpl; intros rho rho' N F E.
  - injection E as <-. split; [ intros v s [] | intros w _; reflexivity ].
  - destruct (eval val rho s) as [x|] eqn:Es; [ | discriminate ]. inversion N as [|? ? N1 N2]; subst.
    destruct (IH _ _ N2 (fresh_tail _ _ F) E) as [S A].
    assert (Hv : rho' v = x) by (rewrite (A v N1); unfold upd; now rewrite Nat.eqb_refl).
    split.
    + intros v' s' [Q|Q]; [ | auto ]. injection Q as <- <-. rewrite Hv, <- Es. apply eval_ext. intros w Hw.
      destruct (F [] v s l eq_refl w Hw) as [F1 F2]. rewrite (A w F2). unfold upd. destruct (Nat.eqb_spec w v); [ contradiction | reflexivity ].
    + intros w Hw. rewrite (A w) by (intros Q; apply Hw; right; exact Q). unfold upd. destruct (Nat.eqb_spec w v); [ exfalso; apply Hw; left; auto | reflexivity ].
Qed.
Lemma perform_complete l : forall rho sigma, NoDup (map fst l) -> fresh l -> solves val sigma l -> agree_except (map fst l) rho sigma ->
  exists rho', perform val rho l = Some rho' /\ forall w, rho' w = sigma w.
Proof using.
  induction l as [|[v s] l IH]; simpl; intros rho sigma N F S A.
  - exists rho. split; [ reflexivity | ]. intros w. symmetry. apply A. auto.
  - inversion N as [|? ? N1 N2]; subst.
    assert (Es : eval val rho s = Some (sigma v)).
    { rewrite <- (S v s) by (left; reflexivity). symmetry. apply eval_ext. intros w Hw. apply A. intros [->|H].
      - destruct (F [] w s l eq_refl w Hw). auto.
      - destruct (F [] v s l eq_refl w Hw). auto. }
    rewrite Es. apply (IH (upd rho v (sigma v)) sigma N2 (fresh_tail _ _ F)); [ intros v' s' H; apply S; right; exact H | ].
    intros w Hw. unfold upd. destruct (Nat.eqb_spec w v) as [->|]; [ reflexivity | ]. apply A. intros [Q|Q]; [ congruence | contradiction ].
Qed.

(** ** Functions *)
Lemma subst_solved rho e v s y : eval val rho s = Some (rho v) -> eval val rho e = Some y -> eval val rho (subst e v s) = Some y.
Proof using CS.
  intros Es E. eapply subst_value; eauto. rewrite <- E. apply eval_ext. intros w _. unfold upd. destruct (Nat.eqb_spec w v); [ subst; reflexivity | reflexivity ].
Qed.
Lemma subst_list_solved rho l : forall e y, solves val rho l -> eval val rho e = Some y -> eval val rho (subst_list e l) = Some y.
Proof using CS.
  induction l as [|[v s] l IH]; simpl; intros e y S E; auto.
  apply IH; [ intros v' s' H; apply S; right; exact H | ]. apply subst_solved; [ apply S; left; reflexivity | exact E ].
Qed.

Lemma index_nth v sp i : index v sp = Some i -> nth_error sp i = Some v.
Proof using.
  revert i. induction sp as [|w sp IH]; simpl; intros i; [ discriminate | ]. destruct (Nat.eqb_spec v w) as [->|N].
  - intros H. injection H as <-. reflexivity.
  - destruct (index v sp) as [j|]; [ | discriminate ]. intros H. injection H as <-. simpl. auto.
Qed.
Lemma index_some v sp : In v sp -> exists i, index v sp = Some i /\ i < length sp.
Proof using.
  induction sp as [|w sp IH]; simpl; [ tauto | ]. destruct (Nat.eqb_spec v w) as [->|N]; [ exists 0; split; [ reflexivity | lia ] | ].
  intros [H|H]; [ congruence | ]. destruct (IH H) as (i & -> & Hi). exists (S i). split; [ reflexivity | lia ].
Qed.
Lemma lset_length {A} i (x : A) l : length (lset i x l) = length l.
Proof using. revert i. induction l as [|y l IH]; intros [|i]; simpl; auto. Qed.
Lemma lset_same {A} i (x : A) l : i < length l -> nth_error (lset i x l) i = Some x.
Proof using. revert i. induction l as [|y l IH]; intros [|i]; simpl; intros H; try lia; auto. apply IH. lia. Qed.
Lemma lset_other {A} i j (x : A) l : i <> j -> nth_error (lset i x l) j = nth_error l j.
Proof using. revert i j. induction l as [|y l IH]; intros [|i] [|j]; simpl; intros H; auto; congruence. Qed.

Lemma set_results_spec sp (alg eqs : assignments) : forall res out, NoDup (map fst eqs) -> set_results sp alg eqs res = Some out ->
  length out = length res /\
  (forall v rhs, In (v, rhs) eqs -> exists i, nth_error sp i = Some v /\ nth_error out i = Some (subst_list rhs alg)) /\
  (forall i, (forall v, nth_error sp i = Some v -> ~ In v (map fst eqs)) -> nth_error out i = nth_error res i).
Proof using.
  induction eqs as [|[v rhs] eqs IH]; simpl; intros res out N E.
  - injection E as <-. split; [ reflexivity | ]. split; [ intros v rhs [] | auto ].
  - destruct (index v sp) as [i|] eqn:Ei; [ | discriminate ]. destruct (Nat.ltb_spec i (length res)) as [Li|]; [ | discriminate ].
    inversion N as [|? ? N1 N2]; subst. destruct (IH _ _ N2 E) as (H1 & H2 & H3). rewrite lset_length in H1.
    pose proof (index_nth _ _ _ Ei) as Hi. split; [ exact H1 | ]. split.
    + intros v' rhs' [Q|Q]; [ | auto ]. injection Q as <- <-. exists i. split; [ exact Hi | ].
      rewrite H3; [ now apply lset_same | ]. intros w Hw. congruence.
    + intros j Hj. rewrite H3; [ | intros w Hw Q; eapply Hj; eauto ]. apply lset_other. intros ->. apply (Hj v Hi). auto.
Qed.
Lemma set_results_some sp (alg eqs : assignments) : forall res, (forall v, In v (map fst eqs) -> In v sp) -> length sp <= length res ->
  exists out, set_results sp alg eqs res = Some out.
Proof using.
  induction eqs as [|[v rhs] eqs IH]; simpl; intros res H L; [ eauto | ].
  destruct (index_some v sp) as (i & -> & Hi); [ auto | ]. destruct (Nat.ltb_spec i (length res)); [ | lia ].
  apply IH; [ auto | rewrite lset_length; exact L ].
Qed.
Lemma set_results_all sp (alg eqs : assignments) res out (P : expr -> Prop) : set_results sp alg eqs res = Some out ->
  (forall v rhs, In (v, rhs) eqs -> P (subst_list rhs alg)) -> (forall e, In e res -> P e) -> forall e, In e out -> P e.
Proof using.
  revert res. induction eqs as [|[v rhs] eqs IH]; simpl; intros res E H1 H2 e He.
  - injection E as <-. auto.
  - destruct (index v sp) as [i|]; [ | discriminate ]. destruct (Nat.ltb i (length res)); [ | discriminate ].
    eapply IH; [ exact E | eauto | | exact He ]. intros e' He'. apply In_nth_error in He' as (j & Hj).
    destruct (Nat.eq_dec i j) as [->|N].
    + assert (j < length res) by (rewrite <- (lset_length j (subst_list rhs alg) res); apply nth_error_Some; congruence).
      rewrite lset_same in Hj by assumption. injection Hj as <-. eauto.
    + rewrite lset_other in Hj by assumption. apply H2. eapply nth_error_In; eauto.
Qed.

Lemma make_function_spec sp (es : list expr) f : make_function sp es = Some f -> NoDup sp /\ f = mkFn sp es /\ forall e, In e es -> incl (arguments e) sp.
Proof using.
  unfold make_function. destruct (unique sp) eqn:U; [ | discriminate ]. destruct (forallb _ es) eqn:F; [ | discriminate ]. simpl.
  intros H. injection H as <-. split; [ now apply unique_nodup | ]. split; [ reflexivity | ]. intros e He. rewrite forallb_forall in F.
  apply subset_incl. auto.
Qed.
Lemma make_function_some sp (es : list expr) : NoDup sp -> (forall e, In e es -> incl (arguments e) sp) -> make_function sp es = Some (mkFn sp es).
Proof using.
  intros N H. unfold make_function. apply unique_nodup in N. rewrite N. simpl.
  rewrite (proj2 (forallb_forall _ es)); [ reflexivity | ]. intros e He. apply subset_incl. auto.
Qed.
Lemma component_gives sp (es : list expr) f tsp rho v e y i : make_function sp es = Some f -> nth_error tsp i = Some v -> nth_error es i = Some e ->
  eval val rho e = Some y -> gives val f tsp rho v y.
Proof using.
  intros M Hv He E. apply make_function_spec in M as (_ & -> & A). exists i, e. split; [ exact Hv | ]. split; [ exact He | ].
  intros sigma G. simpl in G. rewrite <- E. apply eval_ext. intros w Hw. apply G. apply (A e); [ eapply nth_error_In; eauto | exact Hw ].
Qed.
Lemma results_give sp tsp alg eqs n es f rho : NoDup (map fst eqs) ->
  set_results tsp alg eqs (repeat (num BinNums.Z0) n) = Some es -> make_function sp es = Some f -> solves val rho alg ->
  forall v rhs y, In (v, rhs) eqs -> eval val rho rhs = Some y -> gives val f tsp rho v y.
Proof using CS.
  intros N E M S v rhs y H Ey. apply set_results_spec in E as (_ & E & _); [ | exact N ]. destruct (E v rhs H) as (i & Hi & He).
  eapply component_gives; eauto. now apply subst_list_solved.
Qed.

(** Substitution removes all auxiliary variables when later equations do not bring back those already replaced. *)
Definition backward (l : assignments) : Prop := forall p v s q, l = p ++ (v, s) :: q -> forall w, In w (arguments s) -> w <> v /\ ~ In w (map fst p).
Lemma backward_tail x l : backward (x :: l) -> backward l.
Proof using.
  intros B p v s q -> w Hw. destruct (B (x :: p) v s q eq_refl w Hw) as [B1 B2]. split; [ exact B1 | ]. intros H. apply B2. right. exact H.
Qed.
Lemma subst_list_arguments l : forall e, backward l -> forall w, In w (arguments (subst_list e l)) ->
  ~ In w (map fst l) /\ (In w (arguments e) \/ exists v s, In (v, s) l /\ In w (arguments s)).
Proof using val.
  induction l as [|[v s] l IH]; simpl; intros e B w Hw; [ auto | ].
  destruct (IH _ (backward_tail _ _ B) w Hw) as [N H].
  assert (NV : w <> v).
  { destruct H as [H|(v' & s' & H1 & H2)].
    - apply (subst_arguments val) in H as [[_ H]|H]; [ exact H | ]. apply (B [] v s l eq_refl w H).
    - apply in_split in H1 as (p & q & ->). destruct (B ((v, s) :: p) v' s' q eq_refl w H2) as [_ Q]. simpl in Q. intuition. }
  split; [ intuition | ]. destruct H as [H|(v' & s' & H1 & H2)]; [ | right; exists v', s'; auto ].
  apply (subst_arguments val) in H as [[H _]|H]; [ auto | right; exists v, s; auto ].
Qed.
Lemma reverse_backward l : NoDup (map fst l) -> reverse_ordered l -> backward l.
Proof using.
  intros N O p v s q E w Hw. destruct (in_dec Nat.eq_dec w (map fst l)) as [H|H].
  - pose proof (O p v s q E w Hw H) as Hq. subst l. rewrite map_app in N. simpl in N. apply NoDup_remove in N as [N1 N2]. rewrite in_app_iff in N2.
    split; [ intros ->; auto | ]. intros Hp. clear - N1 Hp Hq. induction (map fst p) as [|y l IH]; simpl in *; [ tauto | ].
    inversion N1 as [|? ? M1 M2]; subst. destruct Hp as [->|Hp]; [ apply M1; apply in_or_app; auto | auto ].
  - subst l. rewrite map_app, in_app_iff in H. simpl in H. split; [ intros ->; apply H; auto | intros Q; apply H; auto ].
Qed.
Lemma subst_closed (sp : list nat) l e : backward l -> incl (arguments e) (sp ++ map fst l) ->
  (forall v s, In (v, s) l -> incl (arguments s) (sp ++ map fst l)) -> incl (arguments (subst_list e l)) sp.
Proof using val.
  intros B He Hl w Hw. destruct (subst_list_arguments l e B w Hw) as [N H].
  assert (G : In w (sp ++ map fst l)) by (destruct H as [H|(v & s & H1 & H2)]; [ auto | eapply Hl; eauto ]).
  apply in_app_or in G. tauto.
Qed.
End SOLVE.
End SORT.
