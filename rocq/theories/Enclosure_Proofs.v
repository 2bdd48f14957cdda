(** Proofs about enclosures. *)
From Coq Require Import ZArith NArith Bool List Reals Lra Lia.
From Flocq Require Import Core IEEE754.BinarySingleNaN.
From Verif Require Import Logical_Model Float_Model Float_Spec Float_Proofs Bounds_Model Bounds_Spec Bounds_Proofs Box_Float_Model.
From Verif Require Import ConstraintSolver_Model ConstraintSolver_Spec ConstraintSolver_Proofs Bounder_Model Bounder_Spec Bounder_Proofs ErrBound_Proofs.
From Verif Require Import LRU_Model Poly_Model Taylor_Model Enclosure_Model Enclosure_Spec.
Import ListNotations.
Local Open Scope R_scope.

Section Proofs.
Context {prec emax : Z} {Hprec : Prec_gt_0 prec} {Hemax : Prec_lt_emax prec emax}.
Local Notation fl := (binary_float prec emax).
Local Notation bnd := (bounds prec emax).
Local Notation cbox := (list bnd).
Context {P F : Type}.
Local Notation encl := (@enclosure prec emax P F).

Lemma box_app (B C : cbox) x y : in_cbox B x -> in_cbox C y -> in_cbox (B ++ C) (x ++ y).
Proof. apply Forall2_app. Qed.
Lemma box_app_inv (B C : cbox) x : in_cbox (B ++ C) x -> exists y z, x = y ++ z /\ in_cbox B y /\ in_cbox C z.
Proof. intros H. apply Forall2_app_inv_l in H. destruct H as (y & z & Hy & Hz & ->). eauto. Qed.
Lemma box_length (B : cbox) x : in_cbox B x -> length x = length B.
Proof. induction 1; cbn; auto. Qed.
Lemma Forall2_len {A B} (R : A -> B -> Prop) l m : Forall2 R l m -> length l = length m.
Proof. induction 1; cbn; auto. Qed.
Lemma nonpos_iff v : contains (@nonpositive prec emax) v <-> v <= 0.
Proof. unfold contains, nonpositive. cbn. split; [tauto|]. intros H; split; auto. Qed.
Lemma nonneg_iff v : contains (@nonnegative prec emax) v <-> 0 <= v.
Proof. unfold contains, nonnegative. cbn. split; [tauto|]. intros H; split; auto. Qed.
Lemma zero_iff v : contains (b_of (@fzero prec emax)) v <-> v = 0.
Proof. unfold contains, b_of. cbn. split; [lra|intros ->; lra]. Qed.
Lemma step_iff (h : fl) r : is_finite h = true -> contains (mkB fzero h) r <-> 0 <= r <= B2R h.
Proof.
  intros Fh. unfold contains. cbn [b_l b_u]. split.
  - intros [L U]. split; [exact L|]. apply above_finite in U; auto.
  - intros [L U]. split; [exact L|]. apply above_finite; auto.
Qed.

Section Sound.
Context (pval : P -> list R -> R -> Prop) (den : F -> list R -> R -> Prop) (ops : @patch_operations prec emax P F).
Context (contract : list (P * bnd) -> cbox -> cbox).
Context (S : sound_ops pval den ops) (C : sound_contractor pval contract).
Local Notation kept := (@kept_at prec emax P F pval).
Local Notation vals := (values pval).

Lemma vals_embed ps I s s' x : vals ps s x -> in_cbox I s' -> vals (map (fun p => p_embed ops p I) ps) (s ++ s') x.
Proof. intros H HI. induction H; cbn; constructor; auto. apply (so_embed _ _ _ S); auto. Qed.
Lemma vals_front D ps s s' x : vals ps s' x -> in_cbox D s -> vals (map (p_embed_front ops D) ps) (s ++ s') x.
Proof. intros H HI. induction H; cbn; constructor; auto. apply (so_embed_front _ _ _ S); auto. Qed.
Lemma vals_restrict D ps s x : vals ps s x -> in_cbox D s -> vals (map (fun p => p_restrict ops p D) ps) s x.
Proof. intros H HI. induction H; cbn; constructor; auto. apply (so_restrict _ _ _ S); auto. Qed.
Lemma sat_map (g : P -> P) cs s s' : (forall p v, pval p s v -> pval (g p) s' v) -> satisfied pval cs s ->
  satisfied pval (map (fun c : P * bnd => (g (fst c), snd c)) cs) s'.
Proof. intros G H. unfold satisfied in *. induction H as [|c cs (v & A & B)]; cbn; constructor; eauto. Qed.
Lemma vals_compose fs ps s x y : vals ps s x -> images den fs x y -> vals (compose_all ops fs ps) s y.
Proof. intros H I. unfold compose_all. induction I; cbn; constructor; auto. eapply (so_compose _ _ _ S); eauto. Qed.
Lemma vals_join ps s x p v : vals ps s x -> pval p s v -> vals (ps ++ [p]) s (x ++ [v]).
Proof. intros H V. apply Forall2_app; [exact H|]. constructor; [exact V|constructor]. Qed.

Lemma reduce_kept E s x t d : kept E s x t d -> kept (reduce contract E) s x t d.
Proof.
  intros [(HD & HS & HT & HW & HC) HR]. split; [repeat split; auto|]. cbn [reduce e_reduced].
  pose proof (C _ _ _ HR HC) as HN. revert HD HN. generalize (e_domain E) as D. generalize (contract (e_constraints E) (e_reduced E)) as N. clear.
  intros N D HD. revert N. induction HD; intros N HN; inversion_clear HN; cbn; constructor; auto.
  destruct (is_nan (b_l x0) || is_nan (b_u x0)); auto. apply IHHD; auto.
Qed.
Lemma new_constraint_kept E s x t d p c v : kept E s x t d -> pval p s v -> contains c v -> kept (new_constraint p c E) s x t d.
Proof.
  intros [(HD & HS & HT & HW & HC) HR] V B. split; auto. repeat split; auto. cbn. apply Forall_app. split; auto. constructor; eauto.
Qed.
Lemma evolved_kept E s x t d st ti dw x' t' d' : kept E s x t d -> vals st s x' -> pval ti s t' -> pval dw s d' ->
  kept (evolved st ti dw E) s x' t' d'.
Proof. intros [(HD & HS & HT & HW & HC) HR] A B D. split; auto. repeat split; auto. Qed.
Lemma new_variable_kept E I k s x t d r : kept E s x t d -> contains I r -> kept (new_variable ops I k E) (s ++ [r]) (x ++ [r]) t d.
Proof.
  intros [(HD & HS & HT & HW & HC) HR] HI. assert (in_cbox [I] [r]) as HI1 by (constructor; auto; constructor).
  split; [|cbn; apply box_app; auto]. repeat split; cbn.
  - apply box_app; auto.
  - apply Forall2_app; [apply vals_embed; auto|]. constructor; [|constructor]. apply (so_embed_front _ _ _ S); auto.
    apply (so_coordinate _ _ _ S [I] 0 [r]); auto.
  - apply (so_embed _ _ _ S); auto.
  - apply (so_embed _ _ _ S); auto.
  - eapply (sat_map (fun p => p_embed ops p [I])); eauto. intros. apply (so_embed _ _ _ S); auto.
Qed.
Lemma apply_map_kept E f s x t d x' : kept E s x t d -> images den f x x' -> kept (apply_map ops f E) s x' t 0.
Proof.
  intros [(HD & HS & HT & HW & HC) HR] I. split; auto. repeat split; cbn; auto.
  - eapply vals_compose; eauto.
  - apply (so_constant _ _ _ S); auto.
Qed.
Lemma parameter_reach_kept E phi lo h el s x t d r e x' : is_finite h = true -> kept E s x t d -> 0 <= r <= B2R h ->
  pval el s e -> r <= e -> images den phi (x ++ [r]) x' -> kept (parameter_reach ops phi lo h el E) (s ++ [r]) x' (t + r) r.
Proof.
  intros Fh K Hr He Le I. pose proof K as [(HD & _) _]. assert (contains (mkB fzero h) r) as HI by (apply (proj2 (step_iff _ _ Fh)); auto).
  pose proof (apply_map_kept _ phi _ _ _ _ x' (new_variable_kept E _ TEMPORAL _ _ _ _ _ K HI) I) as K1.
  unfold parameter_reach. set (E1 := apply_map ops phi (new_variable ops (mkB fzero h) TEMPORAL E)) in *.
  assert (pval (p_coordinate ops (e_domain E1) (length (e_domain E1) - 1)) (s ++ [r]) r) as HTS.
  { assert (length (e_domain E1) = Datatypes.S (length s)) as L by (unfold E1; cbn; rewrite app_length; cbn; rewrite (box_length _ _ HD); lia).
    rewrite L. replace (Datatypes.S (length s) - 1)%nat with (length s) by lia.
    replace r with (nth (length s) (s ++ [r]) 0) at 2 by (rewrite app_nth2, Nat.sub_diag; auto).
    apply (so_coordinate _ _ _ S); [apply K1|lia]. }
  assert (kept (evolved (e_state E1) (p_add ops (e_time E1) (p_coordinate ops (e_domain E1) (length (e_domain E1) - 1)))
     (p_add ops (e_dwell E1) (p_coordinate ops (e_domain E1) (length (e_domain E1) - 1))) E1) (s ++ [r]) x' (t + r) r) as K2.
  { eapply (evolved_kept _ _ _ _ _ _ _ _ _ _ _ K1); [apply K1| |].
    - apply (so_add _ _ _ S); auto. apply K1.
    - replace r with (0 + r) at 2 by ring. apply (so_add _ _ _ S); auto. apply K1. }
  assert (contains (@nonpositive prec emax) (r - e)) as HN by (destruct (nonpos_iff (r - e)) as [_ Q]; apply Q; lra).
  destruct (flt_lt lo h); [|exact K2]. refine (new_constraint_kept _ _ _ _ _ _ _ (r - e) K2 _ HN).
  apply (so_sub _ _ _ S); auto. apply (so_embed _ _ _ S); [exact He|]. constructor; [exact HI|constructor].
Qed.
Lemma spoil_unused E s x t d : kept E s x t d ->
  existsb (fun c => ivl_disjoint (p_range ops (fst c) (e_reduced E)) (snd c)) (e_constraints E) = false.
Proof.
  intros [(_ & _ & _ & _ & HC) HR]. unfold satisfied in HC. induction HC as [|c cs (v & V & B) HC IH]; cbn; auto. rewrite IH, orb_false_r.
  pose proof (so_range _ _ _ S _ _ _ _ HR V) as [RL RU]. destruct B as [BL BU]. unfold ivl_disjoint.
  destruct (flt_lt (b_u (snd c)) (b_l (p_range ops (fst c) (e_reduced E)))) eqn:X; [pose proof (lt_true _ _ _ _ X BU RL); lra|].
  destruct (flt_lt (b_u (p_range ops (fst c) (e_reduced E))) (b_l (snd c))) eqn:Y; [pose proof (lt_true _ _ _ _ Y RU BL); lra|]. auto.
Qed.

Lemma is_empty_kept E s x t d : kept E s x t d -> fst (is_empty ops contract E) <> TRUE /\ kept (snd (is_empty ops contract E)) s x t d.
Proof.
  intros K. unfold is_empty. rewrite (in_box_nonempty _ _ (proj2 K)). destruct (e_constraints E) eqn:EC.
  { cbn [fst snd]. rewrite (in_box_nonempty _ _ (proj1 (proj1 K))). split; [discriminate|auto]. }
  assert (kept (if e_fully E then E else reduce contract (reduce contract (reduce contract E))) s x t d) as K1.
  { destruct (e_fully E); auto. repeat apply reduce_kept. auto. }
  set (E1 := if e_fully E then E else _) in *. rewrite (spoil_unused _ _ _ _ _ K1), (in_box_nonempty _ _ (proj2 K1)). split; [discriminate|auto].
Qed.

Definition code_dwell (d r : R) : R := r.
Lemma run_kept o E s x t d s' x' t' d' : op_valid o -> kept E s x t d -> after den code_dwell o s x t d s' x' t' d' ->
  kept (run ops contract o E) s' x' t' d'.
Proof.
  intros V K A. pose proof K as [(HD & HS & HT & HW & HC) HR]. destruct o; cbn [run after op_valid] in *;
    try (destruct A as ((-> & -> & -> & ->) & v & Hv & Bv); eapply new_constraint_kept; [exact K| |];
         [first [eapply (so_compose _ _ _ S); [first [exact HS|apply vals_join; [exact HS|exact HT]]|exact Hv] | apply (so_create _ _ _ S); [exact HD|exact Hv]]
         |first [exact Bv | destruct (nonpos_iff v) as [_ Q]; exact (Q Bv) | destruct (nonneg_iff v) as [_ Q]; exact (Q Bv) | destruct (zero_iff v) as [_ Q]; exact (Q Bv)]]).
  - destruct A as (-> & I & -> & ->). eapply apply_map_kept; eauto.
  - destruct A as (-> & I & -> & ->). destruct (apply_map_kept _ _ _ _ _ _ _ K I) as [(Q1 & Q2 & Q3 & Q4 & Q5) Q6]. split; auto. repeat split; auto.
  - destruct A as (-> & I & -> & ->). pose proof (apply_map_kept _ _ _ _ _ _ _ K I) as K1. unfold discrete_step.
    apply (evolved_kept _ _ _ _ _ _ _ _ _ _ _ K1); try apply K1. apply (so_shift _ _ _ S). apply K1.
  - destruct A as (-> & I & -> & ->). unfold fixed_evolve. apply (evolved_kept _ _ _ _ _ _ _ _ _ _ _ K); [|apply (so_shift _ _ _ S); auto..].
    destruct is_patch.
    + eapply vals_compose; eauto. clear - S I. unfold images in *. induction I; cbn; constructor; auto. apply (so_partial _ _ _ S). auto.
    + eapply vals_compose; eauto. apply vals_join; auto. apply (so_constant _ _ _ S). auto.
  - destruct A as (-> & e & He & I & -> & ->). assert (pval (p_compose ops el (e_state E)) s e) as V1 by (eapply (so_compose _ _ _ S); eauto).
    unfold space_evolve. apply (evolved_kept _ _ _ _ _ _ _ _ _ _ _ K); [eapply vals_compose; [apply vals_join|]; eauto|apply (so_add _ _ _ S); auto..].
  - destruct A as (-> & e & He & I & -> & ->).
    assert (pval (p_compose ops el (e_state E ++ [e_time E])) s e) as V1 by (eapply (so_compose _ _ _ S); [apply vals_join|]; eauto).
    unfold spacetime_evolve. apply (evolved_kept _ _ _ _ _ _ _ _ _ _ _ K); [eapply vals_compose; [apply vals_join|]; eauto|apply (so_add _ _ _ S); auto..].
  - destruct A as (-> & e & He & I & -> & ->). assert (pval (p_create ops (e_domain E) el) s e) as V1 by (apply (so_create _ _ _ S); auto).
    unfold parameter_evolve. apply (evolved_kept _ _ _ _ _ _ _ _ _ _ _ K); [eapply vals_compose; [apply vals_join|]; eauto|apply (so_add _ _ _ S); auto..].
  - destruct A as (-> & w & Hw & I & -> & ->). assert (pval (p_create ops (e_domain E) om) s w) as V1 by (apply (so_create _ _ _ S); auto).
    unfold finishing_evolve. assert (pval (p_sub ops (p_create ops (e_domain E) om) (e_time E)) s (w - t)) as V2 by (apply (so_sub _ _ _ S); auto).
    apply (evolved_kept _ _ _ _ _ _ _ _ _ _ _ K); [eapply vals_compose; [apply vals_join|]; eauto|auto|apply (so_add _ _ _ S); auto].
  - destruct A as (r & -> & Hr & I & -> & ->). destruct V as [Fh _]. unfold full_reach, code_dwell.
    apply (parameter_reach_kept _ _ _ _ _ _ _ _ _ _ (B2R h) _ Fh K); auto; [apply (so_constant _ _ _ S); auto|apply Hr].
  - destruct A as (r & e & -> & Hr & He & Le & I & -> & ->). destruct V as [Fh _]. unfold spacetime_reach, code_dwell.
    apply (parameter_reach_kept _ _ _ _ _ _ _ _ _ _ e _ Fh K); auto. eapply (so_compose _ _ _ S); [apply vals_join|]; eauto.
  - destruct A as (r & e & -> & Hr & He & Le & I & -> & ->). destruct V as [Fh _]. unfold code_dwell.
    apply (parameter_reach_kept _ _ _ _ _ _ _ _ _ _ e _ Fh K); auto. apply (so_create _ _ _ S); auto.
  - destruct A as (-> & -> & -> & ->). split; auto. repeat split; cbn; auto; apply (so_constant _ _ _ S); auto.
  - destruct A as (-> & -> & -> & ->). apply reduce_kept; auto.
  - destruct A as (-> & -> & -> & ->). apply is_empty_kept. auto.
Qed.
Lemma run_all_kept : forall (os : list (@op prec emax F)) E s x t d s' x' t' d', List.Forall op_valid os -> kept E s x t d -> history den code_dwell os s x t d s' x' t' d' ->
  kept (run_all ops contract os E) s' x' t' d'.
Proof.
  induction os as [|o os IH]; intros E s x t d s' x' t' d' V K H; cbn in *.
  - destruct H as (-> & -> & -> & ->). auto.
  - inversion_clear V. destruct H as (s1 & x1 & t1 & d1 & A & H). eapply IH; eauto. eapply run_kept; eauto.
Qed.
(** The dwell time does not influence the rest. *)
Lemma history_dwell r1 r2 : forall (os : list (@op prec emax F)) s x t d1 d2 s' x' t' d', history den r1 os s x t d1 s' x' t' d' ->
  exists d'', history den r2 os s x t d2 s' x' t' d''.
Proof.
  induction os as [|o os IH]; intros s x t d1 d2 s' x' t' d' H; cbn in *.
  - destruct H as (-> & -> & -> & ->). eauto.
  - destruct H as (s1 & x1 & t1 & e1 & A & H).
    assert (exists e2, after den r2 o s x t d2 s1 x1 t1 e2) as (e2 & A2).
    { destruct o; cbn [after] in *;
        repeat match goal with H : _ /\ _ |- _ => destruct H | H : exists _, _ |- _ => destruct H end; subst;
        eexists; repeat match goal with |- _ /\ _ => split | |- exists _, _ => eexists end; eauto; lra. }
    destruct (IH _ _ _ _ e2 _ _ _ _ H) as (d'' & H'). exists d'', s1, x1, t1, e2. auto.
Qed.
Lemma history_same r1 r2 : forall (os : list (@op prec emax F)) s x t d s' x' t' d', forallb (fun o => negb (is_reach o)) os = true -> history den r1 os s x t d s' x' t' d' ->
  history den r2 os s x t d s' x' t' d'.
Proof.
  induction os as [|o os IH]; intros s x t d s' x' t' d' N H; cbn in *; auto.
  apply andb_true_iff in N. destruct N as [N1 N2]. destruct H as (s1 & x1 & t1 & e1 & A & H). exists s1, x1, t1, e1. split; [|eauto].
  destruct o; cbn in *; auto; discriminate.
Qed.
Lemma of_box_kept D s : in_cbox D s -> kept (of_box ops D) s s 0 0.
Proof.
  intros H. split; [|exact H]. repeat split; cbn; auto; try (apply (so_constant _ _ _ S); auto); [|constructor].
  assert (forall l n, (forall i, (i < length l)%nat -> pval (p_coordinate ops D (n + i)) s (nth i l 0)) -> vals (map (p_coordinate ops D) (seq n (length l))) s l) as G.
  { induction l as [|a l IH]; intros n Q; cbn; constructor.
    - specialize (Q 0%nat). rewrite Nat.add_0_r in Q. apply Q. cbn. lia.
    - apply IH. intros i Hi. replace (Datatypes.S n + i)%nat with (n + Datatypes.S i)%nat by lia. apply (Q (Datatypes.S i)). cbn. lia. }
  rewrite <- (box_length _ _ H). apply G. intros i Hi. apply (so_coordinate _ _ _ S); auto. rewrite <- (box_length _ _ H). auto.
Qed.

(** ** Tests *)
Lemma range_box ps B s x : vals ps s x -> in_cbox B s -> in_cbox (map (fun p => p_range ops p B) ps) x.
Proof. intros H HB. induction H; cbn; constructor; auto. eapply (so_range _ _ _ S); eauto. Qed.
Lemma inside_kept E B s x t d : length B = length (e_state E) -> inside ops E B = true -> kept E s x t d -> in_cbox B x.
Proof.
  intros L I [(HD & HS & _) HR]. unfold inside, image_inside in I. eapply box_refines_subset; [|exact I|].
  - rewrite map_length. auto.
  - eapply range_box; eauto.
Qed.
Lemma separated_kept feasible E B s x t d : sound_feasible pval feasible -> separated contract feasible E B = TRUE -> kept E s x t d -> ~ in_cbox B x.
Proof.
  intros SF T K HB. pose proof K as [(HD & HS & HT & HW & HC) HR]. unfold separated in T. pose proof (C _ _ _ HR HC) as HN.
  rewrite (in_box_nonempty _ _ HN) in T. destruct (feasible _ _) eqn:Fe in T; try discriminate T. eapply (SF _ _ s Fe); auto.
  apply Forall_app. split; auto. clear - HB HS. revert x HB HS. generalize (e_state E). intros l. revert B.
  induction l as [|p l IH]; intros B x HB HS.
  { destruct B; constructor. }
  inversion HS as [|? y ? x0 V HS0]; subst. inversion HB as [|b ? B0 ? Hb HB0]; subst. cbn. constructor; [|constructor].
  - exists y. split; auto. split; [apply Hb|reflexivity].
  - exists y. split; auto. split; [reflexivity|apply Hb].
  - eapply IH; eauto.
Qed.
Lemma satisfies_ok g codomain f x v : encloses f g -> in_cbox codomain x -> f x v ->
  (satisfies g codomain = TRUE -> 0 < v) /\ (@satisfies prec emax g codomain = FALSE -> v < 0).
Proof.
  intros G HB V. destruct (G _ _ _ HB V) as [L U]. unfold satisfies. assert (below (@fzero prec emax) 0) as Z1 by (cbn; lra). assert (above (@fzero prec emax) 0) as Z2 by (cbn; lra).
  destruct (flt_lt (b_u (g codomain)) fzero) eqn:X; [split; [discriminate|]; intros _; exact (lt_true _ _ _ _ X U Z1)|].
  destruct (flt_lt fzero (b_l (g codomain))) eqn:Y; split; try discriminate. intros _. exact (lt_true _ _ _ _ Y Z2 L).
Qed.
Lemma satisfies_constraint_kept E g c s x t d v : satisfies_constraint ops contract E g c = FALSE -> kept E s x t d -> den g x v -> ~ contains c v.
Proof.
  intros Q K V B. unfold satisfies_constraint in Q.
  assert (kept (new_state_constraint ops g c E) s x t d) as K1.
  { eapply new_constraint_kept; eauto. eapply (so_compose _ _ _ S); [apply K|auto]. }
  apply is_empty_kept in K1. destruct K1 as [N _]. destruct (fst _); congruence.
Qed.

(** ** Parts and products *)
Lemma of_patches_reduced junk D f s : in_cbox D s -> in_cbox (e_reduced (of_patches ops contract junk D f)) s.
Proof.
  intros H. assert (in_cbox (contract [] D) s) as HN by (apply C; auto; constructor). cbn.
  revert HN. generalize (contract [] D) as N. induction H; intros N HN; inversion_clear HN; cbn; constructor; auto.
  - destruct (is_nan (b_l x0) || is_nan (b_u x0)); auto.
  - apply IHForall2. auto.
Qed.
Lemma half_kept junk D E s x t d : in_cbox D s -> point_at pval E s x t d -> kept (half_of ops contract junk D E) s x t d.
Proof.
  intros HD (_ & HS & HT & HW & HC). split; [|apply of_patches_reduced; auto]. repeat split; cbn; auto.
  - apply vals_restrict; auto.
  - apply (so_restrict _ _ _ S); auto.
  - apply (so_restrict _ _ _ S); auto.
  - eapply (sat_map (fun p => p_restrict ops p D)); eauto. intros. apply (so_restrict _ _ _ S); auto.
Qed.
Lemma restrict_kept D E s x t d : in_cbox D s -> kept E s x t d -> kept (restrict ops contract D E) s x t d.
Proof.
  intros HD [(HD0 & HS & HT & HW & HC) HR]. unfold restrict. apply reduce_kept. split.
  - repeat split; cbn; auto.
    + apply vals_restrict; auto.
    + apply (so_restrict _ _ _ S); auto.
    + apply (so_restrict _ _ _ S); auto.
    + eapply (sat_map (fun p => p_restrict ops p D)); eauto. intros. apply (so_restrict _ _ _ S); auto.
  - cbn. clear - HD HR. revert D HD. induction HR; intros D HD; inversion_clear HD; cbn; constructor; auto. 
    + apply refinement_contains; auto.
    + apply IHHR; auto.
Qed.
Lemma product_box_kept junk E B s x t d y : kept E s x t d -> in_cbox B y -> kept (product_box ops contract junk E B) (s ++ y) (x ++ y) t d.
Proof.
  intros [(HD & HS & HT & HW & HC) HR] HB. split; [|apply of_patches_reduced; apply box_app; auto]. repeat split; cbn.
  - apply box_app; auto.
  - apply Forall2_app; [apply vals_embed; auto|].
    pose proof (proj1 (of_box_kept B y HB)) as (_ & V & _). cbn in V. rewrite <- map_map with (f := p_coordinate ops B). apply vals_front; auto.
  - apply (so_embed _ _ _ S); auto.
  - apply (so_embed _ _ _ S); auto.
  - eapply (sat_map (fun p => p_embed ops p B)); eauto. intros. apply (so_embed _ _ _ S); auto.
Qed.
Lemma product_kept junk E G s x t d s2 x2 t2 d2 : kept E s x t d -> kept G s2 x2 t2 d2 -> kept (product ops contract junk E G) (s ++ s2) (x ++ x2) t d.
Proof.
  intros [(HD & HS & HT & HW & HC) HR] [(HD' & HS' & HT' & HW' & HC') HR']. split; [|apply of_patches_reduced; apply box_app; auto]. repeat split; cbn.
  - apply box_app; auto.
  - apply Forall2_app; [apply vals_embed; auto|apply vals_front; auto].
  - apply (so_embed _ _ _ S); auto.
  - apply (so_embed _ _ _ S); auto.
  - apply Forall_app. split; [eapply (sat_map (fun p => p_embed ops p (e_domain G))); eauto; intros; apply (so_embed _ _ _ S); auto|].
    eapply (sat_map (p_embed_front ops (e_domain E))); eauto. intros; apply (so_embed_front _ _ _ S); auto.
Qed.

(** ** uniform_error_recondition *)
Section Uniform.
Context (maximum : fl) (D U : cbox) (s : list R).
Context (HD : in_cbox D s) (HU : U = repeat unit_interval (length U)).
Lemma spread_kept : forall st x k,
  Forall2 (fun p v => pval p s v) st x ->
  (forall p, In p st -> large ops maximum p = true -> is_finite (p_error ops (p_embed ops p U)) = true) ->
  exists zs, length zs = length (filter (large ops maximum) st) /\ List.Forall (fun z => -1 <= z <= 1) zs /\
    forall pre post, in_cbox U (pre ++ zs ++ post) -> (length s + length pre = k)%nat ->
      vals (spread ops maximum (D ++ U) k (map (fun p => (p, p_embed ops p U)) st)) (s ++ pre ++ zs ++ post) x.
Proof.
  intros st x k H. revert k. induction H as [|p v st x V H IH]; intros k FE.
  - exists []. split; [auto|]. split; [constructor|]. intros. constructor.
  - cbn [map spread filter]. destruct (large ops maximum p) eqn:LP; cbn [andb].
    + pose proof (FE p (or_introl eq_refl) LP) as Fp. destruct (so_error _ _ _ S _ _ _ _ V Fp) as (e & Be & He).
      assert (forall q, In q st -> large ops maximum q = true -> is_finite (p_error ops (p_embed ops q U)) = true) as FE' by (intros; apply FE; cbn; auto).
      destruct (large ops maximum (p_embed ops p U)) eqn:LE.
      * destruct (IH (Datatypes.S k) FE') as (zs & L & B & Q). set (err := B2R (p_error ops (p_embed ops p U))) in *.
        assert (exists z, -1 <= z <= 1 /\ z * err = e) as (z & Bz & Ez).
        { destruct (Req_dec err 0) as [Z|Z].
          - exists 0. split; [lra|]. unfold Rabs in Be. destruct (Rcase_abs e); lra.
          - assert (0 < err) as P0 by (pose proof (Rabs_pos e); lra). exists (e / err). split; [|field; auto].
            assert (Rabs (e / err) <= 1) as A by (unfold Rdiv; rewrite Rabs_mult, Rabs_inv, (Rabs_right err) by lra; apply (Rmult_le_reg_r err); auto; field_simplify; lra).
            unfold Rabs in A. destruct (Rcase_abs (e / err)); lra. }
        exists (z :: zs). split; [cbn; congruence|]. split; [constructor; auto|]. intros pre post HB Hk. constructor.
        { replace v with ((v - e) + z * err) by lra. apply (so_add _ _ _ S); [apply He; auto|]. apply (so_scale _ _ _ S); auto.
          replace z with (nth k (s ++ pre ++ (z :: zs) ++ post) 0) at 2.
          - apply (so_coordinate _ _ _ S); [apply box_app; auto|]. rewrite app_length, <- (box_length _ _ HD). rewrite <- (box_length _ _ HB), !app_length. cbn. lia.
          - rewrite app_nth2 by lia. rewrite app_nth2 by lia. replace (k - length s - length pre)%nat with 0%nat by lia. auto. }
        { replace (pre ++ (z :: zs) ++ post) with ((pre ++ [z]) ++ zs ++ post) in * by (rewrite <- app_assoc; auto).
          apply Q; auto. rewrite app_length. cbn. lia. }
      * destruct (IH k FE') as (zs & L & B & Q). exists (zs ++ [0]). split; [rewrite app_length; cbn; lia|].
        split; [apply Forall_app; split; auto; constructor; [lra|constructor]|]. intros pre post HB Hk.
        rewrite <- (app_assoc zs) in *. constructor; [apply (so_embed _ _ _ S); auto|]. apply Q; auto.
    + destruct (IH k) as (zs & L & B & Q); [intros; apply FE; cbn; auto|]. exists zs. split; auto. split; auto. intros pre post HB Hk.
      constructor; [apply (so_embed _ _ _ S); auto|]. apply Q; auto.
Qed.
End Uniform.
Context (digits : (11 <= prec)%Z).
Lemma unit_contains v : contains (@unit_interval prec emax _ _) v <-> -1 <= v <= 1.
Proof.
  unfold contains, unit_interval. cbn [b_l b_u]. destruct (@fnat_exact prec emax _ _ digits 1) as [V1 F1]; [lia|]. cbn [INR] in V1.
  replace v with (- - v) at 1 by ring. rewrite below_fneg, !above_finite by auto. rewrite V1. lra.
Qed.
Lemma units_in zs n : length zs = n -> List.Forall (fun z => -1 <= z <= 1) zs -> in_cbox (repeat (@unit_interval prec emax _ _) n) zs.
Proof. intros <- H. induction H; cbn; constructor; auto. destruct (unit_contains x) as [_ Q]. auto. Qed.
Lemma uniform_kept maximum E s x t d : kept E s x t d ->
  (forall p, In p (e_state E) -> large ops maximum p = true ->
     is_finite (p_error ops (p_embed ops p (repeat unit_interval (length (filter (large ops maximum) (e_state E)))))) = true) ->
  exists z, kept (uniform_recondition ops maximum E) (s ++ z) x t d.
Proof.
  intros K FE. unfold uniform_recondition. destruct (length (filter (large ops maximum) (e_state E)) =? 0)%nat eqn:Z.
  { exists []. rewrite app_nil_r. auto. }
  pose proof K as [(HD & HS & HT & HW & HC) HR]. set (m := length (filter (large ops maximum) (e_state E))) in *.
  destruct (spread_kept maximum (e_domain E) (repeat unit_interval m) s HD (e_state E) x (length (e_domain E)) HS FE) as (zs & L & B & Q).
  exists zs. assert (in_cbox (repeat (@unit_interval prec emax _ _) m) zs) as HZ by (apply units_in; auto).
  specialize (Q [] []). rewrite app_nil_r in Q. cbn [app length] in Q.
  split; [|cbn; apply box_app; auto]. repeat split; cbn [e_domain e_state e_time e_dwell e_constraints].
  - apply box_app; auto.
  - apply Q; auto. rewrite (box_length _ _ HD). lia.
  - apply (so_embed _ _ _ S); auto.
  - apply (so_embed _ _ _ S); auto.
  - eapply (sat_map (fun p => p_embed ops p _)); eauto. intros. apply (so_embed _ _ _ S); auto.
Qed.

(** ** Splitting *)
Lemma split_kept j1 j2 k E s x t d : proper_box (e_domain E) -> (k < length (e_domain E))%nat -> point_at pval E s x t d ->
  kept (fst (split ops contract j1 j2 k E)) s x t d \/ kept (snd (split ops contract j1 j2 k E)) s x t d.
Proof.
  intros PB Hk Q. pose proof Q as (HD & _). unfold split, split_box. cbn [fst snd].
  assert (In (coord (e_domain E) k) (e_domain E)) as IN by (apply nth_In; auto).
  destruct (proj1 (Forall_forall _ _) PB _ IN) as [M LE]. destruct (@box_midpoint prec emax _ _ digits _ M LE) as (Fm & Lm & Um).
  destruct (in_coord _ _ _ HD Hk) as [L U]. destruct (Rle_dec (nth k s 0) (B2R (ivl_midpoint (coord (e_domain E) k)))) as [X|X].
  - left. apply half_kept; auto. apply in_set_at; auto. split; auto. apply above_finite; auto.
  - right. apply half_kept; auto. apply in_set_at; auto. split; auto. apply below_finite; auto. cbn [b_l]; lra.
Qed.

(** ** Real boxes *)
Lemma make_domain_near single q a b x : describes single q a b -> a <= x <= b ->
  is_finite (snd (make_domain single (ri_la q) (ri_ua q) (ri_lb q) (ri_ub q))) = true ->
  exists y, contains (fst (make_domain single (ri_la q) (ri_ua q) (ri_lb q) (ri_ub q))) y /\
    Rabs (x - y) <= B2R (snd (make_domain single (ri_la q) (ri_ua q) (ri_lb q) (ri_ub q))).
Proof.
  intros ([Ll Lu] & [Ul Uu] & Fl & Fu & LE) Hx. unfold make_domain. cbn [fst snd]. set (dl := single (ri_la q)) in *. set (du := single (ri_ua q)) in *.
  assert (above dl (B2R dl) /\ below dl (B2R dl)) as [Al Bl] by (split; [apply above_finite|apply below_finite]; auto; lra).
  assert (above du (B2R du) /\ below du (B2R du)) as [Au Bu] by (split; [apply above_finite|apply below_finite]; auto; lra).
  pose proof (fsub_up_above _ _ _ _ Uu Bu) as A1. pose proof (fsub_up_above _ _ _ _ Au Ul) as A2.
  pose proof (fsub_up_above _ _ _ _ Lu Bl) as A3. pose proof (fsub_up_above _ _ _ _ Al Ll) as A4.
  assert (forall f r, above (f : fl) r -> is_nan f = false) as NN by (intros f r H; destruct f; auto; destruct H).
  pose proof (max_above _ _ _ _ A1 A2) as A5. pose proof (max_above _ _ _ _ A3 A4) as A6. pose proof (max_above _ _ _ _ A5 A6) as A7.
  intros Fe. apply above_finite in A7; auto. set (e := B2R (fmax _ _)) in *.
  assert (B2R du - b <= e /\ b - B2R du <= e /\ a - B2R dl <= e /\ B2R dl - a <= e) as (E1 & E2 & E3 & E4).
  { revert A7. unfold Rmax. repeat destruct Rle_dec; intros; repeat split; lra. }
  destruct (Rle_dec x (B2R dl)) as [X|X]; [exists (B2R dl)|destruct (Rle_dec x (B2R du)) as [Y|Y]; [exists x|exists (B2R du)]];
    (split; [split; [apply below_finite|apply above_finite]; auto; cbn; lra|]); unfold Rabs; destruct Rcase_abs; lra.
Qed.
Lemma constraints_point cs : forall E s x t d, point_at pval E s x t d ->
  List.Forall (fun c => exists v, den (fst c) x v /\ contains (snd c) v) cs ->
  let E' := fold_left (fun E c => new_state_constraint ops (fst c) (snd c) E) cs E in e_domain E' = e_domain E /\ point_at pval E' s x t d.
Proof.
  induction cs as [|c cs IH]; intros E s x t d K H; cbn; auto. inversion_clear H. destruct H0 as (v & V & B).
  apply (IH (new_state_constraint ops (fst c) (snd c) E)); auto. destruct K as (HD & HS & HT & HW & HC). repeat split; auto. cbn.
  apply Forall_app. split; auto. constructor; [|constructor]. exists v. split; auto. eapply (so_compose _ _ _ S); eauto.
Qed.
Lemma real_set_kept single q cs ab x (SB : sound_blur pval ops) :
  Forall2 (fun r p => describes single r (fst p) (snd p)) q ab ->
  Forall2 (fun p v => fst p <= v <= snd p) ab x ->
  List.Forall (fun r => is_finite (snd (make_domain single (ri_la r) (ri_ua r) (ri_lb r) (ri_ub r))) = true) q ->
  List.Forall (fun c => exists v, den (fst c) x v /\ contains (snd c) v) cs ->
  exists s, kept (of_real_set ops single q cs) s x 0 0.
Proof.
  intros H1 H2 H3 H4. set (md := fun r : real_interval => make_domain single (ri_la r) (ri_ua r) (ri_lb r) (ri_ub r)).
  assert (exists s, in_cbox (map fst (map md q)) s /\ Forall2 (fun r p => is_finite (snd (md r)) = true /\ Rabs (fst p - snd p) <= B2R (snd (md r))) q (combine x s)) as (s & HD & HN).
  { clear H4. revert x H2 H3. induction H1 as [|r p q ab H H1 IH]; intros x H2 H3.
    - inversion H2. exists []. split; constructor.
    - inversion H2 as [|? v ? x0 Hv H2']; subst. inversion_clear H3 as [|? ? Fr H3']. destruct (IH _ H2' H3') as (s & A & B).
      destruct (make_domain_near _ _ _ _ _ H Hv Fr) as (z & Z1 & Z2). exists (z :: s). split; constructor; auto. }
  exists s. unfold of_real_set. fold md. set (D := map fst (map md q)) in *.
  assert (vals (map (fun ie => p_blur ops (p_coordinate ops D (fst ie)) (snd (snd ie))) (combine (seq 0 (length (map md q))) (map md q))) s x) as HS.
  { assert (length s = length q) as Ls by (rewrite (box_length _ _ HD); unfold D; now rewrite !map_length).
    assert (length x = length q) as Lx by (rewrite <- (Forall2_len _ _ _ H2), <- (Forall2_len _ _ _ H1); auto).
    assert (forall n q0 x0 s0, (forall i, (i < length s0)%nat -> pval (p_coordinate ops D (n + i)) s (nth i s0 0)) -> length x0 = length q0 -> length s0 = length q0 ->
      Forall2 (fun r p => is_finite (snd (md r)) = true /\ Rabs (fst p - snd p) <= B2R (snd (md r))) q0 (combine x0 s0) ->
      vals (map (fun ie => p_blur ops (p_coordinate ops D (fst ie)) (snd (snd ie))) (combine (seq n (length (map md q0))) (map md q0))) s x0) as G.
    { clear - SB. intros n q0. revert n. induction q0 as [|r q0 IH]; intros n x0 s0 Hc Lx Ls H; destruct x0 as [|v x0]; destruct s0 as [|w s0]; cbn in *; try discriminate; constructor.
      - inversion_clear H. cbn in *. destruct H0. eapply SB; [auto| |exact H0]. specialize (Hc 0%nat). rewrite Nat.add_0_r in Hc. apply Hc. lia.
      - inversion_clear H. apply (IH (Datatypes.S n) x0 s0); auto. intros i Hi. replace (Datatypes.S n + i)%nat with (n + Datatypes.S i)%nat by lia. apply (Hc (Datatypes.S i)). lia. }
    apply (G 0%nat q x s); auto. intros i Hi. apply (so_coordinate _ _ _ S); auto. rewrite <- (box_length _ _ HD). auto. }
  match type of HS with vals ?l _ _ => set (st := l) in * end.
  assert (point_at pval (mkE D ([] : list F) st (p_constant ops D 0) (p_constant ops D 0) [] [] true (repeat INITIAL (length D))) s x 0 0) as K0.
  { repeat split; cbn; auto; try (apply (so_constant _ _ _ S); auto). constructor. }
  destruct (constraints_point cs _ _ _ _ _ K0 H4) as [EQ (KD & KS & KT & KW & KC)]. split; [repeat split; auto|exact HD].
Qed.
End Sound.

(** ** Exact operations *)
Section Exact.
Context (ev : P -> list R -> R) (fn : F -> list R -> R) (ops : @patch_operations prec emax P F) (X : exact_ops ev fn ops).
Context (contract : list (P * bnd) -> cbox -> cbox).
Local Notation pv := (exact_val ev).
Local Notation dn := (exact_den fn).
Local Notation pt := (@point_at prec emax P F pv).
Definition evs (ps : list P) (s : list R) : list R := map (fun p => ev p s) ps.
Lemma values_iff ps s x : values pv ps s x <-> x = evs ps s.
Proof.
  split.
  - induction 1; cbn; auto. unfold exact_val in H. now rewrite H, IHForall2.
  - intros ->. induction ps; cbn; constructor; auto. reflexivity.
Qed.
Lemma images_iff fs x y : images dn fs x y <-> y = map (fun f => fn f x) fs.
Proof.
  split.
  - induction 1; cbn; auto. unfold exact_den in H. now rewrite H, IHForall2.
  - intros ->. induction fs; cbn; constructor; auto. reflexivity.
Qed.
Lemma exact_sound : sound_ops pv dn ops.
Proof.
  split; unfold exact_val, exact_den; intros.
  - rewrite (eo_create _ _ _ X); auto.
  - rewrite (eo_constant _ _ _ X); auto.
  - rewrite (eo_coordinate _ _ _ X); auto.
  - apply values_iff in H. rewrite (eo_compose _ _ _ X). rewrite H0, H. reflexivity.
  - rewrite (eo_partial _ _ _ X); auto.
  - rewrite (eo_embed _ _ _ X); auto. apply (box_length _ _ H0).
  - rewrite (eo_embed_front _ _ _ X); auto. apply (box_length _ _ H).
  - rewrite (eo_restrict _ _ _ X); auto.
  - rewrite (eo_add _ _ _ X); congruence.
  - rewrite (eo_sub _ _ _ X); congruence.
  - rewrite (eo_shift _ _ _ X); congruence.
  - rewrite (eo_scale _ _ _ X); congruence.
  - exists 0. destruct (eo_error _ _ _ X (p_embed ops p I) s) as [Q _]. rewrite Q. cbn. rewrite Rabs_R0. split; [lra|]. intros s' H'.
    destruct (eo_error _ _ _ X (p_embed ops p I) (s ++ s')) as [_ Q']. rewrite Q', (eo_embed _ _ _ X); [lra|]. apply (box_length _ _ H').
  - subst. apply (eo_range _ _ _ X). auto.
Qed.
Lemma evs_compose fs ps s : evs (compose_all ops fs ps) s = map (fun f => fn f (evs ps s)) fs.
Proof. unfold evs, compose_all. rewrite map_map. apply map_ext. intros. apply (eo_compose _ _ _ X). Qed.
Lemma evs_app ps qs s : evs (ps ++ qs) s = evs ps s ++ evs qs s.
Proof. apply map_app. Qed.
Lemma evs_embed ps I s s' : length s' = length I -> evs (map (fun p => p_embed ops p I) ps) (s ++ s') = evs ps s.
Proof. intros. unfold evs. rewrite map_map. apply map_ext. intros. apply (eo_embed _ _ _ X). auto. Qed.
Lemma evs_front D ps s s' : length s = length D -> evs (map (p_embed_front ops D) ps) (s ++ s') = evs ps s'.
Proof. intros. unfold evs. rewrite map_map. apply map_ext. intros. apply (eo_embed_front _ _ _ X). auto. Qed.
Lemma sat_inv (g : P -> P) cs s s' : (forall p, ev (g p) s' = ev p s) -> satisfied pv (map (fun c : P * bnd => (g (fst c), snd c)) cs) s' -> satisfied pv cs s.
Proof.
  intros G. unfold satisfied, exact_val. induction cs as [|c cs IH]; cbn; intros H; constructor; inversion_clear H; auto.
  destruct H0 as (v & V & B). cbn [fst snd] in V, B. rewrite G in V. eauto.
Qed.
Lemma constraint_exact p c (E : encl) s x t d : pt (new_constraint p c E) s x t d -> pt E s x t d /\ contains c (ev p s).
Proof.
  intros (HD & HS & HT & HW & HC). cbn in *. apply Forall_app in HC. destruct HC as [HC HN]. inversion_clear HN. destruct H as (v & V & B).
  cbn in *. unfold exact_val in V. subst v. repeat split; auto; apply B.
Qed.
Lemma apply_map_exact f (E : encl) s x' t d' : pt (apply_map ops f E) s x' t d' ->
  d' = 0 /\ exists x, x' = map (fun g => fn g x) f /\ pt E s x t (ev (e_dwell E) s).
Proof.
  intros (HD & HS & HT & HW & HC). cbn in *. split; [unfold exact_val in HW; now rewrite (eo_constant _ _ _ X) in HW|].
  apply values_iff in HS. rewrite evs_compose in HS. exists (evs (e_state E) s). repeat split; auto. apply values_iff. auto.
Qed.
Lemma reach_exact phi lo h el (E : encl) s' x' t' d' : is_finite h = true -> flt_lt lo h = true -> pt (parameter_reach ops phi lo h el E) s' x' t' d' ->
  exists s r, s' = s ++ [r] /\ 0 <= r <= B2R h /\ r <= ev el s /\
    pt E s (evs (e_state E) s) (ev (e_time E) s) (ev (e_dwell E) s) /\
    x' = map (fun f => fn f (evs (e_state E) s ++ [r])) phi /\ t' = ev (e_time E) s + r /\ d' = r.
Proof.
  intros Fh Lh. unfold parameter_reach. rewrite Lh. intros Q. apply constraint_exact in Q. destruct Q as [(HD & HS & HT & HW & HC) HN].
  cbn in *. apply box_app_inv in HD. destruct HD as (s & r1 & -> & HD & HI). inversion HI as [|? r ? ? Hr N]; subst. inversion N; subst. clear HI N.
  apply (step_iff _ _ Fh) in Hr. exists s, r. split; auto. split; auto.
  assert (nth (length (e_domain E ++ [mkB fzero h]) - 1) (s ++ [r]) 0 = r) as NR.
  { rewrite app_length. cbn [length]. rewrite Nat.add_sub, <- (box_length _ _ HD), app_nth2, Nat.sub_diag; auto. }
  apply nonpos_iff in HN. rewrite (eo_sub _ _ _ X), (eo_coordinate _ _ _ X), (eo_embed _ _ _ X), NR in HN by auto.
  unfold exact_val in HT, HW. rewrite (eo_add _ _ _ X), (eo_coordinate _ _ _ X), NR in HT, HW.
  rewrite (eo_embed _ _ _ X) in HT by auto. rewrite (eo_constant _ _ _ X) in HW.
  apply values_iff in HS. rewrite evs_compose, evs_app, evs_embed in HS by auto.
  unfold evs at 2 in HS. cbn [map] in HS. rewrite (eo_embed_front _ _ _ X), (eo_coordinate _ _ _ X) in HS by (apply (box_length _ _ HD)). cbn [nth] in HS.
  split; [lra|]. split; [|repeat split; auto; lra]. repeat split; auto; try reflexivity; [apply values_iff; auto|].
  eapply (sat_inv (fun p => p_embed ops p [mkB fzero h])); eauto. intros. apply (eo_embed _ _ _ X). auto.
Qed.
Lemma is_empty_same (E : encl) : exists r f, snd (is_empty ops contract E) = mkE (e_domain E) (e_aux E) (e_state E) (e_time E) (e_dwell E) (e_constraints E) r f (e_kinds E).
Proof.
  destruct E as [D A st ti dw cs rd fu ki]. unfold is_empty. cbn [e_domain e_aux e_state e_time e_dwell e_constraints e_reduced e_fully e_kinds].
  destruct (box_empty rd); [eexists; eexists; reflexivity|]. destruct cs as [|c cs]; [eexists; eexists; reflexivity|].
  destruct fu; cbn [reduce e_domain e_aux e_state e_time e_dwell e_constraints e_reduced e_fully e_kinds];
    match goal with |- context [existsb ?f ?l] => destruct (existsb f l) end; try (eexists; eexists; reflexivity);
    match goal with |- context [box_empty ?l] => destruct (box_empty l) end; eexists; eexists; reflexivity.
Qed.
Lemma evolved_exact st ti dw (E : encl) s x' t' d' : pt (evolved st ti dw E) s x' t' d' ->
  pt E s (evs (e_state E) s) (ev (e_time E) s) (ev (e_dwell E) s) /\ x' = evs st s /\ t' = ev ti s /\ d' = ev dw s.
Proof.
  intros (HD & HS & HT & HW & HC). cbn in *. split; [|split; [apply values_iff; auto|auto]]. repeat split; auto; try reflexivity. apply values_iff; auto.
Qed.
Lemma evs_join (E : encl) p s : evs (e_state E ++ [p]) s = evs (e_state E) s ++ [ev p s].
Proof. apply evs_app. Qed.
Lemma run_exact o (E : encl) s' x' t' d' : op_valid o -> pt (run ops contract o E) s' x' t' d' ->
  exists s x t d, pt E s x t d /\ after dn code_dwell o s x t d s' x' t' d'.
Proof.
  intros V Q. destruct o; cbn [run op_valid after] in *;
    try (apply constraint_exact in Q; destruct Q as [Q B]; exists s', x', t', d'; split; [exact Q|]; split; [auto|];
         pose proof Q as (_ & HS & HT & _); apply values_iff in HS; unfold exact_val in HT; unfold exact_den;
         first [rewrite (eo_compose _ _ _ X) in B|rewrite (eo_create _ _ _ X) in B];
         try (change (map (fun p => ev p s') (e_state E ++ [e_time E])) with (evs (e_state E ++ [e_time E]) s') in B; rewrite evs_app in B; cbn [evs map] in B);
         try change (map (fun p => ev p s') (e_state E)) with (evs (e_state E) s') in B;
         try rewrite <- HS in B; try rewrite <- HT in B;
         eexists; split; [reflexivity|];
         first [exact B|exact (proj1 (nonpos_iff _) B)|exact (proj1 (nonneg_iff _) B)|exact (proj1 (zero_iff _) B)]).

  - apply apply_map_exact in Q. destruct Q as (-> & x & -> & Q). exists s', x, t', (ev (e_dwell E) s'). split; [exact Q|]. rewrite images_iff. auto.
  - assert (pt (apply_map ops f E) s' x' t' d') as Q' by exact Q. apply apply_map_exact in Q'. destruct Q' as (-> & x & -> & Q').
    exists s', x, t', (ev (e_dwell E) s'). split; [exact Q'|]. rewrite images_iff. auto.
  - apply evolved_exact in Q. destruct Q as (Q & -> & -> & ->). apply apply_map_exact in Q. destruct Q as (D0 & x & Ex & Q).
    exists s', x, (ev (e_time E) s'), (ev (e_dwell E) s'). split; [exact Q|]. rewrite images_iff, (eo_shift _ _ _ X). repeat split; auto.
  - apply evolved_exact in Q. destruct Q as (Q & -> & -> & ->). rewrite !(eo_shift _ _ _ X). eexists _, _, _, _. split; [exact Q|]. rewrite images_iff.
    repeat split; auto. destruct is_patch; rewrite evs_compose.
    + rewrite map_map. apply map_ext. intros. apply (eo_partial _ _ _ X).
    + rewrite evs_join, (eo_constant _ _ _ X). auto.
  - apply evolved_exact in Q. destruct Q as (Q & -> & -> & ->). rewrite !(eo_add _ _ _ X), evs_compose, evs_join. eexists _, _, _, _. split; [exact Q|].
    split; auto. eexists. rewrite images_iff. rewrite (eo_compose _ _ _ X). repeat split; auto.
  - apply evolved_exact in Q. destruct Q as (Q & -> & -> & ->). rewrite !(eo_add _ _ _ X), evs_compose, evs_join. eexists _, _, _, _. split; [exact Q|].
    split; auto. eexists. rewrite images_iff. rewrite (eo_compose _ _ _ X), <- evs_join. repeat split; auto.
  - apply evolved_exact in Q. destruct Q as (Q & -> & -> & ->). rewrite !(eo_add _ _ _ X), evs_compose, evs_join. eexists _, _, _, _. split; [exact Q|].
    split; auto. eexists. rewrite images_iff. rewrite (eo_create _ _ _ X). repeat split; auto.
  - apply evolved_exact in Q. destruct Q as (Q & -> & -> & ->). rewrite (eo_add _ _ _ X), (eo_sub _ _ _ X), evs_compose, evs_join. eexists _, _, _, _. split; [exact Q|].
    split; auto. eexists. rewrite images_iff. rewrite (eo_create _ _ _ X), (eo_sub _ _ _ X), (eo_create _ _ _ X). repeat split; auto.
  - destruct V as [Fh Lh]. apply (reach_exact _ _ _ _ _ _ _ _ _ Fh Lh) in Q. destruct Q as (s & r & -> & Hr & _ & Q & -> & -> & ->).
    eexists _, _, _, _. split; [exact Q|]. exists r. rewrite images_iff. unfold code_dwell. repeat split; auto; apply Hr.
  - destruct V as [Fh Lh]. apply (reach_exact _ _ _ _ _ _ _ _ _ Fh Lh) in Q. destruct Q as (s & r & -> & Hr & Le & Q & -> & -> & ->).
    eexists _, _, _, _. split; [exact Q|]. exists r. eexists. rewrite images_iff. unfold code_dwell. rewrite (eo_compose _ _ _ X) in Le.
    split; auto. split; auto. split; [unfold exact_den; reflexivity|]. rewrite <- evs_join. split; [exact Le|]. repeat split; auto.
  - destruct V as [Fh Lh]. apply (reach_exact _ _ _ _ _ _ _ _ _ Fh Lh) in Q. destruct Q as (s & r & -> & Hr & Le & Q & -> & -> & ->).
    eexists _, _, _, _. split; [exact Q|]. exists r. eexists. rewrite images_iff. unfold code_dwell. rewrite (eo_create _ _ _ X) in Le.
    split; auto. split; auto. split; [unfold exact_den; reflexivity|]. split; [exact Le|]. repeat split; auto.
  - destruct Q as (HD & HS & HT & HW & HC). cbn in *. exists s', x', (ev (e_time E) s'), (ev (e_dwell E) s').
    unfold exact_val in HT, HW. rewrite (eo_constant _ _ _ X) in HT, HW. repeat split; auto.
  - exists s', x', t', d'. auto.
  - destruct (is_empty_same E) as (rd & fu & EQ). rewrite EQ in Q. exists s', x', t', d'. auto.
Qed.
Lemma run_all_exact : forall os (E : encl) s' x' t' d', List.Forall op_valid os -> pt (run_all ops contract os E) s' x' t' d' ->
  exists s x t d, pt E s x t d /\ history dn code_dwell os s x t d s' x' t' d'.
Proof.
  induction os as [|o os IH]; intros E s' x' t' d' V Q; cbn in *.
  - exists s', x', t', d'. auto.
  - inversion_clear V. apply IH in Q; auto. destruct Q as (s1 & x1 & t1 & d1 & Q & Hh). apply run_exact in Q; auto.
    destruct Q as (s & x & t & d & Q & A). exists s, x, t, d. split; auto. exists s1, x1, t1, d1. auto.
Qed.
Lemma of_box_exact D s x t d : pt (of_box ops D) s x t d -> in_cbox D s /\ x = s /\ t = 0 /\ d = 0.
Proof.
  intros (HD & HS & HT & HW & _). cbn in *. unfold exact_val in HT, HW. rewrite (eo_constant _ _ _ X) in HT, HW. split; auto. split; [|auto].
  apply values_iff in HS. subst x. unfold evs. rewrite map_map. rewrite (map_ext _ (fun i => nth i s 0)) by (intros; apply (eo_coordinate _ _ _ X)).
  rewrite <- (box_length _ _ HD). clear. apply nth_ext with 0 0; [now rewrite map_length, seq_length|]. rewrite map_length, seq_length. intros n Hn.
  rewrite (nth_indep _ 0 (nth 0 s 0)), map_nth with (f := fun i => nth i s 0), seq_nth by (rewrite ?map_length, ?seq_length; auto). auto.
Qed.
Lemma half_exact junk D (E : encl) s x t d : pt (half_of ops contract junk D E) s x t d -> in_cbox (e_domain E) s -> in_cbox D s /\ pt E s x t d.
Proof.
  intros (HD & HS & HT & HW & HC) H. cbn in *. split; auto. unfold exact_val in HT, HW. rewrite (eo_restrict _ _ _ X) in HT, HW. repeat split; auto.
  - apply values_iff. apply values_iff in HS. subst x. unfold evs. rewrite map_map. apply map_ext. intros. apply (eo_restrict _ _ _ X).
  - eapply (sat_inv (fun p => p_restrict ops p D)); eauto. intros. apply (eo_restrict _ _ _ X).
Qed.
Lemma restrict_exact D (E : encl) s x t d : pt (restrict ops contract D E) s x t d -> in_cbox (e_domain E) s -> in_cbox D s /\ pt E s x t d.
Proof.
  intros (HD & HS & HT & HW & HC) H. cbn in *. split; auto. unfold exact_val in HT, HW. rewrite (eo_restrict _ _ _ X) in HT, HW. repeat split; auto.
  - apply values_iff. apply values_iff in HS. subst x. unfold evs. rewrite map_map. apply map_ext. intros. apply (eo_restrict _ _ _ X).
  - eapply (sat_inv (fun p => p_restrict ops p D)); eauto. intros. apply (eo_restrict _ _ _ X).
Qed.
Lemma product_box_exact junk (E : encl) B s x t d : pt (product_box ops contract junk E B) s x t d ->
  exists s1 x1 y, s = s1 ++ y /\ x = x1 ++ y /\ pt E s1 x1 t d /\ in_cbox B y.
Proof.
  intros (HD & HS & HT & HW & HC). cbn in *. apply box_app_inv in HD. destruct HD as (s1 & y & -> & H1 & H2). exists s1, (evs (e_state E) s1), y.
  unfold exact_val in HT, HW. rewrite (eo_embed _ _ _ X) in HT, HW by (apply (box_length _ _ H2)).
  apply values_iff in HS. rewrite evs_app, evs_embed in HS by (apply (box_length _ _ H2)).
  rewrite <- map_map with (f := p_coordinate ops B), evs_front in HS by (apply (box_length _ _ H1)).
  assert (evs (map (p_coordinate ops B) (seq 0 (length B))) y = y) as Ey.
  { assert (pt (of_box ops B) y (evs (map (p_coordinate ops B) (seq 0 (length B))) y) 0 0) as Q.
    { repeat split; cbn; auto; try (apply values_iff; auto); try (unfold exact_val; now rewrite (eo_constant _ _ _ X)). constructor. }
    apply of_box_exact in Q. apply Q. }
  rewrite Ey in HS. repeat split; auto; [apply values_iff; auto|].
  eapply (sat_inv (fun p => p_embed ops p B)); eauto. intros. apply (eo_embed _ _ _ X). apply (box_length _ _ H2).
Qed.
Lemma product_exact junk (E G : encl) s x t d : pt (product ops contract junk E G) s x t d ->
  exists s1 x1 s2 x2 t2 d2, s = s1 ++ s2 /\ x = x1 ++ x2 /\ pt E s1 x1 t d /\ pt G s2 x2 t2 d2.
Proof.
  intros (HD & HS & HT & HW & HC). cbn in *. apply box_app_inv in HD. destruct HD as (s1 & s2 & -> & H1 & H2).
  exists s1, (evs (e_state E) s1), s2, (evs (e_state G) s2), (ev (e_time G) s2), (ev (e_dwell G) s2).
  unfold exact_val in HT, HW. rewrite (eo_embed _ _ _ X) in HT, HW by (apply (box_length _ _ H2)).
  apply values_iff in HS. rewrite evs_app, evs_embed, evs_front in HS by (apply box_length; auto).
  apply Forall_app in HC. destruct HC as [C1 C2].
  split; auto. split; auto. split.
  - repeat split; auto; [apply values_iff; auto|]. eapply (sat_inv (fun p => p_embed ops p (e_domain G))); eauto. intros. apply (eo_embed _ _ _ X). apply (box_length _ _ H2).
  - repeat split; auto; try reflexivity; [apply values_iff; auto|]. eapply (sat_inv (p_embed_front ops (e_domain E))); eauto. intros. apply (eo_embed_front _ _ _ X). apply (box_length _ _ H1).
Qed.
End Exact.
End Proofs.
