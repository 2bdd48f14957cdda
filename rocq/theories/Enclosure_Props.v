(** * Properties C114-C119: enclosures

    Function patches are any type with operations which do not lose values ([sound_ops]), or with exact operations
    ([exact_ops]); the contractor does not lose solutions (C104). *)
From Coq Require Import ZArith NArith Bool List Reals Lia Lra.
From Flocq Require Import Core IEEE754.BinarySingleNaN.
From Verif Require Import Logical_Model Float_Model Float_Spec Float_Proofs Bounds_Model Bounds_Spec Bounds_Proofs Bounds_Props Ball_Props Box_Float_Model.
From Verif Require Import ConstraintSolver_Model ConstraintSolver_Spec ConstraintSolver_Proofs ConstraintSolver_Props.
From Verif Require Import Bounder_Model Bounder_Spec Bounder_Proofs Bounder_Props.
From Verif Require Import LRU_Model Poly_Model Poly_Spec Taylor_Model Taylor_Spec Enclosure_Model Enclosure_Spec Enclosure_Proofs.
From Verif Require Enclosure_Taylor_Proofs.
Import ListNotations.
Local Open Scope R_scope.
Local Notation dbnd := (bounds 53 1024).

Section General.
Context {prec emax : Z} {Hprec : Prec_gt_0 prec} {Hemax : Prec_lt_emax prec emax}.
Local Notation fl := (binary_float prec emax).
Local Notation bnd := (bounds prec emax).
Local Notation cbox := (list bnd).
Context {P F : Type}.
Local Notation encl := (@enclosure prec emax P F).

Section Sound.
Context (pval : P -> list R -> R -> Prop) (den : F -> list R -> R -> Prop) (ops : @patch_operations prec emax P F).
Context (contract : list (P * bnd) -> cbox -> cbox).
Context (S : sound_ops pval den ops) (C : sound_contractor pval contract).
Local Notation kept := (@kept_at prec emax P F pval).

(** C114: whatever sequence of maps, flows, constraints and reductions is applied to the set of a box, the set contains
    the point reached, with the time elapsed. *)
Theorem C114_history_partial (os : list (@op prec emax F)) (D : cbox) s0 s x t d :
  List.Forall op_valid os -> in_cbox D s0 -> history den Rplus os s0 s0 0 0 s x t d ->
  exists d', kept (run_all ops contract os (of_box ops D)) s x t d'.
Proof.
  intros V I H. destruct (history_dwell den Rplus code_dwell os s0 s0 0 0 0 s x t d H) as (d' & H'). exists d'.
  eapply (run_all_kept pval den ops contract S C); eauto. apply (of_box_kept pval den ops S). auto.
Qed.
(** ... and the time since the last jump, if there was no step for the reached set. *)
Theorem C114_dwell_partial (os : list (@op prec emax F)) (D : cbox) s0 s x t d :
  List.Forall op_valid os -> forallb (fun o => negb (is_reach o)) os = true -> in_cbox D s0 -> history den Rplus os s0 s0 0 0 s x t d ->
  kept (run_all ops contract os (of_box ops D)) s x t d.
Proof.
  intros V N I H. eapply (run_all_kept pval den ops contract S C); eauto; [apply (of_box_kept pval den ops S); eauto|].
  eapply history_same; eauto.
Qed.

(** C116: the answers about a set are right for all its points. *)
Theorem C116_is_empty (E : encl) s x t d : fst (is_empty ops contract E) = TRUE -> ~ kept E s x t d.
Proof. intros T K. apply (is_empty_kept pval den ops contract S C) in K. tauto. Qed.
Theorem C116_is_empty_after (os : list (@op prec emax F)) (D : cbox) s0 s x t d :
  List.Forall op_valid os -> in_cbox D s0 -> history den Rplus os s0 s0 0 0 s x t d ->
  fst (is_empty ops contract (run_all ops contract os (of_box ops D))) <> TRUE.
Proof.
  intros V I H T. destruct (C114_history_partial os D s0 s x t d V I H) as (d' & K). eapply C116_is_empty; eauto.
Qed.
Theorem C116_inside (E : encl) B s x t d : length B = length (e_state E) -> inside ops E B = true -> kept E s x t d -> in_cbox B x.
Proof. apply (inside_kept pval den ops S). Qed.
Theorem C116_subset (E : encl) B s x t d : length B = length (e_state E) -> fst (subset ops contract E B) = TRUE -> kept E s x t d -> in_cbox B x.
Proof.
  intros L T K. apply (reduce_kept pval contract C) in K. unfold subset in T. cbn [fst] in T.
  destruct (image_inside ops (reduce contract E) B) eqn:I; [|discriminate T].
  eapply C116_inside with (E := reduce contract E); eauto.
Qed.
Theorem C116_separated feasible (E : encl) B s x t d : sound_feasible pval feasible -> separated contract feasible E B = TRUE ->
  kept E s x t d -> ~ in_cbox B x.
Proof. apply (separated_kept pval contract C). Qed.
Theorem C116_satisfies_constraint (E : encl) g c s x t d v : satisfies_constraint ops contract E g c = FALSE ->
  kept E s x t d -> den g x v -> ~ contains c v.
Proof. apply (satisfies_constraint_kept pval den ops contract S C). Qed.
(** The test of a function uses a box which contains the points. *)
Theorem C116_satisfies (E : encl) f g s x t d v : ConstraintSolver_Spec.encloses f g -> kept E s x t d -> f x v ->
  let codomain := map (fun p => p_range ops p (e_reduced E)) (e_state E) in
  (satisfies g codomain = TRUE -> 0 < v) /\ (satisfies g codomain = FALSE -> v < 0).
Proof.
  intros G [(HD & HS & _) HR] V codomain. eapply satisfies_ok; eauto. eapply (range_box pval den ops S); eauto.
Qed.
(** The answer "definitely satisfied" is never given for a constraint, and reduction does not change the set. *)
Theorem C116_never_satisfied (E : encl) g c : satisfies_constraint ops contract E g c <> TRUE.
Proof. unfold satisfies_constraint. destruct (fst _); discriminate. Qed.
Theorem C116_tests_change_nothing (E : encl) s x t d : kept E s x t d ->
  kept (reduce contract E) s x t d /\ kept (snd (is_empty ops contract E)) s x t d /\ forall B, kept (snd (subset ops contract E B)) s x t d.
Proof.
  intros K. split; [apply (reduce_kept pval contract C); auto|]. split; [apply (is_empty_kept pval den ops contract S C); auto|].
  intros B. apply (reduce_kept pval contract C); auto.
Qed.

(** C117: parts and products. *)
Theorem C117_split (digits : (11 <= prec)%Z) j1 j2 k (E : encl) s x t d : proper_box (e_domain E) -> (k < length (e_domain E))%nat -> point_at pval E s x t d ->
  kept (fst (split ops contract j1 j2 k E)) s x t d \/ kept (snd (split ops contract j1 j2 k E)) s x t d.
Proof. apply (split_kept pval den ops contract S C digits). Qed.
Theorem C117_restrict D (E : encl) s x t d : in_cbox D s -> kept E s x t d -> kept (restrict ops contract D E) s x t d.
Proof. apply (restrict_kept pval den ops contract S C). Qed.
Theorem C117_product_box junk (E : encl) B s x t d y : kept E s x t d -> in_cbox B y -> kept (product_box ops contract junk E B) (s ++ y) (x ++ y) t d.
Proof. apply (product_box_kept pval den ops contract S C). Qed.
Theorem C117_product junk (E G : encl) s x t d s2 x2 t2 d2 : kept E s x t d -> kept G s2 x2 t2 d2 ->
  kept (product ops contract junk E G) (s ++ s2) (x ++ x2) t d.
Proof. apply (product_kept pval den ops contract S C). Qed.

(** C118: errors turned into parameters. *)
Theorem C118_uniform (digits : (11 <= prec)%Z) maximum (E : encl) s x t d : kept E s x t d ->
  (forall p, In p (e_state E) -> large ops maximum p = true ->
     is_finite (p_error ops (p_embed ops p (repeat unit_interval (length (filter (large ops maximum) (e_state E)))))) = true) ->
  exists z, kept (uniform_recondition ops maximum E) (s ++ z) x t d.
Proof. apply (uniform_kept pval den ops S digits). Qed.

(** C119: a box of real intervals with constraints. *)
Theorem C119_real_set_partial single q cs ab x : sound_blur pval ops ->
  Forall2 (fun r p => describes single r (fst p) (snd p)) q ab ->
  Forall2 (fun p v => fst p <= v <= snd p) ab x ->
  List.Forall (fun r => is_finite (snd (make_domain single (ri_la r) (ri_ua r) (ri_lb r) (ri_ub r))) = true) q ->
  List.Forall (fun c => exists v, den (fst c) x v /\ contains (snd c) v) cs ->
  exists s, kept (of_real_set ops single q cs) s x 0 0.
Proof. intros SB. apply (real_set_kept pval den ops S); auto. Qed.
End Sound.

Section Exact.
Context (ev : P -> list R -> R) (fn : F -> list R -> R) (ops : @patch_operations prec emax P F) (X : exact_ops ev fn ops).
Context (contract : list (P * bnd) -> cbox -> cbox).
Local Notation pv := (exact_val ev).
Local Notation dn := (exact_den fn).
Local Notation pt := (@point_at prec emax P F pv).

(** With exact operations there are no other points. *)
Theorem C114_exact_history (os : list (@op prec emax F)) (D : cbox) s x t d :
  List.Forall op_valid os -> pt (run_all ops contract os (of_box ops D)) s x t d ->
  exists s0 d', in_cbox D s0 /\ history dn Rplus os s0 s0 0 0 s x t d'.
Proof.
  intros V Q. destruct (run_all_exact ev fn ops X contract os _ _ _ _ _ V Q) as (s0 & x0 & t0 & d0 & Q0 & H).
  apply (of_box_exact ev fn ops X) in Q0. destruct Q0 as (I & -> & -> & ->).
  destruct (history_dwell dn code_dwell Rplus os s0 s0 0 0 0 s x t d H) as (d' & H'). exists s0, d'. auto.
Qed.
(** The dwell time which the program computes after a step for the reached set is the length of this step alone. *)
Theorem C114_dwell_reset phi lo h (E : encl) s x t d : is_finite h = true -> flt_lt lo h = true ->
  pt (full_reach ops phi lo h E) s x t d -> exists s0, s = s0 ++ [d].
Proof.
  intros Fh L Q. unfold full_reach in Q. destruct (reach_exact ev fn ops X phi lo h _ E s x t d Fh L Q) as (s0 & r & -> & _ & _ & _ & _ & _ & ->). eauto.
Qed.

(** C115: a constraint leaves exactly the points which satisfy it. *)
Lemma state_values (E : encl) s x t d : pt E s x t d -> x = map (fun p => ev p s) (e_state E).
Proof. intros (_ & V & _). apply (values_iff ev) in V. exact V. Qed.
Lemma constraint_iff p c (E : encl) s x t d : pt (new_constraint p c E) s x t d <-> pt E s x t d /\ contains c (ev p s).
Proof.
  split; [apply constraint_exact|]. intros [(HD & HS & HT & HW & HC) B]. repeat split; cbn; auto. apply Forall_app. split; auto.
  constructor; auto. exists (ev p s). split; [reflexivity|auto].
Qed.
Theorem C115_state_constraint g c (E : encl) s x t d :
  pt (new_state_constraint ops g c E) s x t d <-> pt E s x t d /\ contains c (fn g x).
Proof.
  unfold new_state_constraint. rewrite constraint_iff. split; intros [Q B]; split; auto; revert B; rewrite (eo_compose _ _ _ X), <- (state_values E s x t d Q); auto.
Qed.
Theorem C115_state_time_constraint g c (E : encl) s x t d :
  pt (new_state_time_constraint ops g c E) s x t d <-> pt E s x t d /\ contains c (fn g (x ++ [t])).
Proof.
  unfold new_state_time_constraint. rewrite constraint_iff. split; intros [Q B]; split; auto; revert B;
    rewrite (eo_compose _ _ _ X), map_app; cbn [map]; rewrite <- (state_values E s x t d Q); destruct Q as (_ & _ & T & _); unfold exact_val in T; rewrite <- T; auto.
Qed.
Theorem C115_parameter_constraint g c (E : encl) s x t d :
  pt (new_parameter_constraint ops g c E) s x t d <-> pt E s x t d /\ contains c (fn g s).
Proof. unfold new_parameter_constraint. rewrite constraint_iff, (eo_create _ _ _ X). reflexivity. Qed.
Theorem C115_signs g (E : encl) s x t d :
  (pt (new_positive_state_constraint ops g E) s x t d <-> pt E s x t d /\ 0 <= fn g x) /\
  (pt (new_negative_state_constraint ops g E) s x t d <-> pt E s x t d /\ fn g x <= 0) /\
  (pt (new_zero_state_constraint ops g E) s x t d <-> pt E s x t d /\ fn g x = 0) /\
  (pt (new_negative_parameter_constraint ops g E) s x t d <-> pt E s x t d /\ fn g s <= 0) /\
  (pt (new_zero_parameter_constraint ops g E) s x t d <-> pt E s x t d /\ fn g s = 0).
Proof.
  unfold new_positive_state_constraint, new_negative_state_constraint, new_zero_state_constraint, new_negative_parameter_constraint, new_zero_parameter_constraint.
  rewrite !C115_state_constraint, !C115_parameter_constraint, !nonneg_iff, !nonpos_iff, !zero_iff. tauto.
Qed.
(** new_state_time_bound(gamma) keeps the points with gamma(x) <= t, instead of those with t <= gamma(x). *)
Theorem C115_time_bound_partial g (E : encl) s x t d :
  pt (new_state_time_bound ops g E) s x t d <-> pt E s x t d /\ fn g x <= t.
Proof.
  unfold new_state_time_bound. rewrite constraint_iff, nonpos_iff, (eo_sub _ _ _ X), (eo_compose _ _ _ X).
  split; intros [Q B]; split; auto; revert B; rewrite <- (state_values E s x t d Q); destruct Q as (_ & _ & T & _); unfold exact_val in T; rewrite <- T; lra.
Qed.

(** Parts and products have no other points. *)
Theorem C117_exact (junk : bool) D (E G : encl) B s x t d :
  (pt (half_of ops contract junk D E) s x t d -> in_cbox (e_domain E) s -> pt E s x t d) /\
  (pt (restrict ops contract D E) s x t d -> in_cbox (e_domain E) s -> in_cbox D s /\ pt E s x t d) /\
  (pt (product_box ops contract junk E B) s x t d -> exists s1 x1 y, s = s1 ++ y /\ x = x1 ++ y /\ pt E s1 x1 t d /\ in_cbox B y) /\
  (pt (product ops contract junk E G) s x t d -> exists s1 x1 s2 x2 t2 d2, s = s1 ++ s2 /\ x = x1 ++ x2 /\ pt E s1 x1 t d /\ pt G s2 x2 t2 d2).
Proof.
  split; [intros Q I; eapply (half_exact ev fn ops X); eauto|]. split; [apply (restrict_exact ev fn ops X)|].
  split; [apply (product_box_exact ev fn ops X)|apply (product_exact ev fn ops X)].
Qed.
End Exact.

(** C118, the second kind of reconditioning: it is possible when there are more parameters than are kept, and no point is lost. *)
Import Enclosure_Taylor_Proofs.
Theorem C118_kuhn (digits : (11 <= prec)%Z) k (T : @tset prec emax) : (k < length (ts_domain T))%nat -> sized_set T ->
  exists T', kuhn_recondition k T = Some T' /\ length (ts_domain T') = (k + length (ts_state T))%nat /\
    forall s x t d, List.Forall (fun m : tm prec emax => List.Forall (fun c => is_finite (snd c) = true) (t_exp m)) (ts_state T') -> tpoint_at T s x t d ->
      exists s', tpoint_at T' s' x t d.
Proof.
  intros L Z. destruct (kuhn_defined k T L) as [T' E]. exists T'. split; auto. split.
  - pose proof E as E'. unfold kuhn_recondition in E'. fold (ranking T) in E'. fold (kept_parameters k T) in E'. revert E'.
    repeat (match goal with |- context [match ?o with Some _ => _ | None => _ end] => destruct o; [|discriminate] end).
    intros E'. injection E' as <-. cbn [ts_domain]. rewrite app_length, map_length, repeat_length, kept_length by lia. reflexivity.
  - intros s x t d FN Q. destruct (kuhn_kept k T T' s x t d digits L Z E FN Q) as (w & _ & Q'). eauto.
Qed.
(** The models stay in the order which their arithmetic relies on. *)
Theorem C118_sorted n disc nerr index (t t' : tm prec emax) : well_formed n t -> tm_recondition n disc nerr index t = Some t' ->
  well_formed (length (complement n disc) + nerr) t'.
Proof. apply recondition_sorted. Qed.
End General.


(** ** Patches which are coordinates or functions, with exact operations and a contractor for coordinates *)
Inductive term := Coord (i : nat) | Fun (g : list R -> R).
Definition tev (p : term) (s : list R) : R := match p with Coord i => nth i s 0 | Fun g => g s end.
Definition entire : dbnd := mkB (fneg finf) finf.
Definition tops : @patch_operations 53 1024 term term := {|
  p_create := fun _ f => f;
  p_constant := fun _ c => Fun (fun _ => c);
  p_coordinate := fun _ i => Coord i;
  p_compose := fun f ps => match f with Coord i => nth i ps (Fun (fun _ => 0)) | Fun g => Fun (fun s => g (map (fun p => tev p s) ps)) end;
  p_partial := fun f h => Fun (fun x => tev f (x ++ [h]));
  p_embed := fun p I => Fun (fun s => tev p (firstn (length s - length I) s));
  p_embed_front := fun D p => Fun (fun s => tev p (skipn (length D) s));
  p_restrict := fun p _ => p;
  p_add := fun p q => Fun (fun s => tev p s + tev q s);
  p_sub := fun p q => Fun (fun s => tev p s - tev q s);
  p_shift := fun p c => Fun (fun s => tev p s + c);
  p_blur := fun p _ => p;
  p_scale := fun p c => Fun (fun s => tev p s * B2R c);
  p_error := fun _ => fzero;
  p_clobber := fun p => p;
  p_range := fun p B => match p with Coord i => nth i B entire | Fun _ => entire end
|}.
Lemma entire_all v : contains entire v. Proof. split; exact eq_refl. Qed.
Lemma tops_exact : exact_ops tev tev tops.
Proof.
  split; intros; cbn; auto.
  - destruct f; cbn; auto. rewrite <- (map_nth (fun p => tev p s) ps (Fun (fun _ => 0)) i). reflexivity.
  - rewrite app_length, H, Nat.add_sub, firstn_app, Nat.sub_diag, firstn_all. cbn. rewrite app_nil_r. reflexivity.
  - rewrite skipn_app, <- H, Nat.sub_diag, skipn_all. reflexivity.
  - destruct p; [|apply entire_all]. cbn. revert i. induction H; intros [|i]; cbn; auto using entire_all.
Qed.
Definition narrow (B : list dbnd) (c : term * dbnd) : list dbnd :=
  match fst c with
  | Coord i => firstn i B ++ match skipn i B with [] => [] | J :: B0 => b_refinement J (snd c) :: B0 end
  | Fun _ => B
  end.
Definition tcontract (cs : list (term * dbnd)) (B : list dbnd) : list dbnd := fold_left narrow cs B.
Definition tfeasible (B : list dbnd) (cs : list (term * dbnd)) : lv := if box_empty (tcontract cs B) then FALSE else INDET.
Local Notation tval_ := (exact_val tev).
Lemma narrow_sound B c s : in_cbox B s -> (exists v, tval_ (fst c) s v /\ contains (snd c) v) -> in_cbox (narrow B c) s.
Proof.
  destruct c as [[i|g] J]; intros H (v & V & Q); [|exact H]. unfold narrow, exact_val in *. cbn [fst snd tev] in *. subst v. revert i Q.
  induction H as [|b r B s Hb H IH]; intros [|i] Q; cbn in *; try constructor; auto.
  - apply b_refinement_iff; auto; eapply contains_no_nan; eauto.
  - apply IH. auto.
Qed.
Lemma tcontract_sound : sound_contractor tval_ tcontract.
Proof.
  intros cs. unfold tcontract. induction cs as [|c cs IH]; intros B s H Q; cbn; auto. inversion_clear Q. apply IH; auto. apply narrow_sound; auto.
Qed.
Lemma tfeasible_sound : sound_feasible tval_ tfeasible.
Proof.
  intros cs B s E H Q. unfold tfeasible in E. rewrite (in_box_nonempty _ _ (tcontract_sound cs B s H Q)) in E. discriminate E.
Qed.
Definition tsound := exact_sound tev tev tops tops_exact.

(** The flow of x'=1. *)
Definition drift : list term := [Fun (fun x => nth 0 x 0 + nth 1 x 0)].
Definition D01 : list dbnd := [iv (d_ 0) (d_ 1)].
Lemma val0 : B2R (d_ 0) = 0. Proof. dpval (d_ 0). lra. Qed.
Lemma val1 : B2R (d_ 1) = 1. Proof. dpval (d_ 1). lra. Qed.
Lemma val2 : B2R (d_ 2) = 2. Proof. dpval (d_ 2). lra. Qed.
Lemma in01 r : contains (iv (d_ 0) (d_ 1)) r <-> 0 <= r <= 1.
Proof. unfold contains. cbn [iv b_l b_u]. rewrite below_finite, above_finite by reflexivity. rewrite val0, val1. tauto. Qed.
(** Evolve for time 1, take the set reached within time 1 and keep the part with x <= 9/4. *)
Definition example_history : list (@op 53 1024 term) :=
  [OFixed false drift 1; OFullReach drift (d_ 0) (d_ 1); ONegative (Fun (fun x => nth 0 x 0 - 9 / 4))].
Lemma example_valid : List.Forall op_valid example_history.
Proof. repeat constructor. Qed.
Lemma example_happens : history (exact_den tev) Rplus example_history [/ 2] [/ 2] 0 0 [/ 2; / 2] [2] (3 / 2) (3 / 2).
Proof.
  exists [/ 2], [3 / 2], 1, 1. split.
  { cbn. repeat split; try lra. constructor; [|constructor]. unfold exact_den. cbn. lra. }
  exists [/ 2; / 2], [2], (3 / 2), (3 / 2). split.
  { cbn [after]. exists (/ 2). rewrite val1. repeat split; try lra. constructor; [|constructor]. unfold exact_den. cbn. lra. }
  exists [/ 2; / 2], [2], (3 / 2), (3 / 2). split; [|repeat split].
  split; [repeat split|]. exists (2 - 9 / 4). split; [|lra]. unfold exact_den. cbn. lra.
Qed.
Example C114_nonvacuous : exists d', @kept_at 53 1024 term term tval_ (run_all tops tcontract example_history (of_box tops D01)) [/ 2; / 2] [2] (3 / 2) d'.
Proof.
  apply (C114_history_partial tval_ (exact_den tev) tops tcontract tsound tcontract_sound example_history D01 [/ 2] _ _ _ (3 / 2)).
  - apply example_valid.
  - constructor; [|constructor]. apply in01. lra.
  - apply example_happens.
Qed.
Example C114_exact_nonvacuous d x t : @point_at 53 1024 term term tval_ (run_all tops tcontract example_history (of_box tops D01)) [/ 2; / 2] x t d -> x = [2] /\ t = 3 / 2.
Proof.
  intros Q. destruct (C114_exact_history tev tev tops tops_exact tcontract _ _ _ _ _ _ example_valid Q) as (s0 & d' & _ & H).
  destruct H as (s1 & x1 & t1 & d1 & A1 & s2 & x2 & t2 & d2 & A2 & s3 & x3 & t3 & d3 & A3 & <- & <- & <- & <-).
  cbn in A1, A2, A3. destruct A1 as (-> & I1 & -> & ->). destruct A2 as (r & E2 & _ & I2 & -> & ->). destruct A3 as ((<- & -> & -> & ->) & _).
  destruct s0 as [|u [|]]; try discriminate E2. 2: { destruct l; discriminate E2. } injection E2 as <- <-.
  inversion I1 as [|? v1 ? l1 V1 N1]; subst. inversion N1; subst. unfold exact_den in V1. cbn in V1. subst v1.
  inversion I2 as [|? v2 ? l2 V2 N2]; subst. inversion N2; subst. unfold exact_den in V2. cbn in V2. subst v2. split; [f_equal|]; lra.
Qed.

(** C114 is false for the dwell time: every point of the set of this history which was reached at time [t] without any
    jump has the dwell time [t-1]. *)
Theorem C114_dwell_refuted : exists (os : list (@op 53 1024 term)) D s0 s x t d,
  List.Forall op_valid os /\ in_cbox D s0 /\ history (exact_den tev) Rplus os s0 s0 0 0 s x t d /\ d = t /\
  forall d', @point_at 53 1024 term term tval_ (run_all tops tcontract os (of_box tops D)) s x t d' -> d' <> d.
Proof.
  exists [OFixed false drift 1; OFullReach drift (d_ 0) (d_ 1)], D01, [/ 2], [/ 2; / 2], [2], (3 / 2), (3 / 2).
  split; [repeat constructor|]. split; [constructor; [apply in01; lra|constructor]|]. split; [|split; [reflexivity|]].
  - destruct example_happens as (s1 & x1 & t1 & d1 & A1 & s2 & x2 & t2 & d2 & A2 & s3 & x3 & t3 & d3 & A3 & E).
    cbn in A3, E. destruct A3 as ((-> & -> & -> & ->) & _). exists s1, x1, t1, d1. split; auto. exists s2, x2, t2, d2. split; auto.
  - intros d' Q. cbn [run_all fold_left run] in Q. apply (C114_dwell_reset tev tev tops tops_exact) in Q; [|reflexivity..].
    destruct Q as [s0 E]. destruct s0 as [|u [|v s0]]; [discriminate E| |destruct s0; discriminate E]. injection E as _ <-. lra.
Qed.

(** C115: the constraint t <= gamma(x) as documented is not what is imposed. *)
Theorem C115_time_bound_refuted : exists (E : @enclosure 53 1024 term term) g s x t d,
  @point_at 53 1024 term term tval_ E s x t d /\ t <= tev g x /\ ~ point_at tval_ (new_state_time_bound tops g E) s x t d.
Proof.
  exists (of_box tops D01), (Fun (fun _ => 1)), [/ 2], [/ 2], 0, 0.
  assert (in_cbox D01 [/ 2]) as I. { constructor; [apply in01; lra|constructor]. }
  split; [apply (of_box_kept _ _ _ tsound _ _ I)|]. split; [cbn; lra|]. rewrite (C115_time_bound_partial tev tev tops tops_exact). cbn. lra.
Qed.
Example C115_nonvacuous : @point_at 53 1024 term term tval_ (new_state_constraint tops (Coord 0) (iv (d_ 0) (d_ 1)) (of_box tops D01)) [/ 2] [/ 2] 0 0 /\
  ~ point_at tval_ (new_state_constraint tops (Coord 0) (iv (d_ 1) (d_ 2)) (of_box tops D01)) [/ 2] [/ 2] 0 0.
Proof.
  assert (in_cbox D01 [/ 2]) as I. { constructor; [apply in01; lra|constructor]. }
  rewrite !(C115_state_constraint tev tev tops tops_exact). split.
  - split; [apply (of_box_kept _ _ _ tsound _ _ I)|]. apply in01. cbn. lra.
  - intros [_ [L _]]. apply below_finite in L; [|reflexivity]. change (B2R (d_ 1) <= / 2) in L. rewrite val1 in L. lra.
Qed.

(** C116: each test gives a definite answer for some set. *)
Definition E01 : @enclosure 53 1024 term term := of_box tops D01.
Example C116_nonvacuous :
  fst (is_empty tops tcontract (new_state_constraint tops (Coord 0) (iv (d_ 2) (d_ 3)) E01)) = TRUE /\
  fst (is_empty tops tcontract (new_state_constraint tops (Coord 0) (iv (d_ 1) (d_ 3)) E01)) = INDET /\
  fst (is_empty tops tcontract E01) = FALSE /\
  inside tops E01 [iv (d_ (-1)) (d_ 2)] = true /\ inside tops E01 [iv (d_ 1) (d_ 2)] = false /\
  fst (subset tops tcontract (new_state_constraint tops (Coord 0) (iv (d_ 1) (d_ 3)) E01) [iv (d_ 1) (d_ 2)]) = TRUE /\
  separated tcontract tfeasible E01 [iv (d_ 2) (d_ 3)] = TRUE /\ separated tcontract tfeasible E01 [iv (d_ 1) (d_ 3)] = INDET /\
  satisfies_constraint tops tcontract E01 (Coord 0) (iv (d_ 2) (d_ 3)) = FALSE /\
  satisfies (fun B => nth 0 B entire) D01 = INDET /\ satisfies (fun B => nth 0 B entire) [iv (d_ 1) (d_ 2)] = TRUE.
Proof. repeat split; vm_compute; reflexivity. Qed.

(** C117: the halves of the unit interval; a product. *)
Example C117_nonvacuous :
  (let ends := map (fun b : dbnd => (B2SF (b_l b), B2SF (b_u b))) in
   ends (e_domain (fst (split tops tcontract true true 0 E01))) = ends [iv (d_ 0) (dp 1 (-1))] /\
   ends (e_domain (snd (split tops tcontract true true 0 E01))) = ends [iv (dp 1 (-1)) (d_ 1)]) /\
  @kept_at 53 1024 term term tval_ (product_box tops tcontract true E01 D01) [/ 2; / 3] [/ 2; / 3] 0 0.
Proof.
  split.
  - split; vm_compute; reflexivity.
  - refine (C117_product_box tval_ _ tops tcontract tsound tcontract_sound true E01 D01 [/ 2] [/ 2] 0 0 [/ 3] _ _).
    + apply (of_box_kept _ _ _ tsound). constructor; [apply in01; lra|constructor].
    + constructor; [apply in01; lra|constructor].
Qed.

(** ** Patches with an error: a relation and a distance *)
Definition rpatch := ((list R -> R -> Prop) * DP)%type.
Definition rval (p : rpatch) (s : list R) (v : R) : Prop := exists u, fst p s u /\ Rabs (v - u) <= B2R (snd p).
Definition rden (f : list R -> R -> Prop) (x : list R) (v : R) : Prop := f x v.
Definition rops : @patch_operations 53 1024 rpatch (list R -> R -> Prop) := {|
  p_create := fun _ f => (f, fzero);
  p_constant := fun _ c => (fun _ v => v = c, fzero);
  p_coordinate := fun _ i => (fun s v => v = nth i s 0, fzero);
  p_compose := fun f ps => (fun s v => exists x, values rval ps s x /\ f x v, fzero);
  p_partial := fun f h x v => f (x ++ [h]) v;
  p_embed := fun p J => (fun s v => fst p (firstn (length s - length J) s) v, snd p);
  p_embed_front := fun D p => (fun s v => fst p (skipn (length D) s) v, snd p);
  p_restrict := fun p _ => p;
  p_add := fun p q => (fun s v => exists a b, rval p s a /\ rval q s b /\ v = a + b, fzero);
  p_sub := fun p q => (fun s v => exists a b, rval p s a /\ rval q s b /\ v = a - b, fzero);
  p_shift := fun p c => (fun s v => exists a, rval p s a /\ v = a + c, fzero);
  p_blur := fun p e => (rval p, e);
  p_scale := fun p c => (fun s v => exists a, rval p s a /\ v = a * B2R c, fzero);
  p_error := snd;
  p_clobber := fun p => (fst p, fzero);
  p_range := fun _ _ => entire
|}.
Lemma rval_zero (f : list R -> R -> Prop) s v : f s v -> rval (f, fzero) s v.
Proof. intros H. exists v. split; auto. replace (v - v) with 0 by ring. rewrite Rabs_R0. cbn. lra. Qed.
Lemma rops_sound : sound_ops rval rden rops.
Proof.
  split; intros; cbn; try (apply rval_zero; eauto; fail).
  - auto.
  - destruct H as (u & H & B). exists u. cbn. split; auto. apply box_length in H0.
    rewrite app_length, H0, Nat.add_sub, firstn_app, Nat.sub_diag, firstn_all. cbn. rewrite app_nil_r. auto.
  - destruct H0 as (u & H0 & B). exists u. cbn. split; auto. apply box_length in H. rewrite skipn_app, <- H, Nat.sub_diag, skipn_all. auto.
  - auto.
  - destruct H as (u & H & B). exists (v - u). split; auto. intros s' J. exists u. cbn. apply box_length in J. split.
    + rewrite app_length, J, Nat.add_sub, firstn_app, Nat.sub_diag, firstn_all. cbn. rewrite app_nil_r. auto.
    + replace (v - (v - u) - u) with 0 by ring. rewrite Rabs_R0. lra.
  - apply entire_all.
Qed.
Lemma rops_blur : sound_blur rval rops.
Proof. intros p e s v w _ H B. exists v. auto. Qed.
(** A set of one point with an error of one: the point 1/2 is not lost. *)
Definition fuzzy : @enclosure 53 1024 rpatch (list R -> R -> Prop) :=
  mkE D01 [] [(fun s v => v = nth 0 s 0, d_ 1)] (p_constant rops D01 0) (p_constant rops D01 0) [] D01 true [INITIAL].
Lemma fuzzy_point : kept_at rval fuzzy [/ 2] [3 / 2] 0 0.
Proof.
  assert (in_cbox D01 [/ 2]) as I. { constructor; [apply in01; lra|constructor]. }
  split; [|exact I]. split; [exact I|]. split; [|split; [|split]].
  - constructor; [|constructor]. exists (/ 2). cbn [fst snd nth]. split; auto. rewrite val1. replace (3 / 2 - / 2) with 1 by field. rewrite Rabs_R1. lra.
  - apply rval_zero. auto.
  - apply rval_zero. auto.
  - constructor.
Qed.
Example C118_nonvacuous : length (e_domain (uniform_recondition rops (dp 1 (-2)) fuzzy)) = 2%nat /\
  exists z, kept_at rval (uniform_recondition rops (dp 1 (-2)) fuzzy) ([/ 2] ++ z) [3 / 2] 0 0.
Proof.
  split; [vm_compute; reflexivity|]. apply (C118_uniform rval rden rops rops_sound double_digits); [apply fuzzy_point|].
  intros p [<-|[]] _. reflexivity.
Qed.
(** A Taylor set x = z0 + z1/2 +/- 1/4 with two parameters; one is kept. *)
Definition T2 : @tset 53 1024 :=
  let U := iv (d_ (-1)) (d_ 1) in let zero := mkTM [] fzero in
  mkT [U; U] [mkTM [([0; 1]%N, dp 1 (-1)); ([1; 0]%N, d_ 1)] (dp 1 (-2))] zero zero [(mkTM [([0; 1]%N, d_ 1)] fzero, U)].
Example C118_kuhn_nonvacuous : sized_set T2 /\ tpoint_at T2 [/ 2; 1] [5 / 4] 0 0 /\
  option_map (fun T => map (fun m => (map fst (t_exp m), Nat.ltb 0 (length (t_exp m)))) (ts_state T)) (kuhn_recondition 1 T2) = Some [([[0; 1]; [1; 0]]%N, true)] /\
  (forall T', kuhn_recondition 1 T2 = Some T' -> List.Forall (fun m : tm 53 1024 => List.Forall (fun c => is_finite (snd c) = true) (t_exp m)) (ts_state T')).
Proof.
  assert (B2R (d_ (-1)) = -1) as Vm by (dpval (d_ (-1)); lra).
  assert (B2R (dp 1 (-1)) = / 2) as Vh by (dpval (dp 1 (-1)); lra).
  assert (B2R (dp 1 (-2)) = / 4) as Vq by (dpval (dp 1 (-2)); lra).
  split; [|split; [|split]].
  - repeat split; repeat constructor.
  - exists [/ 2; 1]. cbn [T2 ts_domain ts_state ts_time ts_dwell ts_constraints]. split; [|split; [|split; [|split; [|split]]]].
    + repeat constructor; cbn [fst snd iv b_l b_u]; rewrite ?Vm, ?val1; lra.
    + reflexivity.
    + constructor; [|constructor]. intros _. cbn [t_exp t_err]. split; [repeat constructor|]. unfold peval, poly. cbn [fold_right map fst snd monom power N.to_nat]. change (Pos.to_nat 1) with 1%nat. cbn [power].
      rewrite Vh, Vq, val1. apply Rabs_le. lra.
    + intros _. split; [constructor|]. cbn. rewrite Rminus_0_r, Rabs_R0. lra.
    + intros _. split; [constructor|]. cbn. rewrite Rminus_0_r, Rabs_R0. lra.
    + constructor; [|constructor]. exists 1. cbn [fst snd]. split.
      * intros _. cbn [t_exp t_err]. split; [repeat constructor|]. unfold peval, poly. cbn [fold_right map fst snd monom power N.to_nat]. change (Pos.to_nat 1) with 1%nat. cbn [power].
        rewrite val1. cbn [B2R fzero]. apply Rabs_le. lra.
      * split; [apply below_finite; [reflexivity|]; cbn [iv b_l]; rewrite Vm; lra|apply above_finite; [reflexivity|]; cbn [iv b_u]; rewrite val1; lra].
  - vm_compute. reflexivity.
  - intros T' E. assert (option_map (fun T => forallb (fun m => forallb (fun c => is_finite (snd c)) (t_exp m)) (ts_state T)) (kuhn_recondition 1 T2) = Some true) as Q by (vm_compute; reflexivity).
    rewrite E in Q. cbn [option_map] in Q. injection Q as Q. rewrite forallb_forall in Q. apply Forall_forall. intros m I. apply Forall_forall. intros c J.
    specialize (Q m I). rewrite forallb_forall in Q. apply Q. auto.
Qed.

(** C119: the interval [1/10,7/10]; its ends are not single precision numbers. *)
Definition tenth : DP := dp 7205759403792794 (-56).
Definition near_tenth : dbnd := iv (dp 7205759403792793 (-56)) tenth.
Definition seven : DP := dp 6305039478318694 (-53).
Definition near_seven : dbnd := iv seven (dp 6305039478318695 (-53)).
Definition q_example : @real_interval 53 1024 := mkRI tenth seven near_tenth near_seven.
Lemma example_describes : describes to_single q_example (/ 10) (7 / 10).
Proof.
  assert (B2R tenth = 7205759403792794 / 72057594037927936) as V1 by (unfold tenth; dpval (dp 7205759403792794 (-56)); lra).
  assert (B2R (dp 7205759403792793 (-56)) = 7205759403792793 / 72057594037927936) as V2 by (dpval (dp 7205759403792793 (-56)); lra).
  assert (B2R seven = 6305039478318694 / 9007199254740992) as V3 by (unfold seven; dpval (dp 6305039478318694 (-53)); lra).
  assert (B2R (dp 6305039478318695 (-53)) = 6305039478318695 / 9007199254740992) as V4 by (dpval (dp 6305039478318695 (-53)); lra).
  split; [|split; [|split; [|split]]].
  - split; [apply below_finite; [reflexivity|]|apply above_finite; [reflexivity|]]; cbn [q_example ri_lb near_tenth iv b_l b_u]; rewrite ?V1, ?V2; lra.
  - split; [apply below_finite; [reflexivity|]|apply above_finite; [reflexivity|]]; cbn [q_example ri_ub near_seven iv b_l b_u]; rewrite ?V3, ?V4; lra.
  - vm_compute. reflexivity.
  - vm_compute. reflexivity.
  - cbn [q_example ri_la ri_ua]. dpval (to_single (prec := 53) (emax := 1024) tenth). dpval (to_single (prec := 53) (emax := 1024) seven). lra.
Qed.
Example C119_nonvacuous : exists s, kept_at rval (of_real_set rops to_single [q_example] [(fun x v => v = nth 0 x 0, iv (d_ 0) (d_ 1))]) s [/ 10] 0 0.
Proof.
  apply (C119_real_set_partial rval rden rops rops_sound to_single [q_example] _ [(/ 10, 7 / 10)]).
  - apply rops_blur.
  - constructor; [apply example_describes|constructor].
  - constructor; [cbn; lra|constructor].
  - constructor; [|constructor]. vm_compute. reflexivity.
  - constructor; [|constructor]. exists (/ 10). split; [reflexivity|]. apply in01. cbn. lra.
Qed.
(** For an interval whose ends are known as balls, the error of the upper end is not used: the upper end 7/10 of
    [0,7/10] is not covered. *)
Theorem C119_ball_refuted : exists lv le uv ue a b x, Rabs (a - B2R lv) <= B2R le /\ Rabs (b - B2R uv) <= B2R ue /\ a <= x <= b /\
  let '(D, e) := @make_domain_ball 53 1024 _ _ to_single lv le uv ue in
  is_finite e = true /\ forall y, contains D y -> B2R e < Rabs (x - y).
Proof.
  exists (d_ 0), (d_ 0), seven, (dp 1 (-53)), 0, (7 / 10), (7 / 10).
  assert (B2R seven = 6305039478318694 / 9007199254740992) as V3 by (unfold seven; dpval (dp 6305039478318694 (-53)); lra).
  assert (B2R (dp 1 (-53)) = 1 / 9007199254740992) as V4 by (dpval (dp 1 (-53)); lra).
  split; [rewrite val0, Rminus_0_r, Rabs_R0; lra|]. split; [rewrite V3, V4; apply Rabs_le; lra|]. split; [lra|].
  unfold make_domain_ball. split; [vm_compute; reflexivity|].
  assert (B2R (@to_single 53 1024 _ _ seven) < 7 / 10) as L by (dpval (@to_single 53 1024 _ _ seven); lra).
  intros y [_ U]. cbn [b_u] in U. apply above_finite in U; [|vm_compute; reflexivity].
  match goal with |- B2R ?e < _ => assert (B2R e = 0) as -> by (dpval e; lra) end. pose proof (Rle_lt_trans _ _ _ U L). rewrite Rabs_pos_eq; lra.
Qed.
Print Assumptions C114_history_partial.
Print Assumptions C114_dwell_partial.
Print Assumptions C114_exact_history.
Print Assumptions C114_dwell_reset.
Print Assumptions C115_state_constraint.
Print Assumptions C115_state_time_constraint.
Print Assumptions C115_parameter_constraint.
Print Assumptions C115_signs.
Print Assumptions C115_time_bound_partial.
Print Assumptions C116_is_empty.
Print Assumptions C116_is_empty_after.
Print Assumptions C116_inside.
Print Assumptions C116_subset.
Print Assumptions C116_separated.
Print Assumptions C116_satisfies_constraint.
Print Assumptions C116_satisfies.
Print Assumptions C116_never_satisfied.
Print Assumptions C116_tests_change_nothing.
Print Assumptions C117_split.
Print Assumptions C117_restrict.
Print Assumptions C117_product_box.
Print Assumptions C117_product.
Print Assumptions C117_exact.
Print Assumptions C118_uniform.
Print Assumptions C118_kuhn.
Print Assumptions C118_sorted.
Print Assumptions C119_real_set_partial.
Print Assumptions C114_dwell_refuted.
Print Assumptions C115_time_bound_refuted.
Print Assumptions C119_ball_refuted.
