(** Gradients, affine functions, Lie derivatives and formulas. *)
From Coq Require Import NArith ZArith List Bool Reals Lra Lia Permutation Sorted.
From Verif Require Import LRU_Model Poly_Model Poly_Spec Poly_Proofs Diff_Model Diff_Spec Diff_O_Proofs Diff_Ring_Proofs Diff_Series_Proofs Diff_Inst Diff_Elem_Proofs Diff_Comp_Proofs Diff_Vec_Proofs Diff_Int_Proofs Diff_Flow_Proofs Diff_Unique_Proofs.
Import ListNotations.
Local Open Scope R_scope.

Lemma unit_sorted n : forall s j j', (s <= j < j')%nat -> (j' < s + n)%nat ->
  first_diff gtb (map (fun i => if (i =? j)%nat then 1%N else 0%N) (seq s n)) (map (fun i => if (i =? j')%nat then 1%N else 0%N) (seq s n)) = true.
Proof.
  induction n as [|n IH]; intros s j j' J J'; [lia|]. cbn [seq map first_diff]. replace (s =? j')%nat with false by (symmetry; apply Nat.eqb_neq; lia).
  destruct (Nat.eqb_spec s j) as [->|N]; [reflexivity|]. cbn. apply IH; lia.
Qed.
Lemma unit_less n j j' : (j < j' < n)%nat -> graded_less (unit_mi n j) (unit_mi n j') = true.
Proof.
  intros J. unfold graded_less. rewrite !degree_small by (rewrite total_unit by lia; lia). rewrite !total_unit by lia. simpl (1 =? 1)%N. cbv iota. apply unit_sorted; lia.
Qed.
Lemma first_diff_pred a : forall b i, length a = length b -> (i < length a)%nat -> nth i a 0%N <> 0%N -> nth i b 0%N <> 0%N ->
  first_diff gtb (mi_upd a i (nth i a 0 - 1)%N) (mi_upd b i (nth i b 0 - 1)%N) = first_diff gtb a b.
Proof.
  induction a as [|x a IH]; intros [|y b] [|i] L I A B; simpl in *; try lia.
  - unfold gtb. destruct (N.eqb_spec x y), (N.eqb_spec (x - 1) (y - 1)); try lia; auto. destruct (N.ltb_spec y x), (N.ltb_spec (y - 1) (x - 1)); try lia; auto.
  - destruct (x =? y)%N; auto. apply IH; auto; lia.
Qed.
Lemma graded_pred a b i : length a = length b -> (i < length a)%nat -> nth i a 0%N <> 0%N -> nth i b 0%N <> 0%N -> (total a < 65536)%N -> (total b < 65536)%N ->
  graded_less a b = true -> graded_less (mi_upd a i (nth i a 0 - 1)%N) (mi_upd b i (nth i b 0 - 1)%N) = true.
Proof.
  intros L I A B Ta Tb. pose proof (mi_upd_total a i (nth i a 0 - 1)%N I). pose proof (mi_upd_total b i (nth i b 0 - 1)%N ltac:(lia)).
  unfold graded_less. rewrite !degree_small by lia. rewrite (first_diff_pred a b i L I A B).
  destruct (N.eqb_spec (total a) (total b)) as [Q|Q].
  - replace (total (mi_upd a i (nth i a 0 - 1)) =? total (mi_upd b i (nth i b 0 - 1)))%N with true by (symmetry; apply N.eqb_eq; lia). auto.
  - replace (total (mi_upd a i (nth i a 0 - 1)) =? total (mi_upd b i (nth i b 0 - 1)))%N with false by (symmetry; apply N.eqb_neq; lia).
    rewrite !N.ltb_lt. lia.
Qed.

Section Extra.
Context (X : scalar) (holds : X -> R -> Prop) (E : encloses X holds).
Notation good := (good X holds).

(** ** Affine functions *)
Lemma affine_tail n : forall s (g : list X) (rs : list R), Forall2 holds g rs -> (s + length g = n)%nat ->
  let l := map (fun j => (unit_mi n j, nth (j - s) g (x_nul X))) (seq s (length g)) in
  let p := map (fun j => (unit_mi n j, nth (j - s) rs 0)) (seq s (length rs)) in
  shadow holds l p /\ (forall b d, In (b, d) l -> exists j, (s <= j < n)%nat /\ b = unit_mi n j) /\ sorted graded_less l.
Proof.
  intros s g. revert s. induction g as [|c g IH]; intros s [|r rs'] F L; try (now inversion F); cbv zeta.
  - repeat split; try constructor. intros b d [].
  - assert (H : holds c r) by now inversion F. assert (F' : Forall2 holds g rs') by now inversion F. cbn [length seq map]. rewrite Nat.sub_diag.
    destruct (IH (S s) rs' F' ltac:(simpl in L |- *; lia)) as (A & B & C). cbv zeta in A, B, C.
    assert (M1 : map (fun j => (unit_mi n j, nth (j - s) (c :: g) (x_nul X))) (seq (S s) (length g)) = map (fun j => (unit_mi n j, nth (j - S s) g (x_nul X))) (seq (S s) (length g))).
    { apply map_ext_in. intros j J. apply in_seq in J. replace (j - s)%nat with (S (j - S s)) by lia. reflexivity. }
    assert (M2 : map (fun j => (unit_mi n j, nth (j - s) (r :: rs') 0)) (seq (S s) (length rs')) = map (fun j => (unit_mi n j, nth (j - S s) rs' 0)) (seq (S s) (length rs'))).
    { apply map_ext_in. intros j J. apply in_seq in J. replace (j - s)%nat with (S (j - S s)) by lia. reflexivity. }
    rewrite M1, M2. split; [|split].
    + apply shadow_cons; [exact H | exact A].
    + intros b d [I|I]; [apply (f_equal fst) in I; cbn [fst] in I; subst b; exists s; split; [simpl in L; lia | reflexivity]|]. destruct (B b d I) as (j & J & ->). exists j. split; [lia | reflexivity].
    + apply sorted_cons; [exact C|]. intros b d I. destruct (B b d I) as (j & J & ->). apply unit_less. lia.
Qed.
Lemma affine_poly n h : length h = n -> forall s rs, (s + length rs = n)%nat ->
  rpoly (map (fun j => (unit_mi n j, nth (j - s) rs 0)) (seq s (length rs))) h = fold_right Rplus 0 (map (fun j => nth (j - s) rs 0 * nth j h 0) (seq s (length rs))).
Proof.
  intros L s rs S. assert (H : forall m s', (s' + m <= n)%nat -> forall f, rpoly (map (fun j => (unit_mi n j, f j)) (seq s' m)) h = fold_right Rplus 0 (map (fun j => f j * nth j h 0) (seq s' m))).
  { induction m as [|m IH]; intros s' S' f; [reflexivity|]. cbn [seq map fold_right]. rewrite rpoly_cons, IH, monom_unit by lia. reflexivity. }
  apply (H (length rs) s ltac:(lia) (fun j => nth (j - s) rs 0)).
Qed.
Lemma affine_good n k x r g rs : (1 <= k < 65536)%N -> holds x r -> Forall2 holds g rs -> length g = n ->
  good n k (d_affine X n k x g) (fun h => r + fold_right Rplus 0 (map (fun j => nth j rs 0 * nth j h 0) (seq 0 n))).
Proof.
  intros K H F L. destruct (affine_tail n 0 g rs F L) as (A & B & C). cbv zeta in *. pose proof (Forall2_len _ _ _ F) as Lr.
  assert (M1 : map (fun j => (unit_mi n j, nth j g (x_nul X))) (seq 0 n) = map (fun j => (unit_mi n j, nth (j - 0) g (x_nul X))) (seq 0 (length g))).
  { rewrite L. apply map_ext. intros j. now rewrite Nat.sub_0_r. }
  split; [|split; [reflexivity | split; [reflexivity|]]].
  - apply wf_make; [lia | | |]; rewrite M1.
    + unfold sized. rewrite List.Forall_forall. intros [b d] [I|I]; [injection I as <- <-; apply length_zeros|]. destruct (B b d I) as (j & J & ->). apply length_unit.
    + apply sorted_cons; [exact C|]. intros b d I. destruct (B b d I) as (j & J & ->). apply zeros_unit. lia.
    + unfold Diff_Ring_Proofs.upto. rewrite List.Forall_forall. intros [b d] [I|I]; [injection I as <- <-; cbn [fst]; rewrite total_zeros0; lia|]. destruct (B b d I) as (j & J & ->). cbn [fst]. rewrite total_unit by lia. lia.
  - eexists ((zeros n, r) :: _). split; [cbn [d_exp d_affine]; rewrite M1; apply shadow_cons; [exact H | exact A]|].
    eapply O_ext; [|apply O_zero]. intros h Lh. cbv beta. cbn [d_as d_affine] in Lh. rewrite rpoly_cons, monom_zeros1, affine_poly by (assumption || lia).
    rewrite <- Lr, L. replace (map (fun j => nth (j - 0) rs 0 * nth j h 0) (seq 0 n)) with (map (fun j => nth j rs 0 * nth j h 0) (seq 0 n)) by (apply map_ext; intros j; now rewrite Nat.sub_0_r). ring.
Qed.

(** ** The gradient *)
Lemma pred_zeros n a j : length a = n -> (j < n)%nat -> nth j a 0%N <> 0%N -> total (mi_upd a j (nth j a 0 - 1)%N) = 0%N -> a = unit_mi n j.
Proof.
  intros L J A T. pose proof (mi_upd_total a j (nth j a 0 - 1)%N ltac:(lia)) as H.
  assert (T1 : total a = 1%N) by lia. assert (A1 : nth j a 0%N = 1%N) by (pose proof (nth_total a j); lia). clear H T A.
  unfold unit_mi. rewrite <- (Nat.sub_0_r j) in A1. revert J L A1 T1. assert (S : (0 <= j)%nat) by lia. revert S. generalize 0%nat as s. revert n.
  assert (Z : forall m s (a : mi), length a = m -> (j < s)%nat -> total a = 0%N -> a = map (fun i => if (i =? j)%nat then 1%N else 0%N) (seq s m)).
  { clear. induction m as [|m IH]; intros s [|x a] L J T; try discriminate L; [reflexivity|]. rewrite total_cons in T. cbn [seq map]. replace (s =? j)%nat with false by (symmetry; apply Nat.eqb_neq; lia).
    f_equal; [lia|]. apply IH; [now injection L | lia | lia]. }
  assert (W : forall (a : mi) m s, (s <= j < s + m)%nat -> length a = m -> nth (j - s) a 0%N = 1%N -> total a = 1%N -> a = map (fun i => if (i =? j)%nat then 1%N else 0%N) (seq s m)).
  { clear - Z. induction a as [|x a IH]; intros m s J L A T; [simpl in T; discriminate T|]. destruct m as [|m]; [discriminate L|]. injection L as L. rewrite total_cons in T. cbn [seq map].
    destruct (Nat.eqb_spec s j) as [Q|Q].
    - subst j. rewrite Nat.sub_diag in A. cbn [nth] in A. f_equal; [exact A|]. apply Z; [exact L | lia | lia].
    - replace (j - s)%nat with (Datatypes.S (j - Datatypes.S s)) in A by lia. cbn [nth] in A. pose proof (nth_total a (j - Datatypes.S s)) as H. unfold mi in *. f_equal; [lia|].
      apply IH; [lia | exact L | exact A | lia]. }
  intros n s S J L A T. rewrite <- (W a n s); [reflexivity | | exact L | exact A | exact T].
  split; [exact S|]. lia.
Qed.
Lemma gradient_poly n j p : sized n p -> NoDup (map fst p) -> (j < n)%nat -> rpoly (der_terms j p) (origin n) = rget p (unit_mi n j).
Proof.
  intros Z ND J. induction p as [|[a c] p IH]; [reflexivity|]. apply Forall_cons_iff in Z as [La Z]. cbn [fst] in La. cbn [map fst] in ND. inversion_clear ND as [|? ? Na ND'].
  specialize (IH Z ND'). unfold der_terms. cbn [map concat fst snd]. fold (der_terms j p). rewrite rpoly_app, IH. cbn [e_get].
  destruct (mi_eqb a (unit_mi n j)) eqn:Q.
  - apply mi_eqb_eq in Q. subst a. assert (U1 : nth j (unit_mi n j) 0%N = 1%N).
    { unfold unit_mi. rewrite (nth_indep _ _ (if (0 =? j)%nat then 1%N else 0%N)) by (rewrite map_length, seq_length; exact J). rewrite (map_nth (fun i => if (i =? j)%nat then 1%N else 0%N)), seq_nth by exact J. now rewrite Nat.eqb_refl. }
    rewrite U1. cbn [N.eqb]. rewrite rpoly_cons, rpoly_nil, (monom_origin _ n) by (rewrite mi_upd_length; apply length_unit).
    pose proof (mi_upd_total (unit_mi n j) j 0 ltac:(rewrite length_unit; exact J)) as T. rewrite U1, total_unit in T by exact J. simpl (1 - 1)%N.
    replace (total (mi_upd (unit_mi n j) j 0)) with 0%N by lia. cbn [N.eqb]. simpl (INR _).
    rewrite get_absent; [simpl; ring|]. intros b d I ->. apply Na. apply in_map_iff. now exists (unit_mi n j, d).
  - apply mi_eqb_neq in Q. destruct (N.eqb_spec (nth j a 0%N) 0) as [N0|N0]; [rewrite rpoly_nil; ring|].
    rewrite rpoly_cons, rpoly_nil, (monom_origin _ n) by (rewrite mi_upd_length; exact La).
    destruct (N.eqb_spec (total (mi_upd a j (nth j a 0 - 1)%N)) 0%N) as [T|T]; [|ring]. exfalso. apply Q. now apply pred_zeros.
Qed.
Lemma lupd_origin_norm n j t : norm (lupd (origin n) j t) <= Rabs t.
Proof.
  apply norm_le; [apply Rabs_pos|]. intros x I. assert (H : x = t \/ x = 0).
  { unfold origin in I. revert j I; induction n as [|n IH]; intros [|j] I; simpl in *; try tauto; [destruct I as [I|I]; [now left|]; apply repeat_spec in I; now right|].
    destruct I as [I|I]; [right; congruence|]. exact (IH j I). }
  destruct H as [->| ->]; [lra | rewrite Rabs_R0; apply Rabs_pos].
Qed.
Lemma gradient_good n k d f j : good n k d f -> (1 <= k)%N -> (j < n)%nat ->
  exists l, holds (nth j (d_gradient X d) (x_nul X)) l /\ derivable_pt_lim (fun t => f (lupd (origin n) j t)) 0 l.
Proof.
  intros (W & A & D & p & S & O) K J. rewrite A, D in O. assert (Zp : sized n p) by (eapply shadow_sized; [exact S | rewrite <- A; apply W]).
  assert (Sp : sorted graded_less p) by (eapply shadow_sorted; [exact S | apply W]).
  exists (rget p (unit_mi n j)). split.
  - unfold d_gradient, d_get. rewrite A. rewrite (nth_indep _ _ (e_get (x_nul X) (d_exp X d) (unit_mi n 0))) by (rewrite map_length, seq_length; exact J).
    rewrite (map_nth (fun j => e_get (x_nul X) (d_exp X d) (unit_mi n j))), seq_nth by exact J. apply (shadow_get X holds E _ _ _ S).
  - pose proof (der_derive j p (origin n) 0) as DP. rewrite length_origin in DP. specialize (DP Zp J). rewrite origin_lupd in DP by exact J.
    rewrite (gradient_poly n j p Zp (sorted_nodup' n p Zp Sp) J) in DP.
    destruct (O_weaken n (Datatypes.S (N.to_nat k)) 2 _ ltac:(lia) O) as (C & e & E0 & B).
    assert (DE : derivable_pt_lim (fun t => f (lupd (origin n) j t) - rpoly p (lupd (origin n) j t)) 0 0).
    { assert (F0 : f (origin n) - rpoly p (origin n) = 0).
      { specialize (B (origin n) (length_origin n)). rewrite norm_origin in B. specialize (B ltac:(lra)). rewrite pow_i, Rmult_0_r in B by lia. unfold Rabs in B. destruct Rcase_abs; lra. }
      intros eps He. pose (C' := Rmax C 0 + 1). assert (C0 : 0 < C') by (unfold C'; pose proof (Rmax_r C 0); lra).
      assert (P : 0 < Rmin e (eps / C')) by (apply Rmin_glb_lt; [exact E0 | now apply Rdiv_lt_0_compat]). exists (mkposreal _ P). intros t T0 T. cbn [pos] in T.
      rewrite Rplus_0_l, origin_lupd, F0, !Rminus_0_r by exact J. pose proof (lupd_origin_norm n j t) as Nt. pose proof (norm_nonneg (lupd (origin n) j t)) as Np.
      assert (Te : Rabs t < e) by (eapply Rlt_le_trans; [exact T | apply Rmin_l]). assert (Tc : Rabs t < eps / C') by (eapply Rlt_le_trans; [exact T | apply Rmin_r]).
      specialize (B (lupd (origin n) j t) ltac:(rewrite lupd_length; apply length_origin) ltac:(lra)).
      assert (T1 : 0 < Rabs t) by (now apply Rabs_pos_lt). unfold Rdiv. rewrite Rabs_mult, Rabs_inv.
      apply Rle_lt_trans with (C' * Rabs t ^ 2 * / Rabs t).
      - apply Rmult_le_compat_r; [left; now apply Rinv_0_lt_compat|]. eapply Rle_trans; [exact B|]. apply Rle_trans with (C' * norm (lupd (origin n) j t) ^ 2).
        + apply Rmult_le_compat_r; [apply pow_le, Np|]. unfold C'. pose proof (Rmax_l C 0). lra.
        + apply Rmult_le_compat_l; [lra|]. apply pow_incr. lra.
      - replace (C' * Rabs t ^ 2 * / Rabs t) with (C' * Rabs t) by (field; lra). apply (Rmult_lt_reg_l (/ C')); [now apply Rinv_0_lt_compat|]. rewrite <- Rmult_assoc, Rinv_l, Rmult_1_l by lra. unfold Rdiv in Tc. lra. }
    pose proof (derivable_pt_lim_plus _ _ _ _ _ DE DP) as DS. rewrite Rplus_0_l in DS.
    intros eps He. destruct (DS eps He) as [dl H]. exists dl. intros t T0 T. specialize (H t T0 T). unfold plus_fct in H. 
    replace (f (lupd (origin n) j (0 + t)) - f (lupd (origin n) j 0)) with (f (lupd (origin n) j (0 + t)) - rpoly p (lupd (origin n) j (0 + t)) + rpoly p (lupd (origin n) j (0 + t)) - (f (lupd (origin n) j 0) - rpoly p (lupd (origin n) j 0) + rpoly p (lupd (origin n) j 0))) by ring. exact H.
Qed.

(** ** Lie derivatives *)
Lemma lie_is_der i e : lie_terms X e i = xder_terms X i e.
Proof. reflexivity. Qed.
Lemma lie_wf n k e i : (1 <= k < 65536)%N -> (i < n)%nat -> sized n e -> sorted graded_less e -> Diff_Ring_Proofs.upto X k e -> wf (mkDiff X n (k - 1) (lie_terms X e i)).
Proof.
  intros K I Z S U. unfold sized in Z. unfold Diff_Ring_Proofs.upto in U. rewrite lie_is_der. apply wf_make; [lia | | |].
  - unfold sized. rewrite List.Forall_forall in *. intros [b d] Im. cbn [fst]. apply xder_in in Im as (a & c & Ia & _ & ->). rewrite mi_upd_length. exact (Z _ Ia).
  - induction e as [|[a c] e IH]; [constructor|]. apply Forall_cons_iff in Z as [La Z]. apply Forall_cons_iff in U as [Ua U]. cbn [fst] in La, Ua. apply sorted_inv in S as [S Lt].
    unfold xder_terms. cbn [map concat fst snd]. fold (xder_terms X i e). destruct (N.eqb_spec (nth i a 0%N) 0) as [Q|Q]; [exact (IH Z S U)|].
    apply sorted_cons; [exact (IH Z S U)|]. intros b d Ib. apply xder_in in Ib as (a' & c' & Ia & Na & ->). rewrite List.Forall_forall in Z, U. pose proof (Z _ Ia) as La'. pose proof (U _ Ia) as Ua'. cbn [fst] in La', Ua'.
    apply graded_pred; [congruence | lia | exact Q | exact Na | unfold mi in *; lia | unfold mi in *; lia | exact (Lt _ _ Ia)].
  - unfold Diff_Ring_Proofs.upto. rewrite List.Forall_forall in *. intros [b d] Im. cbn [fst]. apply xder_in in Im as (a & c & Ia & Na & ->). pose proof (Z _ Ia) as La. pose proof (U _ Ia) as Ua. cbn [fst] in La, Ua.
    pose proof (mi_upd_total a i (nth i a 0 - 1)%N ltac:(lia)). unfold mi in *. lia.
Qed.
Lemma lie_good n k x f fs g gs d : good n k x f -> (1 <= k)%N -> Forall2 (good n k) g gs -> length gs = n -> length fs = n -> 0 < d ->
  (forall j h, (j < n)%nat -> length h = n -> norm h <= d -> derivable_pt_lim (fun t => f (lupd h j t)) (nth j h 0) (nth j fs zf h)) ->
  (forall j, (j < n)%nat -> exists q, List.Forall (fun m => length (fst m) = n /\ (total (fst m) <= k - 1)%N) q /\ big_O n (N.to_nat k) (fun h => nth j fs zf h - rpoly q h)) ->
  good n (k - 1) (d_lie X n k x g) (fun h => fold_right Rplus 0 (map (fun j => nth j fs zf h * nth j gs zf h) (seq 0 n))).
Proof.
  intros (W & A & D & p & Sp & O) K F L Lf D0 HD HE. destruct W as (KK & Z & S & U). rewrite A, D in *.
  assert (Zp : List.Forall (fun m => length (fst m) = n) p) by (eapply shadow_sized; [exact Sp | exact Z]).
  assert (Up : List.Forall (fun m => (total (fst m) <= k)%N) p) by exact (shadow_forall X holds (fun a => (total a <= k)%N) _ _ Sp U).
  assert (H : forall m s r u, (s + m <= n)%nat -> good n (k - 1) r u ->
    good n (k - 1) (fold_left (fun r j => d_add X r (d_mul X (mkDiff X n (k - 1) (lie_terms X (d_exp X x) j)) (nth j g (d_zero X n k)))) (seq s m) r)
      (fun h => u h + fold_right Rplus 0 (map (fun j => nth j fs zf h * nth j gs zf h) (seq s m)))).
  { induction m as [|m IH]; intros s r u M G; [eapply good_ext; [|exact G]; intros h _; simpl; ring|]. cbn [seq fold_left map fold_right].
    assert (G1 : good n (k - 1) (mkDiff X n (k - 1) (lie_terms X (d_exp X x) s)) (nth s fs zf)).
    { split; [apply lie_wf; [lia | lia | exact Z | exact S | exact U]|]. split; [reflexivity|]. split; [reflexivity|]. exists (der_terms s p). split; [exact (xder_shadow X holds E s _ _ Sp)|].
      cbn [d_as d_deg]. replace (Datatypes.S (N.to_nat (k - 1))) with (N.to_nat k) by lia. destruct (HE s ltac:(lia)) as (q & Hq & Oq).
      exact (der_expansion n k s f (nth s fs zf) d p q K ltac:(lia) D0 Zp Up O (fun h => HD s h ltac:(lia)) Hq Oq). }
    pose proof (F2_nth _ (d_zero X n k) zf _ _ F s ltac:(lia)) as G2. pose proof (good_mul_min' X holds E n _ _ _ _ _ _ G1 G2) as G3. replace (N.min (k - 1) k) with (k - 1)%N in G3 by lia.
    pose proof (good_add_min X holds E n _ _ _ _ _ _ G G3) as G4. rewrite N.min_id in G4.
    eapply good_ext; [|exact (IH (Datatypes.S s) _ _ ltac:(lia) G4)]. intros h _. cbv beta. ring. }
  unfold d_lie. eapply good_ext; [|exact (H n 0%nat _ _ ltac:(lia) (good_zero X holds n (k - 1) ltac:(lia)))]. intros h _. cbv beta. ring.
Qed.

(** ** Formulas *)
Lemma ex_good n k cs rs v gs e : Forall2 holds cs rs -> Forall2 (good n k) v gs -> (1 <= length v)%nat -> ex_smooth rs (map (fun g => g (origin n)) gs) e ->
  ex_diff X cs v e = UB \/ exists d, ex_diff X cs v e = Ret d /\ good n k d (fun h => ex_real rs (map (fun g => g h) gs) e).
Proof.
  intros C F L1. set (v0 := map (fun g => g (origin n)) gs).
  assert (CH : forall f d d' u u', good n k d u -> good n k d' u' -> checked X f d d' = Ret (f d d')).
  { intros f d d' u u' (_ & A & _) (_ & A' & _). unfold checked. rewrite A, A', Nat.eqb_refl. reflexivity. }
  induction e as [i|e IH i|e IH i|e IH|e IH e' IH'|e IH e' IH'|e IH e' IH'|e IH e' IH'|e IH z|op e IH]; intros S; cbn [ex_smooth ex_diff ex_real] in *.
  - right. exists (nth i v (d_zero X 0 0)). split; [reflexivity|]. unfold v0 in S. rewrite map_length in S. pose proof (F2_nth _ (d_zero X 0 0) zf _ _ F i S) as G.
    eapply good_ext; [|exact G]. intros h _. symmetry. exact (map_nth (fun g : list R -> R => g h) gs zf i).
  - destruct S as [S I]. destruct (IH S) as [->|(d & -> & G)]; [now left|]. right. eexists. split; [reflexivity|]. apply (good_addc X holds E); [|exact G]. exact (F2_nth _ (x_nul X) 0 _ _ C i I).
  - destruct S as [S I]. destruct (IH S) as [->|(d & -> & G)]; [now left|]. right. eexists. split; [reflexivity|]. apply (good_mulc X holds E); [|exact G]. exact (F2_nth _ (x_nul X) 0 _ _ C i I).
  - destruct (IH S) as [->|(d & -> & G)]; [now left|]. right. eexists. split; [reflexivity|]. apply good_neg; assumption.
  - destruct S as [S S']. destruct (IH S) as [->|(d & -> & G)]; [now left|]. cbn [obind]. destruct (IH' S') as [->|(d' & -> & G')]; [now left|]. cbn [obind]. right. eexists. split; [exact (CH _ _ _ _ _ G G')|]. apply good_add; assumption.
  - destruct S as [S S']. destruct (IH S) as [->|(d & -> & G)]; [now left|]. cbn [obind]. destruct (IH' S') as [->|(d' & -> & G')]; [now left|]. cbn [obind]. right. eexists. split; [exact (CH _ _ _ _ _ G G')|]. apply good_sub; assumption.
  - destruct S as [S S']. destruct (IH S) as [->|(d & -> & G)]; [now left|]. cbn [obind]. destruct (IH' S') as [->|(d' & -> & G')]; [now left|]. cbn [obind]. right. eexists. split; [exact (CH _ _ _ _ _ G G')|]. apply good_mul; assumption.
  - destruct S as (S & S' & N0). destruct (IH S) as [->|(d & -> & G)]; [now left|]. cbn [obind]. destruct (IH' S') as [->|(d' & -> & G')]; [now left|]. cbn [obind].
    destruct (d_exp X d') as [|m t] eqn:Q.
    + left. unfold d_div. now rewrite unary_empty.
    + right. destruct (unary_good X holds E n k Rec d' _ eq_refl N0 G') as (r & Qr & Gr); [rewrite Q; intros C0; discriminate C0|].
      assert (DQ : d_div X d d' = Ret (d_mul X d r)) by (unfold d_div; rewrite Qr; exact (CH _ _ _ _ _ G Gr)).
      exists (d_mul X d r). split; [exact DQ|]. exact (div_good X holds E n k _ _ _ _ _ G G' N0 DQ).
  - destruct S as [S N0]. destruct (IH S) as [->|(d & -> & G)]; [now left|]. cbn [obind]. destruct (d_pow X d z) as [r| |] eqn:Q.
    + right. exists r. split; [reflexivity|]. exact (pow_good X holds E n k _ _ _ _ G N0 Q).
    + exfalso. destruct z as [|m|m]; try discriminate Q. cbn [d_pow] in Q. pose proof (pow_nat_good X holds E n k _ _ (Npos m) G) as G1.
      assert (N1 : udom Rec (ex_real rs v0 e ^ N.to_nat (Npos m))) by (apply pow_nonzero, N0; reflexivity).
      destruct (d_exp X (d_pow_nat X d (Npos m))) as [|t l] eqn:Q1; [rewrite unary_empty in Q by (reflexivity || exact Q1); discriminate Q|].
      destruct (unary_good X holds E n k Rec _ _ eq_refl N1 G1) as (r & Qr & _); [rewrite Q1; intros C0; discriminate C0|]. rewrite Qr in Q. discriminate Q.
    + now left.
  - destruct S as (S & H & D). destruct (IH S) as [->|(d & -> & G)]; [now left|]. cbn [obind]. destruct (d_exp X d) as [|m t] eqn:Q; [left; now apply unary_empty|].
    right. apply (unary_good X holds E n k op d _ H D G). rewrite Q. intros C0. discriminate C0.
Qed.

(** ** Absolute value *)
Lemma abs_good n k x f : (forall c r, holds c r -> x_is0 X c = false -> x_pos X c = false -> r < 0) -> good n k x f ->
  d_abs X x = AssertFail \/ exists r e, d_abs X x = Ret r /\ 0 < e /\ good n k r (fun h => Rabs (f h)).
Proof.
  intros HD G. pose proof (good_value X holds E _ _ _ _ G) as V. unfold d_abs. destruct (x_is0 X (d_value X x)) eqn:Q0; [now left|]. right.
  destruct (good_offset X holds _ _ _ _ G) as (K & e & E0 & B).
  assert (NZ : forall c, 0 < c -> exists e', 0 < e' /\ forall h, length h = n -> norm h <= e' -> Rabs (f h - f (origin n)) < c).
  { intros c C0. pose (K' := Rmax K 0 + 1). assert (KP : 0 < K') by (unfold K'; pose proof (Rmax_r K 0); lra). exists (Rmin e (c / (2 * K'))). split; [apply Rmin_glb_lt; [exact E0 | apply Rdiv_lt_0_compat; lra]|].
    intros h L Nh. assert (N1 : norm h <= e) by (eapply Rle_trans; [exact Nh | apply Rmin_l]). assert (N2 : norm h <= c / (2 * K')) by (eapply Rle_trans; [exact Nh | apply Rmin_r]).
    specialize (B h L N1). rewrite pow_1 in B. pose proof (norm_nonneg h). apply Rle_lt_trans with (K' * norm h).
    - eapply Rle_trans; [exact B|]. apply Rmult_le_compat_r; [assumption|]. unfold K'. pose proof (Rmax_l K 0). lra.
    - apply Rle_lt_trans with (K' * (c / (2 * K'))); [apply Rmult_le_compat_l; lra|]. replace (K' * (c / (2 * K'))) with (c / 2) by (field; lra). lra. }
  destruct (x_pos X (d_value X x)) eqn:Qp.
  - pose proof (h_pos _ _ E _ _ Qp V) as P. destruct (NZ _ P) as (e' & E' & B'). exists x, e'. split; [reflexivity|]. split; [exact E'|].
    eapply (good_local X holds n k _ _ _ e' E'); [|exact G]. intros h L Nh. specialize (B' h L Nh). unfold Rabs in *. repeat destruct Rcase_abs in B'; destruct Rcase_abs; lra.
  - pose proof (HD _ _ V Q0 Qp) as P. destruct (NZ (- f (origin n)) ltac:(lra)) as (e' & E' & B'). exists (d_neg X x), e'. split; [reflexivity|]. split; [exact E'|].
    eapply (good_local X holds n k _ _ _ e' E'); [|apply good_neg; [exact E | exact G]]. intros h L Nh. specialize (B' h L Nh). unfold Rabs in *. repeat destruct Rcase_abs in B'; destruct Rcase_abs; lra.
Qed.
End Extra.
