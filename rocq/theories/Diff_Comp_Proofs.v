(** Variables, elementary functions of differentials, powers, composition. *)
From Coq Require Import NArith ZArith List Bool Reals Lra Lia Permutation Sorted.
From Verif Require Import LRU_Model Poly_Model Poly_Spec Poly_Proofs Diff_Model Diff_Spec Diff_O_Proofs Diff_Ring_Proofs Diff_Series_Proofs Diff_Inst Diff_Elem_Proofs.
Import ListNotations.
Local Open Scope R_scope.

(** ** Indices *)
Lemma monom_units n : forall s j h, length h = n ->
  rmonom (map (fun i => if (i =? j)%nat then 1%N else 0%N) (seq s n)) h = if ((s <=? j) && (j <? s + n))%nat then nth (j - s) h 0 else 1.
Proof.
  induction n as [|n IH]; intros s j [|x h] L; try discriminate L.
  - simpl. destruct ((s <=? j)%nat && (j <? s + 0)%nat) eqn:Q; [|reflexivity]. apply andb_true_iff in Q as [A B]. apply Nat.leb_le in A. apply Nat.ltb_lt in B. lia.
  - cbn [seq map monom]. rewrite IH by (simpl in L; lia). destruct (Nat.eqb_spec s j) as [->|NE].
    + rewrite Nat.leb_refl, Nat.sub_diag. replace (S j <=? j)%nat with false by (symmetry; apply Nat.leb_gt; lia).
      replace (j <? j + S n)%nat with true by (symmetry; apply Nat.ltb_lt; lia). cbn [andb nth]. rewrite power_pow. simpl. ring.
    + rewrite power_pow. change (N.to_nat 0) with 0%nat. rewrite pow_O, Rmult_1_l.
      replace (S s + n)%nat with (s + S n)%nat by lia.
      destruct (Nat.leb_spec s j) as [A|A].
      * replace (S s <=? j)%nat with true by (symmetry; apply Nat.leb_le; lia). cbn [andb]. replace (j - s)%nat with (S (j - S s)) by lia. reflexivity.
      * replace (S s <=? j)%nat with false by (symmetry; apply Nat.leb_gt; lia). reflexivity.
Qed.
Lemma monom_unit n j h : (j < n)%nat -> length h = n -> rmonom (unit_mi n j) h = nth j h 0.
Proof.
  intros J L. unfold unit_mi. rewrite monom_units by exact L. replace (j <? 0 + n)%nat with true by (symmetry; apply Nat.ltb_lt; lia).
  simpl. now rewrite Nat.sub_0_r.
Qed.
Lemma length_unit n j : length (unit_mi n j) = n.
Proof. unfold unit_mi. now rewrite map_length, seq_length. Qed.
Lemma total_units n : forall s j, total (map (fun i => if (i =? j)%nat then 1%N else 0%N) (seq s n)) = (if ((s <=? j) && (j <? s + n))%nat then 1 else 0)%N.
Proof.
  induction n as [|n IH]; intros s j.
  - simpl. destruct ((s <=? j)%nat && (j <? s + 0)%nat) eqn:Q; [|reflexivity]. apply andb_true_iff in Q as [A B]. apply Nat.leb_le in A. apply Nat.ltb_lt in B. lia.
  - cbn [seq map]. rewrite total_cons, IH. replace (S s + n)%nat with (s + S n)%nat by lia. destruct (Nat.eqb_spec s j) as [->|NE].
    + rewrite Nat.leb_refl. replace (S j <=? j)%nat with false by (symmetry; apply Nat.leb_gt; lia). replace (j <? j + S n)%nat with true by (symmetry; apply Nat.ltb_lt; lia). reflexivity.
    + destruct (Nat.leb_spec s j) as [A|A].
      * replace (S s <=? j)%nat with true by (symmetry; apply Nat.leb_le; lia). reflexivity.
      * replace (S s <=? j)%nat with false by (symmetry; apply Nat.leb_gt; lia). reflexivity.
Qed.
Lemma total_unit n j : (j < n)%nat -> total (unit_mi n j) = 1%N.
Proof. intros J. unfold unit_mi. rewrite total_units. replace (j <? 0 + n)%nat with true by (symmetry; apply Nat.ltb_lt; lia). reflexivity. Qed.

(** ** The origin *)
Lemma norm_origin n : norm (origin n) = 0.
Proof. induction n as [|n IH]; [reflexivity|]. unfold norm, origin in *. simpl. rewrite IH, Rabs_R0. apply Rmax_left. lra. Qed.
Lemma length_origin n : length (origin n) = n.
Proof. apply repeat_length. Qed.
Lemma monom_origin a n : length a = n -> rmonom a (origin n) = if (total a =? 0)%N then 1 else 0.
Proof.
  revert n; induction a as [|x a IH]; intros [|n] L; try discriminate L; [reflexivity|]. change (origin (S n)) with (0 :: origin n).
  cbn [monom]. rewrite (IH n) by (simpl in L; lia). rewrite total_cons, power_pow. destruct (N.eqb_spec (total a) 0) as [Q|Q].
  - rewrite Q, N.add_0_r. destruct (N.eqb_spec x 0) as [->|X0]; [simpl; ring|]. rewrite pow_ne_zero by lia. ring.
  - replace (x + total a =? 0)%N with false by (symmetry; apply N.eqb_neq; lia). ring.
Qed.
Lemma O_origin n k f : big_O n (S k) f -> f (origin n) = 0.
Proof.
  intros (K & d & D & H). specialize (H (origin n) (length_origin n)). rewrite norm_origin in H. specialize (H ltac:(lra)).
  rewrite pow_ne_zero, Rmult_0_r in H by lia. destruct (Req_dec (f (origin n)) 0) as [Q|Q]; [exact Q|]. pose proof (Rabs_pos_lt _ Q). lra.
Qed.

(** ** Stored coefficients *)
Notation rget := (e_get 0).
Lemma get_absent (p : list (mi * R)) a : (forall b d, In (b, d) p -> b <> a) -> rget p a = 0.
Proof.
  induction p as [|[b d] p IH]; intros H; [reflexivity|]. simpl. assert (Q : mi_eqb b a = false) by (apply mi_eqb_neq, (H b d); now left).
  rewrite Q. apply IH. intros b' d' I. apply (H b' d'). now right.
Qed.
Lemma sset_rpoly n (p : list (mi * R)) a r h : sized n p -> sorted graded_less p -> length a = n ->
  rpoly (s_set graded_less p a r) h = rpoly p h + (r - rget p a) * rmonom a h.
Proof.
  intros Z S La. induction p as [|[b d] p IH].
  - cbn [s_set e_get]. rewrite rpoly_cons, rpoly_nil. ring.
  - apply Forall_cons_iff in Z as [Lb Z]. apply sorted_inv in S as [S Lt]. cbn [s_set e_get]. destruct (graded_less b a) eqn:L.
    + assert (Q : mi_eqb b a = false) by (apply mi_eqb_neq; exact (less_neq n graded_less (graded_order n) b a Lb L)).
      rewrite !rpoly_cons, IH, Q by assumption. ring.
    + destruct (mi_eqb b a) eqn:Q; [apply mi_eqb_eq in Q as ->; rewrite !rpoly_cons; ring|].
      apply mi_eqb_neq in Q. assert (L' : graded_less a b = true) by (apply (less_total n graded_less (graded_order n) b a); assumption).
      rewrite !rpoly_cons. replace (rget p a) with 0; [ring|]. symmetry. apply get_absent. intros c e I ->.
      unfold sized in Z. rewrite List.Forall_forall in Z. pose proof (Z _ I) as Zc. simpl in Zc.
      pose proof (Lt _ _ I) as L2. rewrite (less_asym n graded_less (graded_order n) a b La Lb L') in L2. discriminate L2.
Qed.
Lemma rpoly_origin n p : sized n p -> sorted graded_less p -> rpoly p (origin n) = rget p (zeros n).
Proof.
  intros Z S. induction p as [|[a c] p IH]; [reflexivity|]. apply Forall_cons_iff in Z as [La Z]. cbn [fst] in La. apply sorted_inv in S as [S Lt].
  rewrite rpoly_cons, (monom_origin _ n La). cbn [e_get]. destruct (N.eqb_spec (total a) 0) as [Q|Q].
  - apply Poly_Proofs.total_zero in Q. simpl in La. rewrite La in Q. assert (Q1 : a = zeros n) by exact Q. clear Q. subst a. rewrite IH by assumption.
    replace (mi_eqb (zeros n) (zeros n)) with true by (symmetry; now apply mi_eqb_eq). rewrite get_absent; [cbv iota; ring|].
    intros b d I ->. pose proof (Lt _ _ I) as L. rewrite (less_irrefl n graded_less (graded_order n)) in L by apply length_zeros. discriminate L.
  - rewrite IH by assumption. replace (mi_eqb a (zeros n)) with false; [cbv iota; ring|]. symmetry. apply mi_eqb_neq. intros ->. now rewrite total_zeros0 in Q.
Qed.

Section Comp.
Context (X : scalar) (holds : X -> R -> Prop) (E : encloses X holds).
Notation shadow := (@shadow X holds).
Notation wf := (@wf X).
Notation jet := (@jet X holds).
Notation upto := (upto X).

Lemma shadow_sorted e p : shadow e p -> sorted graded_less e -> sorted graded_less p.
Proof.
  intros H. induction H as [|[a c] [a' r] e p [F _] Hr IH]; intros S; [constructor|]. inversion_clear S as [|? ? S' Fa]. constructor; [exact (IH S')|].
  simpl in F. subst a'. exact (shadow_forall X holds (fun b => graded_less a b = true) _ _ Hr Fa).
Qed.
Lemma shadow_get e p a : shadow e p -> holds (e_get (x_nul X) e a) (rget p a).
Proof.
  induction 1 as [|[b c] [b' r] e p [F H] _ IH]; [apply (h_nul _ _ E)|]. simpl in F, H. subst b'. simpl. destruct (mi_eqb b a); assumption.
Qed.
Lemma shadow_set e p a c r : shadow e p -> holds c r -> shadow (s_set graded_less e a c) (s_set graded_less p a r).
Proof.
  intros S H. induction S as [|[b d] [b' s] e p [F G] S IH]; [apply shadow_cons; [exact H | constructor]|]. simpl in F, G. subst b'. cbn [s_set].
  destruct (graded_less b a); [now apply shadow_cons|]. destruct (mi_eqb b a); [now apply shadow_cons | apply shadow_cons; [exact H | now apply shadow_cons]].
Qed.

(** A differential of degree k in n variables carrying f. *)
Notation good := (good X holds).
Lemma good_ext n k d f g : (forall h, length h = n -> f h = g h) -> good n k d f -> good n k d g.
Proof. intros Q (W & A & D & J). repeat split; try apply W; auto. eapply jet_ext; [|exact J]. rewrite A. exact Q. Qed.

Lemma good_value n k d f : good n k d f -> holds (d_value X d) (f (origin n)).
Proof.
  intros ((K & Z & S & U) & A & D & p & Sp & O). unfold d_value, d_get.
  pose proof (shadow_get _ _ (zeros (d_as X d)) Sp) as H. rewrite <- (rpoly_origin _ p (shadow_sized _ _ _ _ _ Sp Z) (shadow_sorted _ _ Sp S)) in H.
  apply O_origin in O. rewrite A in *. replace (f (origin n)) with (rpoly p (origin n)) by lra. exact H.
Qed.
Lemma good_offset n k d f : good n k d f -> big_O n 1 (fun h => f h - f (origin n)).
Proof.
  intros ((K & Z & S & U) & A & D & p & Sp & O). pose proof (O_origin _ _ _ O) as F0. rewrite A in *.
  assert (P : big_O n 1 (fun h => rpoly p h - rpoly p (origin n))).
  { pose proof (shadow_sized _ _ _ _ _ Sp Z) as Zp. clear - Zp. induction p as [|[a c] p IH]; [eapply O_ext; [|apply O_zero]; intros h _; rewrite !rpoly_nil; simpl; ring|].
    apply Forall_cons_iff in Zp as [La Zp]. simpl in La.
    eapply O_ext; [|apply (O_add n 1 (fun h => c * (rmonom a h - rmonom a (origin n))) (fun h => rpoly p h - rpoly p (origin n)))]; [intros h _; cbv beta; rewrite !rpoly_cons; ring | | exact (IH Zp)].
    apply O_scale. rewrite (monom_origin a n La). destruct (N.eqb_spec (total a) 0) as [Q|Q].
    - apply Poly_Proofs.total_zero in Q. rewrite Q. eapply O_ext; [|apply O_zero]. intros h _. cbv beta. change (Poly_Proofs.zeros (length a)) with (zeros (length a)). rewrite monom_zeros1. ring.
    - eapply O_ext; [|apply (O_weaken n (N.to_nat (total a)) 1); [lia | exact (O_monom n a La)]]. intros h _. cbv beta. ring. }
  eapply O_ext; [|apply O_add; [exact P | apply (O_weaken n (Datatypes.S (N.to_nat (d_deg X d))) 1); [lia | exact O]]]. intros h _. cbv beta. lra.
Qed.

Lemma good_constant n k c r : (k < 65536)%N -> holds c r -> good n k (d_constant X n k c) (fun _ => r).
Proof. intros K H. split; [now apply d_constant_wf|]. split; [reflexivity|]. split; [reflexivity | now apply d_constant_jet]. Qed.
Lemma good_zero n k : (k < 65536)%N -> good n k (d_zero X n k) (fun _ => 0).
Proof.
  intros K. split; [repeat split; try constructor; exact K|]. split; [reflexivity|]. split; [reflexivity|]. exists []. split; [constructor|].
  eapply O_ext; [|apply O_zero]. intros h _. cbv beta. rewrite rpoly_nil. ring.
Qed.
Lemma zeros_unit n j : (j < n)%nat -> graded_less (zeros n) (unit_mi n j) = true.
Proof.
  intros J. apply zeros_least; [apply length_unit | rewrite total_unit; [reflexivity | exact J] |].
  intros Q. pose proof (total_unit n j J) as T. rewrite Q, total_zeros0 in T. discriminate T.
Qed.
Lemma good_variable n k c r j : (1 <= k < 65536)%N -> (j < n)%nat -> holds c r -> good n k (d_variable X n k c j) (fun h => r + nth j h 0).
Proof.
  intros K J H. split; [|split; [reflexivity | split; [reflexivity|]]].
  - apply wf_make; [lia | | |].
    + repeat constructor; [apply length_zeros | apply length_unit].
    + apply sorted_cons; [repeat constructor|]. intros b d [I|[]]. injection I as <- <-. now apply zeros_unit.
    + constructor; [simpl; rewrite total_zeros0; lia|]. constructor; [cbn [fst]; rewrite total_unit by exact J; lia | constructor].
  - exists [(zeros n, r); (unit_mi n j, 1)]. split.
    + apply shadow_cons; [exact H|]. apply shadow_cons; [exact (h_nat _ _ E 1) | constructor].
    + eapply O_ext; [|apply O_zero]. intros h L. cbv beta. rewrite !rpoly_cons, rpoly_nil, monom_zeros1, monom_unit by assumption. ring.
Qed.

Lemma good_add n k x y f g : good n k x f -> good n k y g -> good n k (d_add X x y) (fun h => f h + g h).
Proof.
  intros (W & A & D & J) (W' & A' & D' & J'). split; [apply d_add_wf; congruence|]. split; [exact A|]. split; [simpl; rewrite D, D'; apply N.min_id|].
  apply d_add_jet; auto; congruence.
Qed.
Lemma good_sub n k x y f g : good n k x f -> good n k y g -> good n k (d_sub X x y) (fun h => f h - g h).
Proof.
  intros (W & A & D & J) (W' & A' & D' & J'). split; [apply d_sub_wf; congruence|]. split; [exact A|]. split; [simpl; rewrite D, D'; apply N.min_id|].
  apply d_sub_jet; auto; congruence.
Qed.
Lemma good_mul n k x y f g : good n k x f -> good n k y g -> good n k (d_mul X x y) (fun h => f h * g h).
Proof.
  intros (W & A & D & J) (W' & A' & D' & J'). split; [apply (d_mul_wf X holds E); congruence|]. split; [exact A|]. split; [simpl; rewrite D, D'; apply N.min_id|].
  apply d_mul_jet; auto; congruence.
Qed.
Lemma good_neg n k x f : good n k x f -> good n k (d_neg X x) (fun h => - f h).
Proof. intros (W & A & D & J). split; [now apply d_neg_wf|]. split; [exact A|]. split; [exact D|]. now apply d_neg_jet. Qed.
Lemma good_mulc n k x f c r : holds c r -> good n k x f -> good n k (d_mulc X x c) (fun h => f h * r).
Proof. intros H (W & A & D & J). split; [now apply d_mulc_wf|]. split; [exact A|]. split; [exact D|]. now apply d_mulc_jet. Qed.
Lemma good_addc n k x f c r : holds c r -> good n k x f -> good n k (d_addc X x c) (fun h => f h + r).
Proof. intros H (W & A & D & J). split; [now apply d_addc_wf|]. split; [exact A|]. split; [exact D|]. now apply d_addc_jet. Qed.

(** ** Power series *)
Lemma horner_good n k w g s a : good n k w g -> forall m r u, (forall i, (i < m)%nat -> holds (nth i s (x_nul X)) (a i)) -> good n k r u ->
  good n k (horner X w s m r) (fun h => u h * g h ^ m + psum a m (g h)).
Proof.
  intros W m. induction m as [|m IH]; intros r u H Rr; cbn [horner].
  - eapply good_ext; [|exact Rr]. intros h _. simpl. ring.
  - eapply good_ext; [|apply IH; [intros i I; apply H; lia | apply good_addc; [apply H; lia | apply good_mul; [exact Rr | exact W]]]].
    intros h _. simpl. ring.
Qed.
Lemma good_without_value n k y f a c e : good n k y f -> d_exp X y = (a, c) :: e ->
  good n k (mkDiff X n k ((a, if (degree a =? 0)%N then x_nul X else c) :: e)) (fun h => f h - f (origin n)).
Proof.
  intros (W & A & D & p & Sp & O) Q. pose proof (wf_small X _ W) as T. destruct W as (K & Z & S & U). rewrite Q in *. rewrite A, D in *.
  pose proof T as T'. apply Forall_cons_iff in T' as [Ta _]. simpl in Ta. rewrite degree_small by exact Ta.
  pose proof Z as Z'. apply Forall_cons_iff in Z' as [La Z']. simpl in La.
  pose proof (rpoly_origin _ p (shadow_sized _ _ _ _ _ Sp Z) (shadow_sorted _ _ Sp S)) as P0. pose proof (O_origin _ _ _ O) as F0.
  pose proof Sp as Sp'. apply shadow_inv in Sp' as (r & p' & -> & Hr & S').
  split; [|split; [reflexivity | split; [reflexivity|]]].
  - apply wf_make; [exact K | constructor; [exact La | exact Z'] | | ].
    + apply sorted_inv in S as [S1 S2]. now apply sorted_cons.
    + apply Forall_cons_iff in U as [U1 U2]. constructor; assumption.
  - destruct (N.eqb_spec (total a) 0) as [N0|N0].
    + apply Poly_Proofs.total_zero in N0. rewrite La in N0. change (Poly_Proofs.zeros n) with (zeros n) in N0. subst a.
      cbn [e_get] in P0. replace (mi_eqb (zeros n) (zeros n)) with true in P0 by (symmetry; now apply mi_eqb_eq).
      exists ((zeros n, 0) :: p'). split; [apply shadow_cons; [apply (h_nul _ _ E) | exact S']|].
      eapply O_ext; [|exact O]. intros h _. cbv beta. rewrite !rpoly_cons, monom_zeros1. rewrite <- P0. lra.
    + assert (G : rget ((a, r) :: p') (zeros n) = 0).
      { apply get_absent. intros b d I Qb. subst b.
        assert (GL : forall b d, In (b, d) ((a, r) :: p') -> (total a <= total b)%N).
        { intros b d' [Ib|Ib]; [injection Ib as <- <-; lia|]. pose proof (sorted_tail_total X a c e S T) as TT.
          pose proof (shadow_forall X holds (fun b => (total a <= total b)%N) _ _ S' TT) as TP. rewrite List.Forall_forall in TP. exact (TP _ Ib). }
        specialize (GL _ _ I). rewrite total_zeros0 in GL. lia. }
      rewrite G in P0. exists ((a, r) :: p'). split; [exact Sp|]. eapply O_ext; [|exact O]. intros h _. cbv beta. rewrite P0 in F0. lra.
Qed.
Lemma big_compose n k g (e : R -> R) : big_O n 1 g -> O1 k e -> big_O n k (fun h => e (g h)).
Proof.
  intros (K & d & D & H) (L & d' & D' & H'). pose (K' := Rmax K 1). assert (K1 : 1 <= K') by apply Rmax_r.
  exists (Rmax L 0 * K' ^ k), (Rmin d (d' / K')). split; [apply Rmin_glb_lt; [exact D | apply Rdiv_lt_0_compat; lra]|]. intros h Lh N.
  assert (N1 : norm h <= d) by (eapply Rle_trans; [exact N | apply Rmin_l]). assert (N2 : norm h <= d' / K') by (eapply Rle_trans; [exact N | apply Rmin_r]).
  pose proof (norm_nonneg h) as P. specialize (H h Lh N1). rewrite pow_1 in H.
  assert (G : Rabs (g h) <= K' * norm h). { eapply Rle_trans; [exact H|]. apply Rmult_le_compat_r; [exact P | apply Rmax_l]. }
  assert (G' : Rabs (g h) <= d'). { eapply Rle_trans; [exact G|]. apply Rle_trans with (K' * (d' / K')); [apply Rmult_le_compat_l; lra | right; field; lra]. }
  eapply Rle_trans; [exact (H' _ G')|]. apply Rle_trans with (Rmax L 0 * Rabs (g h) ^ k).
  - apply Rmult_le_compat_r; [apply pow_le, Rabs_pos | apply Rmax_l].
  - rewrite Rmult_assoc, <- Rpow_mult_distr. apply Rmult_le_compat_l; [apply Rmax_r|]. apply pow_incr. split; [apply Rabs_pos | exact G].
Qed.
Lemma unary_good n k op x f : has_series op = true -> udom op (f (origin n)) -> good n k x f -> d_exp X x <> [] ->
  exists r, d_unary X op x = Ret r /\ good n k r (fun h => usem op (f h)).
Proof.
  intros Hs D G NE. pose proof (good_value _ _ _ _ G) as V. pose proof G as (W & A & Dg & J). unfold d_unary. rewrite Dg.
  destruct (series_holds X holds E op _ _ (S (N.to_nat k)) Hs D V) as (s & -> & L & H). unfold compose_series. rewrite A, Dg, L.
  replace (N.min (N.of_nat (S (N.to_nat k) - 1)) k) with k by lia.
  destruct (d_exp X x) as [|[a c] e] eqn:Q; [contradiction|]. eexists. split; [reflexivity|].
  assert (K : (k < 65536)%N) by (rewrite <- Dg; apply W).
  pose proof (good_without_value n k x f a c e G Q) as Gw.
  pose proof (horner_good n k _ _ s (tc op (f (origin n))) Gw (N.to_nat k) _ (fun _ => tc op (f (origin n)) (N.to_nat k))
      (fun i I => H i (Nat.lt_trans _ _ _ I (Nat.lt_succ_diag_r _))) (good_constant n k _ _ K (H (N.to_nat k) (Nat.lt_succ_diag_r _)))) as GH.
  unfold d_constant in GH. destruct GH as (Wr & Ar & Dr & Jr). split; [exact Wr|]. split; [exact Ar|]. split; [exact Dr|].
  destruct Jr as (q & Sq & Oq). exists q. split; [exact Sq|]. rewrite Ar, Dr in *.
  pose proof (big_compose n _ _ _ (good_offset _ _ _ _ G) (series_correct op (f (origin n)) Hs D (S (N.to_nat k)))) as OC.
  eapply O_ext; [|exact (O_add _ _ _ _ Oq OC)]. intros h _. cbv beta. cbn [psum].
  replace (f (origin n) + (f h - f (origin n))) with (f h) by ring. ring.
Qed.
Lemma unary_empty op x : has_series op = true -> d_exp X x = [] -> d_unary X op x = UB.
Proof.
  intros H Q. unfold d_unary. assert (A : forall m, exists s, series X op (d_value X x) m = Some s).
  { induction m as [|m (s & S1)]; [now exists []|]. destruct (next_some X op m (d_value X x) s H) as [v V]. exists (s ++ [v]). simpl. now rewrite S1, V. }
  destruct (A (S (N.to_nat (d_deg X x)))) as [s ->]. unfold compose_series. now rewrite Q.
Qed.
Lemma div_good n k x y f g r : good n k x f -> good n k y g -> g (origin n) <> 0 -> d_div X x y = Ret r -> good n k r (fun h => f h / g h).
Proof.
  intros Gx Gy N0. unfold d_div. destruct (d_exp X y) as [|m e] eqn:Q.
  - rewrite unary_empty by (reflexivity || exact Q). intros C; discriminate C.
  - destruct (unary_good n k Rec y g eq_refl N0 Gy ltac:(rewrite Q; intros C; discriminate C)) as (s & -> & Gs). unfold checked.
    replace (d_as X x =? d_as X s)%nat with true by (symmetry; apply Nat.eqb_eq; destruct Gx as (_ & -> & _); destruct Gs as (_ & -> & _); reflexivity).
    intros H. injection H as <-. eapply good_ext; [|exact (good_mul _ _ _ _ _ _ Gx Gs)]. intros h _. reflexivity.
Qed.
Lemma pow_loop_good n k m : forall r p u v, good n k r u -> good n k p v -> good n k (pow_loop X m r p) (fun h => u h * v h ^ Pos.to_nat m).
Proof.
  induction m as [m IH|m IH|]; intros r p u v Gr Gp; cbn [pow_loop].
  - eapply good_ext; [|apply IH; [apply good_mul; [exact Gr | exact Gp] | apply good_mul; exact Gp]].
    intros h _. cbv beta. rewrite Pos2Nat.inj_xI. replace (S (2 * Pos.to_nat m)) with (2 * Pos.to_nat m + 1)%nat by lia. rewrite pow_add, pow_mult. simpl. ring_simplify. replace (v h * (v h * 1)) with (v h * v h) by ring. ring.
  - eapply good_ext; [|apply IH; [exact Gr | apply good_mul; exact Gp]].
    intros h _. cbv beta. rewrite Pos2Nat.inj_xO, pow_mult. replace (v h ^ 2) with (v h * v h) by ring. ring.
  - eapply good_ext; [|apply good_mul; [exact Gr | exact Gp]]. intros h _. cbv beta. rewrite Pos2Nat.inj_1. simpl. ring.
Qed.
Lemma pow_nat_good n k x f m : good n k x f -> good n k (d_pow_nat X x m) (fun h => f h ^ N.to_nat m).
Proof.
  intros G. pose proof (good_addc n k _ _ _ _ (h_nat _ _ E 1) (good_mulc n k x f _ _ (h_nat _ _ E 0) G)) as G1.
  unfold d_pow_nat. destruct m as [|m].
  - eapply good_ext; [|exact G1]. intros h _. simpl. ring.
  - eapply good_ext; [|exact (pow_loop_good n k m _ _ _ _ G1 G)]. intros h _. simpl. ring.
Qed.
Lemma pow_good n k x f z r : good n k x f -> ((z < 0)%Z -> f (origin n) <> 0) -> d_pow X x z = Ret r -> good n k r (fun h => powerRZ (f h) z).
Proof.
  intros G Z. destruct z as [|m|m]; cbn [d_pow].
  - intros H. injection H as <-. eapply good_ext; [|exact (pow_nat_good n k x f 0 G)]. reflexivity.
  - intros H. injection H as <-. eapply good_ext; [|exact (pow_nat_good n k x f (Npos m) G)]. reflexivity.
  - pose proof (pow_nat_good n k x f (Npos m) G) as Gp. cbv beta in Gp. destruct (d_exp X (d_pow_nat X x (Npos m))) as [|t e] eqn:Q.
    + rewrite unary_empty by (reflexivity || exact Q). intros C; discriminate C.
    + destruct (unary_good n k Rec _ _ eq_refl (pow_nonzero _ (N.to_nat (Npos m)) (Z ltac:(reflexivity))) Gp ltac:(rewrite Q; intros C; discriminate C)) as (s & -> & Gs).
      intros H. injection H as <-. eapply good_ext; [|exact Gs]. reflexivity.
Qed.
End Comp.
