(** * Proofs about Taylor models: range, calculus, variables, refinement, evaluation *)

From Coq Require Import ZArith NArith Reals List Bool Lra Lia Sorted Permutation.
From Flocq Require Import Core IEEE754.BinarySingleNaN.
From Verif Require Import Float_Model Float_Spec Float_Proofs Bounds_Model Bounds_Spec Bounds_Proofs
  Ball_Model Ball_Spec Ball_Proofs ErrBound_Model ErrBound_Spec ErrBound_Proofs LRU_Model
  Poly_Model Poly_Spec Poly_Proofs Taylor_Model Taylor_Spec Taylor_Proofs Taylor_Arith_Proofs.
Import ListNotations.
Local Open Scope R_scope.

Section Range.
Context {prec emax : Z}
        {Hprec : Prec_gt_0 prec} {Hemax : Prec_lt_emax prec emax}.
Notation fl := (binary_float prec emax).
Notation bnd := (bounds prec emax).
Notation fin x := (is_finite x = true).
Notation rpoly := (poly 0 1 Rplus Rmult).
Notation rmonom := (monom 1 Rmult).
Notation rpower := (power 1 Rmult).
Notation allfin p := (Forall (fun m => is_finite (snd m) = true) p).
Notation unit_pt x := (Forall (fun t => -1 <= t <= 1) x).
Notation big := (bpow radix2 emax).
Notation tmod := (tm prec emax).

(** ** The range of a quadratic *)
Lemma ffour_val : (2 < emax)%Z -> B2R (ffour : fl) = 4 /\ fin (ffour : fl).
Proof.
  intros E. pose proof (Bldexp_correct prec emax Hprec Hemax mode_NE Bone 2) as H. rewrite Bone_correct in H.
  assert (generic_format radix2 (SpecFloat.fexp prec emax) (1 * bpow radix2 2)) as G.
  { rewrite Rmult_1_l. apply generic_format_bpow. unfold SpecFloat.fexp, SpecFloat.emin.
    pose proof Hprec; pose proof Hemax. unfold Prec_gt_0, Prec_lt_emax in *. lia. }
  rewrite round_generic in H by (auto with typeclass_instances). rewrite Rlt_bool_true in H.
  - destruct H as [H1 [H2 _]]. unfold ffour. rewrite H1, H2. split; [cbn; lra|apply is_finite_Bone].
  - rewrite Rmult_1_l. rewrite Rabs_pos_eq by apply bpow_ge_0. apply bpow_lt. lia.
Qed.
Lemma unit_contains t : -1 <= t <= 1 -> contains (unit_ivl : bnd) t.
Proof.
  intros T. split; cbn [unit_ivl b_l b_u].
  - apply below_finite; [rewrite fneg_fin; apply fone_finite|rewrite fneg_val, fone_val; lra].
  - apply above_finite; [apply fone_finite|rewrite fone_val; lra].
Qed.
Lemma unit_finite : finite_bounds (unit_ivl : bnd).
Proof. split; cbn [unit_ivl b_l b_u]; [rewrite fneg_fin|]; apply fone_finite. Qed.
Lemma fmul_nan_free m (a x : fl) : fin a -> B2R a <> 0 -> is_nan x = false -> is_nan (fmul m a x) = false.
Proof.
  intros F N X. destruct (is_finite x) eqn:Fx.
  - eapply rounded_not_nan, fmul_rounded; auto.
  - destruct x as [|s| |]; try discriminate. rewrite (proj1 (fmul_inf_finite m a s F N)). reflexivity.
Qed.
Lemma fb_mul_contains (a : fl) (X : bnd) x : fin a -> B2R a <> 0 -> contains X x -> contains (fb_mul a X) (B2R a * x).
Proof.
  intros F N C. unfold fb_mul. apply b_mul_contains; auto; [apply b_of_contains; auto|].
  destruct C as [A B]. pose proof (below_not_nan _ _ A). pose proof (above_not_nan _ _ B).
  unfold b_mul, no_nan; cbn [b_of b_l b_u].
  assert (forall m y, is_nan y = false -> is_nan (fmul m a y) = false) as K by (intros; apply fmul_nan_free; auto).
  repeat match goal with |- context [if ?b then _ else _] => destruct b; cbn [b_l b_u] end; auto;
  unfold fmin, fmax; repeat match goal with |- context [if ?b then _ else _] => destruct b end; auto.
Qed.
Lemma abs_unit_contains (a : fl) s : fin a -> Rabs s <= Rabs (B2R a) -> contains (fb_mul (fabs a) unit_ivl) s.
Proof.
  intros F S. destruct (Req_dec (B2R a) 0) as [Z|Z].
  - rewrite Z, Rabs_R0 in S. assert (s = B2R (fabs a) * 0) as -> by (pose proof (Rabs_pos s); assert (Rabs s = 0) as Q by lra; destruct (Req_dec s 0); [lra|apply Rabs_no_R0 in Q; tauto]).
    apply b_mul_contains.
    + apply b_of_contains. rewrite fabs_fin; auto.
    + apply unit_contains; lra.
    + apply b_mul_no_nan with (B2R (fabs a)) 0; [apply b_of_contains; rewrite fabs_fin; auto|apply unit_contains; lra|split; cbn; rewrite fabs_fin; auto|apply unit_finite].
  - assert (B2R (fabs a) <> 0) as Z' by (rewrite fabs_val; apply Rabs_no_R0; auto).
    replace s with (B2R (fabs a) * (s / B2R (fabs a))) by (field; auto). apply fb_mul_contains; auto; [rewrite fabs_fin; auto|].
    apply unit_contains. apply Rabs_le_inv. unfold Rdiv. rewrite Rabs_mult, Rabs_inv, fabs_val, Rabs_Rabsolu.
    pose proof (Rabs_pos_lt _ Z). apply Rmult_le_reg_r with (Rabs (B2R a)); auto. field_simplify; lra.
Qed.
Lemma quad_contains (a b : fl) t : (2 < emax)%Z -> fin a -> fin b -> -1 <= t <= 1 ->
  contains (quad_range a b) (B2R a * (t * t) + B2R b * t).
Proof.
  intros E Fa Fb T. unfold quad_range.
  assert (Rabs (t * t) <= 1 /\ Rabs t <= 1) as [T2 T1] by (split; apply Rabs_le; nra).
  assert (contains (b_add (fb_mul (fabs a) unit_ivl) (fb_mul (fabs b) unit_ivl)) (B2R a * (t * t) + B2R b * t)) as Q.
  { apply b_add_contains; apply abs_unit_contains; auto; rewrite Rabs_mult.
    - pose proof (Rabs_pos (B2R a)). nra.
    - pose proof (Rabs_pos (B2R b)). nra. }
  destruct (flt_eq a fzero) eqn:Z; auto.
  assert (B2R a <> 0) as NZ. { intros X. assert (flt_eq a fzero = true) by (apply flt_eq_finite; auto). congruence. }
  assert (contains (b_sub (fb_mul a (b_sqr (b_add unit_ivl (bf_div (ff_div b a) ftwo)))) (bf_div (bf_div (ff_sqr b) a) ffour))
           (B2R a * (t * t) + B2R b * t)) as Q2.
  { destruct (ffour_val E) as [V4 F4]. destruct ftwo_val as [V2 F2].
    replace (B2R a * (t * t) + B2R b * t) with
      (B2R a * ((t + B2R b / B2R a / B2R (ftwo : fl)) * (t + B2R b / B2R a / B2R (ftwo : fl))) - B2R b * B2R b / B2R a / B2R (ffour : fl))
      by (rewrite V2, V4; field; auto).
    apply b_sub_contains.
    - apply fb_mul_contains; auto. apply b_sqr_contains. apply b_add_contains; [apply unit_contains; auto|].
      apply b_div_contains; [apply ff_div_contains; auto|apply b_of_contains; auto|lra].
    - apply b_div_contains; [|apply b_of_contains; auto|lra]. apply b_div_contains; [|apply b_of_contains; auto|auto].
      split; cbn; [apply rounded_down_below|apply rounded_up_above]; apply fmul_rounded; auto. }
  apply b_refinement_iff; auto; eapply contains_no_nan; eauto.
Qed.

(** ** Linear and square terms *)
Lemma upd_other {A} (l : list A) : forall i j v d, i <> j -> nth j (upd l i v) d = nth j l d.
Proof. induction l as [|w l IH]; intros [|i] [|j] v d N; cbn; auto; try congruence. Qed.
Lemma monom_single n : forall j v x, length x = n -> (j < n)%nat -> rmonom (upd (repeat 0%N n) j v) x = rpower (nth j x 0) (N.to_nat v).
Proof.
  induction n as [|n IH]; intros j v x L J; [lia|]. destruct x as [|t x]; [discriminate|]. cbn [repeat].
  destruct j as [|j]; cbn [upd monom nth].
  - rewrite (monom_zeros RTheory). ring.
  - rewrite IH by (cbn in *; lia). cbn. ring.
Qed.
Lemma find_entry_unit a : total a = 1%N -> exists j, find_entry 1 a = Some j /\ (j < length a)%nat /\ a = upd (repeat 0%N (length a)) j 1%N.
Proof.
  induction a as [|x a IH]; [discriminate|]. rewrite total_cons. intros T. cbn [find_entry length repeat].
  destruct (N.eqb_spec x 1) as [->|NE].
  - exists 0%nat. split; auto. split; [lia|]. cbn [upd]. f_equal. apply (total_zero a). lia.
  - destruct IH as (j & -> & J & E); [lia|]. exists (S j). split; auto. split; [lia|]. cbn [upd]. rewrite <- E. f_equal. lia.
Qed.
Lemma find_square_spec a : total a = 2%N -> (exists j, find_square a = Some (j, true) /\ (j < length a)%nat /\ a = upd (repeat 0%N (length a)) j 2%N)
  \/ (exists j, find_square a = Some (j, false)).
Proof.
  induction a as [|x a IH]; [discriminate|]. rewrite total_cons. intros T. cbn [find_square length repeat].
  destruct (N.eqb_spec x 2) as [->|N2].
  - left. exists 0%nat. split; auto. split; [lia|]. cbn [upd]. f_equal. apply (total_zero a). lia.
  - destruct (N.eqb_spec x 1) as [->|N1]; [right; eauto|].
    destruct IH as [(j & -> & J & E)|(j & ->)]; [lia| |right; cbn; eauto].
    left. exists (S j). cbn. split; auto. split; [lia|]. rewrite <- E. f_equal. lia.
Qed.

(** The sum of [h l_j x_j]. *)
Fixpoint sums (h : R -> R) (l : list fl) (x : list R) : R :=
  match l, x with c :: l, t :: x => B2R c * h t + sums h l x | _, _ => 0 end.
Lemma sums_upd h : forall l x j c, length x = length l -> (j < length l)%nat ->
  sums h (upd l j c) x = sums h l x - B2R (nth j l fzero) * h (nth j x 0) + B2R c * h (nth j x 0).
Proof.
  induction l as [|w l IH]; intros [|t x] j c L J; cbn in *; try lia. destruct j as [|j]; cbn [sums upd nth]; [ring|].
  rewrite IH by lia. ring.
Qed.
Lemma sums_zeros h : forall n x, sums h (repeat fzero n) x = 0.
Proof. induction n as [|n IH]; intros [|t x]; cbn; auto. rewrite IH. ring. Qed.
Lemma upd_forall {A} (P : A -> Prop) : forall l i v, Forall P l -> P v -> Forall P (upd l i v).
Proof. induction l as [|w l IH]; intros [|i] v F V; cbn; auto; inversion_clear F; constructor; auto. Qed.

Definition quad (s : range_state (prec:=prec) (emax:=emax)) (x : list R) : R :=
  B2R (rs_c s) + sums (fun t => t * t) (rs_q s) x + sums (fun t => t) (rs_l s) x.
(** What the loop over the terms has established after the terms [p]. *)
Record range_inv (n : nat) (p : list (mi * fl)) (s : range_state (prec:=prec) (emax:=emax)) : Prop := {
  ri_l : length (rs_l s) = n; ri_q : length (rs_q s) = n;
  ri_fin : fin (rs_c s) /\ Forall (fun c => fin c) (rs_l s) /\ Forall (fun c => fin c) (rs_q s);
  ri_c : ~ In (repeat 0%N n) (map fst p) -> rs_c s = fzero;
  ri_lin : forall j, (j < n)%nat -> ~ In (upd (repeat 0%N n) j 1%N) (map fst p) -> nth j (rs_l s) fzero = fzero;
  ri_sq : forall j, (j < n)%nat -> ~ In (upd (repeat 0%N n) j 2%N) (map fst p) -> nth j (rs_q s) fzero = fzero;
  ri_err : forall x, in_box n x -> above (rs_e s) (Rabs (peval p x - quad s x))
}.
Lemma range_init_inv n : range_inv n [] (range_init n).
Proof.
  constructor; unfold range_init; cbn [rs_l rs_q rs_c rs_e]; try (apply repeat_length); auto.
  - split; auto. split; apply Forall_forall; intros c I; apply repeat_spec in I; subst; auto.
  - intros. apply nth_repeat.
  - intros. apply nth_repeat.
  - intros x X. unfold quad; cbn [rs_l rs_q rs_c]. rewrite peval_nil, !sums_zeros. cbn [fzero B2R].
    replace (0 - (0 + 0 + 0)) with 0 by ring. rewrite Rabs_R0. cbn. lra.
Qed.
Lemma snoc_in (p : list (mi * fl)) a c b : ~ In b (map fst (p ++ [(a, c)])) -> ~ In b (map fst p) /\ b <> a.
Proof. rewrite map_app, in_app_iff. cbn. intuition. Qed.
Lemma range_step n p s a (c : fl) : range_inv n p s -> length a = n -> (total a < 65536)%N -> fin c -> ~ In a (map fst p) ->
  range_inv n (p ++ [(a, c)]) (range_term s (a, c)).
Proof.
  intros [Il Iq [Fc [Fl Fq]] Ic Ilin Isq Ie] La Ta Fv NI. unfold range_term. rewrite degree_small by auto.
  assert (forall x, peval (p ++ [(a, c)]) x = peval p x + B2R c * rmonom a x) as PE.
  { intros. rewrite peval_app, peval_cons, peval_nil. ring. }
  assert (Keep : range_inv n (p ++ [(a, c)]) (mkRS (rs_c s) (rs_l s) (rs_q s) (fadd up (rs_e s) (fabs c)))).
  { constructor; cbn [rs_c rs_l rs_q rs_e]; auto.
    - intros H. apply Ic. apply snoc_in in H. tauto.
    - intros j J H. apply Ilin; auto. apply snoc_in in H. tauto.
    - intros j J H. apply Isq; auto. apply snoc_in in H. tauto.
    - intros x X. rewrite PE. unfold quad in *; cbn [rs_c rs_l rs_q] in *.
      eapply above_ge; [apply fadd_up_above; [apply (Ie x X)|apply above_finite; [rewrite fabs_fin; auto|apply Rle_refl]]|].
      rewrite fabs_val. pose proof (term_unit (B2R c) a x (proj2 X)) as TU.
      set (Q := B2R (rs_c s) + sums (fun t => t * t) (rs_q s) x + sums (fun t => t) (rs_l s) x).
      replace (peval p x + B2R c * rmonom a x - Q) with ((peval p x - Q) + B2R c * rmonom a x) by ring.
      apply abs_step; auto. apply Rle_refl. }
  destruct (N.eqb_spec (total a) 0) as [E0|N0].
  { apply total_zero in E0. rewrite La in E0. unfold zeros in E0. rewrite E0 in *.
    constructor; cbn [rs_c rs_l rs_q rs_e]; auto.
    - intros H. apply snoc_in in H. tauto.
    - intros j J H. apply Ilin; auto. apply snoc_in in H. tauto.
    - intros j J H. apply Isq; auto. apply snoc_in in H. tauto.
    - intros x X. rewrite PE. specialize (Ie x X). unfold quad in *; cbn [rs_c rs_l rs_q] in *.
      rewrite (Ic NI) in Ie. rewrite (monom_zeros RTheory). cbn [fzero B2R] in Ie.
      eapply above_ge; [exact Ie|]. apply Req_le. f_equal. ring. }
  destruct (N.eqb_spec (total a) 1) as [E1|N1].
  { destruct (find_entry_unit a E1) as (j & -> & J & Ea). rewrite La in *.
    constructor; cbn [rs_c rs_l rs_q rs_e]; auto.
    - rewrite upd_length; auto.
    - split; auto. split; auto. apply upd_forall; auto.
    - intros H. apply snoc_in in H. tauto.
    - intros k K H. apply snoc_in in H. destruct H as [H1 H2]. rewrite upd_other; auto. intros ->. apply H2. auto.
    - intros k K H. apply Isq; auto. apply snoc_in in H. tauto.
    - intros x X. rewrite PE. specialize (Ie x X). unfold quad in *; cbn [rs_c rs_l rs_q] in *.
      rewrite sums_upd by (rewrite Il; auto; destruct X; auto). rewrite Ilin; auto; [|rewrite <- Ea; auto].
      rewrite Ea, monom_single by (auto; destruct X; auto). cbn [fzero B2R N.to_nat Pos.to_nat Pos.iter_op power].
      change (Pos.to_nat 1) with 1%nat. cbn [power].
      eapply above_ge; [exact Ie|]. apply Req_le. f_equal. ring. }
  destruct (N.eqb_spec (total a) 2) as [E2|N2]; [|exact Keep].
  destruct (find_square_spec a E2) as [(j & -> & J & Ea)|(j & ->)]; [|exact Keep]. rewrite La in *.
  constructor; cbn [rs_c rs_l rs_q rs_e]; auto.
  - rewrite upd_length; auto.
  - split; auto. split; auto. apply upd_forall; auto.
  - intros H. apply snoc_in in H. tauto.
  - intros k K H. apply Ilin; auto. apply snoc_in in H. tauto.
  - intros k K H. apply snoc_in in H. destruct H as [H1 H2]. rewrite upd_other; auto. intros ->. apply H2. auto.
  - intros x X. rewrite PE. specialize (Ie x X). unfold quad in *; cbn [rs_c rs_l rs_q] in *.
    rewrite sums_upd by (rewrite Iq; auto; destruct X; auto). rewrite Isq; auto; [|rewrite <- Ea; auto].
    rewrite Ea, monom_single by (auto; destruct X; auto). cbn [fzero B2R].
    change (N.to_nat 2) with 2%nat. cbn [power].
    eapply above_ge; [exact Ie|]. apply Req_le. f_equal. ring.
Qed.
Lemma range_loop n : forall p q s, range_inv n q s -> sized n p -> small_degrees p -> allfin p -> NoDup (map fst (q ++ p)) ->
  range_inv n (q ++ p) (fold_left range_term p s).
Proof.
  induction p as [|[a c] p IH]; intros q s I Z D A N; cbn [fold_left].
  - rewrite app_nil_r. auto.
  - inversion_clear Z as [|? ? Z0 Z1]. inversion_clear D as [|? ? D0 D1]. inversion_clear A as [|? ? A0 A1]. cbn [fst snd] in *.
    specialize (IH (q ++ [(a, c)]) (range_term s (a, c))). rewrite <- !app_assoc in IH. cbn [app] in IH. apply IH; auto. apply range_step; auto.
    rewrite map_app in N. cbn [map fst] in N. apply NoDup_remove_2 in N. rewrite in_app_iff in N. tauto.
Qed.
Lemma range_fold (E : (2 < emax)%Z) : forall (q l : list fl) x (r : bnd) v, length q = length l -> length x = length l ->
  Forall (fun c => fin c) q -> Forall (fun c => fin c) l -> unit_pt x -> contains r v ->
  contains (fold_left (fun r ab => b_add r (quad_range (fst ab) (snd ab))) (combine q l) r)
           (v + (sums (fun t => t * t) q x + sums (fun t => t) l x)).
Proof.
  induction q as [|a q IH]; intros [|b l] [|t x] r v Lq Lx Fq Fl U C; cbn in Lq, Lx; try discriminate; cbn [combine fold_left sums].
  - replace (v + (0 + 0)) with v by ring. auto.
  - inversion_clear Fq. inversion_clear Fl. inversion_clear U. cbn [fst snd].
    replace (v + (B2R a * (t * t) + sums (fun t => t * t) q x + (B2R b * t + sums (fun t => t) l x))) with
      ((v + (B2R a * (t * t) + B2R b * t)) + (sums (fun t => t * t) q x + sums (fun t => t) l x)) by ring.
    apply IH; auto. apply b_add_contains; auto. apply quad_contains; auto.
Qed.
Lemma range_sound n (t : tmod) f z : (2 < emax)%Z -> well_formed n t -> small_degrees (t_exp t) -> fin (t_err t) -> encloses n t f ->
  in_box n z -> contains (tm_range n t) (f z).
Proof.
  intros E [Z S] D F En X. destruct (En F) as [A B]. specialize (B z X).
  pose proof (sorted_nodup n _ (reverse_order n) _ Z S) as N.
  pose proof (range_loop n (t_exp t) [] (range_init n) (range_init_inv n) Z D A N) as I. cbn [app] in I.
  unfold tm_range. set (s := fold_left range_term (t_exp t) (range_init n)) in *. destruct I as [Il Iq [Fc [Fl Fq]] _ _ _ Ie].
  specialize (Ie z X). set (err := fadd up (rs_e s) (t_err t)).
  assert (above err (Rabs (f z - quad s z))) as AE.
  { eapply above_ge; [apply fadd_up_above; [exact Ie|apply above_finite; [auto|apply Rle_refl]]|].
    replace (f z - quad s z) with ((peval (t_exp t) z - quad s z) + (f z - peval (t_exp t) z)) by ring.
    apply abs_step; [apply Rle_refl|lra]. }
  replace (f z) with (((f z - quad s z) + B2R (rs_c s)) + (sums (fun t => t * t) (rs_q s) z + sums (fun t => t) (rs_l s) z))
    by (unfold quad; ring).
  apply range_fold; auto; try (destruct X; auto; lia).
  apply bf_add_contains; auto. set (d := f z - quad s z) in *. pose proof (Rle_abs d). pose proof (Rle_abs (- d)). rewrite Rabs_Ropp in *.
  split; cbn [b_l b_u].
  - replace d with (- - d) by ring. apply below_fneg. eapply above_ge; [exact AE|lra].
  - eapply above_ge; [exact AE|lra].
Qed.

(** ** Sweeping bounds coefficients *)
Lemma sweep_rel_sound n (d : mi -> fl -> bool) (p : list (mi * bnd)) e f : encl_bounds n p e f ->
  encl_bounds n (fst (sweep_rel d p e)) (snd (sweep_rel d p e)) f.
Proof.
  intros E F. unfold sweep_rel in *.
  assert (forall (p : list (mi * bnd)) te c, Forall2 (fun m v => contains (snd m) v) p c -> fin (snd (sweep_bounds_rel d p te)) ->
    fin te /\ exists c', Forall2 (fun m v => contains (snd m) v) (fst (sweep_bounds_rel d p te)) c' /\
    forall x, unit_pt x -> Rabs (rpoly (combine (map fst p) c) x - rpoly (combine (map fst (fst (sweep_bounds_rel d p te))) c') x)
      <= B2R (snd (sweep_bounds_rel d p te)) - B2R te) as K.
  { clear. induction p as [|[a b] p IH]; intros te c H F; inversion H as [|? v ? c1 C0 C1 E1 E2]; subst; cbn [sweep_bounds_rel] in *; clear H.
    - cbn [fst snd] in *. split; auto. exists []. split; [constructor|]. intros. cbn. rewrite Rminus_0_r, Rabs_R0. lra.
    - cbn [snd] in C0. destruct (d a (b_mag b)).
      + destruct (IH _ _ C1 F) as (F1 & c' & H & I). destruct (fadd_fin _ _ _ F1) as [Ft Fm]. split; auto. exists c'. split; auto.
        intros x U. specialize (I x U). pose proof (fadd_up_ge _ _ F1). pose proof (proj1 (above_finite _ _ Fm) (b_mag_above b v C0)).
        cbn [map fst combine poly]. pose proof (term_unit v a x U).
        match goal with |- Rabs (?u + ?w - ?y) <= _ => replace (u + w - y) with (u + (w - y)) by ring end.
        eapply Rle_trans; [apply abs_step; eassumption|]. lra.
      + specialize (IH te c1 C1). destruct (sweep_bounds_rel d p te) as [q te']. cbn [fst snd] in *.
        destruct (IH F) as (F1 & c' & H & I). split; auto. exists (v :: c'). split; [constructor; auto|].
        intros x U. specialize (I x U). cbn [map fst combine poly].
        match goal with |- Rabs (?u + ?w - (?u + ?y)) <= _ => replace (u + w - (u + y)) with (w - y) by ring end. auto. }
  specialize (K p fzero). destruct (sweep_bounds_rel d p fzero) as [q te]. cbn [fst snd] in *.
  destruct (fadd_fin _ _ _ F) as [Fe Ft]. destruct (E Fe) as (c & C & B). destruct (K c C Ft) as (_ & c' & C' & I).
  exists c'. split; auto. intros x X. specialize (B x X). specialize (I x (proj2 X)). cbn [fzero B2R] in I. pose proof (fadd_up_ge _ _ F).
  replace (f x - rpoly (combine (map fst q) c') x) with
    ((f x - rpoly (combine (map fst p) c) x) + (rpoly (combine (map fst p) c) x - rpoly (combine (map fst q) c') x)) by ring.
  eapply Rle_trans; [apply abs_step; eassumption|]. lra.
Qed.

(** ** Integration *)
Lemma set_nth_length k s x : (k < length x)%nat -> length (set_nth k s x) = length x.
Proof. intros H. unfold set_nth. rewrite app_length. cbn [length]. rewrite firstn_length, skipn_length. lia. Qed.
Lemma set_nth_cons k s t x : set_nth (S k) s (t :: x) = t :: set_nth k s x. Proof. reflexivity. Qed.
Lemma set_nth_zero s t x : set_nth 0 s (t :: x) = s :: x. Proof. reflexivity. Qed.
Lemma set_nth_id : forall k x, (k < length x)%nat -> set_nth k (nth k x 0) x = x.
Proof. induction k as [|k IH]; intros [|t x] H; cbn in H; try lia; auto. rewrite set_nth_cons. cbn [nth]. rewrite IH by lia. auto. Qed.
Lemma set_nth_set : forall k s u x, (k < length x)%nat -> set_nth k s (set_nth k u x) = set_nth k s x.
Proof. induction k as [|k IH]; intros s u [|t x] H; cbn in H; try lia; auto. rewrite !set_nth_cons, IH by lia. auto. Qed.
Lemma nth_set_nth : forall k s x, (k < length x)%nat -> nth k (set_nth k s x) 0 = s.
Proof. induction k as [|k IH]; intros s [|t x] H; cbn in H; try lia; auto. rewrite set_nth_cons. cbn [nth]. apply IH. lia. Qed.
Lemma set_nth_box n k s x : (k < n)%nat -> in_box n x -> -1 <= s <= 1 -> in_box n (set_nth k s x).
Proof.
  intros K [L U] Hs. split; [rewrite set_nth_length; lia|]. unfold set_nth. apply Forall_app. rewrite Forall_forall in U. split.
  - apply Forall_forall. intros t I. apply U. rewrite <- (firstn_skipn k x). apply in_app_iff. auto.
  - apply Forall_forall. intros t [<-|I]; auto. apply U. rewrite <- (firstn_skipn (S k) x). apply in_app_iff. auto.
Qed.
Lemma monom_set : forall k a s x, (k < length a)%nat -> length x = length a ->
  rmonom a (set_nth k s x) = rpower s (N.to_nat (nth k a 0%N)) * rmonom (upd a k 0%N) x.
Proof.
  induction k as [|k IH]; intros [|u a] s [|t x] K L; cbn [length] in *; try lia.
  - rewrite set_nth_zero. cbn [monom upd nth power N.to_nat]. ring.
  - rewrite set_nth_cons. cbn [monom upd nth]. rewrite IH by lia. ring.
Qed.
Lemma power_pow s m : rpower s m = s ^ m.
Proof. induction m as [|m IH]; cbn; congruence. Qed.
Lemma incr_upd : forall k a, (k < length a)%nat -> upd (incr k a) k 0%N = upd a k 0%N /\ nth k (incr k a) 0%N = w16 (nth k a 0 + 1)%N /\ length (incr k a) = length a.
Proof.
  induction k as [|k IH]; intros [|u a] K; cbn [length] in *; try lia; cbn [incr upd nth length]; auto.
  destruct (IH a ltac:(lia)) as (-> & -> & ->). auto.
Qed.
Lemma fnat_exact m : (16 <= prec)%Z -> (m < 65536)%N -> fin (fnat near m : fl) /\ B2R (fnat near m : fl) = IZR (Z.of_N m).
Proof.
  intros P M. pose proof (fnat_rounded (prec:=prec) (emax:=emax) near m) as H.
  assert (generic_format radix2 (SpecFloat.fexp prec emax) (IZR (Z.of_N m))) as G.
  { replace (IZR (Z.of_N m)) with (F2R (Float radix2 (Z.of_N m) 0)) by (unfold F2R; cbn; ring).
    apply generic_format_F2R. intros NZ. unfold cexp. replace (F2R (Float radix2 (Z.of_N m) 0)) with (IZR (Z.of_N m)) by (unfold F2R; cbn; ring).
    assert (mag radix2 (IZR (Z.of_N m)) <= 16)%Z as Mg.
    { apply mag_le_bpow; [apply not_0_IZR; auto|]. rewrite <- abs_IZR. change (bpow radix2 16) with (IZR 65536). apply IZR_lt. lia. }
    unfold SpecFloat.fexp, SpecFloat.emin. pose proof Hemax as HE. unfold Prec_lt_emax in HE. lia. }
  destruct (rounded_fin_val _ _ _ H) as [F V].
  - rewrite rnd_format by auto. rewrite <- abs_IZR. apply Rlt_le_trans with (bpow radix2 16).
    + change (bpow radix2 16) with (IZR 65536). apply IZR_lt. lia.
    + apply bpow_le. pose proof Hemax as HE. unfold Prec_lt_emax in HE. lia.
  - rewrite rnd_format in V by auto. auto.
Qed.
Lemma w16_lt x : (w16 x < 65536)%N.
Proof. unfold w16. apply N.mod_lt. lia. Qed.

(** The exact antiderivative of the polynomial. *)
Fixpoint anti (k : nat) (p : list (mi * fl)) (x : list R) : R :=
  match p with
  | [] => 0
  | (a, c) :: p => B2R c / IZR (Z.of_N (nth k a 0 + 1)%N) * (nth k x 0 ^ S (N.to_nat (nth k a 0%N)) * rmonom (upd a k 0%N) x) + anti k p x
  end.
Lemma monom_skip : forall k a s x, (k < length a)%nat -> length x = length a -> rmonom (upd a k 0%N) (set_nth k s x) = rmonom (upd a k 0%N) x.
Proof.
  induction k as [|k IH]; intros [|u a] s [|t x] K L; cbn [length] in *; try lia.
  - reflexivity.
  - rewrite set_nth_cons. cbn [monom upd]. rewrite IH by lia. auto.
Qed.
Lemma anti_deriv k n (p : list (mi * fl)) x s : (k < n)%nat -> sized n p -> length x = n ->
  derivable_pt_lim (fun s => anti k p (set_nth k s x)) s (peval p (set_nth k s x)).
Proof.
  intros K Z L. induction p as [|[a c] p IH].
  - cbn [anti]. rewrite peval_nil. apply derivable_pt_lim_const.
  - inversion_clear Z as [|? ? Z0 Z1]. cbn [fst] in Z0. specialize (IH Z1). rewrite peval_cons. cbn [anti].
    apply (derivable_pt_lim_plus (fun s => B2R c / IZR (Z.of_N (nth k a 0 + 1)%N) * (nth k (set_nth k s x) 0 ^ S (N.to_nat (nth k a 0%N)) * rmonom (upd a k 0%N) (set_nth k s x)))); auto.
    set (m := nth k a 0%N). rewrite monom_set by lia. fold m. rewrite power_pow.
    assert (IZR (Z.of_N (m + 1)) = INR (S (N.to_nat m))) as EI by (rewrite INR_IZR_INZ; f_equal; lia).
    rewrite EI. assert (INR (S (N.to_nat m)) <> 0) as NZ by (apply not_0_INR; lia).
    set (M := rmonom (upd a k 0%N) x).
    assert (derivable_pt_lim (fun s0 => B2R c / INR (S (N.to_nat m)) * M * s0 ^ S (N.to_nat m)) s (B2R c * (s ^ N.to_nat m * M))) as D.
    { replace (B2R c * (s ^ N.to_nat m * M)) with (B2R c / INR (S (N.to_nat m)) * M * (INR (S (N.to_nat m)) * s ^ Nat.pred (S (N.to_nat m)))) by (cbn [Nat.pred]; field; auto).
      apply derivable_pt_lim_scal. apply derivable_pt_lim_pow. }
    intros eps Heps. destruct (D eps Heps) as [dl Hd]. exists dl. intros h H0 H1. specialize (Hd h H0 H1).
    cbn beta in Hd |- *. rewrite !nth_set_nth, !monom_skip by lia. fold M.
    match goal with H : Rabs ?u < eps |- Rabs ?v < eps => replace v with u; auto end. f_equal. f_equal; ring.
Qed.
Lemma anti_zero k n (p : list (mi * fl)) x : (k < n)%nat -> length x = n -> anti k p (set_nth k 0 x) = 0.
Proof.
  intros K L. induction p as [|[a c] p IH]; cbn [anti]; auto. rewrite IH, nth_set_nth by lia. cbn [pow]. ring.
Qed.
Lemma antidiff_ok k n : (16 <= prec)%Z -> (k < n)%nat -> forall (p : list (mi * fl)) e, sized n p -> Forall (fun m => Forall (fun d => (d < 65536)%N) (fst m)) p ->
  fin (snd (antidiff_terms k p e)) -> fin e /\ B2R e <= B2R (snd (antidiff_terms k p e)) /\ allfin (fst (antidiff_terms k p e)) /\
  forall x, in_box n x -> Rabs (anti k p x - peval (fst (antidiff_terms k p e)) x) <= B2R (snd (antidiff_terms k p e)) - B2R e.
Proof.
  intros P K. induction p as [|[a c] p IH]; intros e Z S F; cbn [antidiff_terms] in *.
  - cbn [fst snd] in *. split; auto. split; [lra|]. split; [constructor|]. intros. rewrite peval_nil. cbn [anti]. rewrite Rminus_0_r, Rabs_R0. lra.
  - inversion_clear Z as [|? ? Z0 Z1]. inversion_clear S as [|? ? S0 S1]. cbn [fst] in *.
    destruct (incr_upd k a ltac:(lia)) as (U & Nk & Li). unfold div_err_n in *.
    destruct (fnat_exact (nth k (incr k a) 0%N) P ltac:(rewrite Nk; apply w16_lt)) as [Fn Vn].
    pose proof (div_err_ok c (fnat near (nth k (incr k a) 0%N)) e Fn) as O.
    assert (forall e1, fst (div_err c (fnat near (nth k (incr k a) 0%N)) e1) = fst (div_err c (fnat near (nth k (incr k a) 0%N)) e1)) as _ by auto.
    assert (fin (snd (div_err c (fnat near (nth k (incr k a) 0%N)) e)) -> nth k (incr k a) 0%N = (nth k a 0 + 1)%N) as W.
    { intros F1. rewrite Nk. apply w16_small. assert (nth k a 0 < 65536)%N as La by (apply Forall_nth; auto; lia).
      destruct (N.eq_dec (nth k a 0%N) 65535) as [E|E]; [exfalso|lia].
      unfold div_err in F1; cbn [snd] in F1. apply fadd_fin in F1. destruct F1 as [_ F1]. apply fhlf_fin in F1. apply fadd_fin in F1. destruct F1 as [F1 _].
      destruct (fdiv_zero_fin _ _ _ F1) as [sg X]; [|rewrite X in Fn; discriminate]. rewrite Vn, Nk, E. reflexivity. }
    destruct (div_err c (fnat near (nth k (incr k a) 0%N)) e) as [w e1]. cbn [fst snd] in O, W.
    specialize (IH e1 Z1 S1). destruct (antidiff_terms k p e1) as [q e2]. cbn [fst snd] in *.
    destruct (IH F) as (F1 & L1 & Q1 & I). destruct (O F1) as (Fw & Fe & Bw & Le). specialize (W F1). rewrite W in *.
    split; auto. split; [lra|]. split; [constructor; auto|]. intros x X. specialize (I x X). rewrite peval_cons. cbn [anti].
    assert (rmonom (incr k a) x = nth k x 0 ^ S (N.to_nat (nth k a 0%N)) * rmonom (upd a k 0%N) x) as M.
    { rewrite <- (set_nth_id k x) at 1 by (destruct X; lia). rewrite monom_set by (destruct X; lia). rewrite U, W, power_pow. do 2 f_equal. lia. }
    rewrite <- M. rewrite Vn in Bw.
    replace (B2R c / IZR (Z.of_N (nth k a 0 + 1)%N) * rmonom (incr k a) x + anti k p x - (B2R w * rmonom (incr k a) x + peval q x)) with
      ((B2R c / IZR (Z.of_N (nth k a 0 + 1)%N) - B2R w) * rmonom (incr k a) x + (anti k p x - peval q x)) by ring.
    eapply Rle_trans; [apply abs_step; [eapply Rle_trans; [apply term_unit, (proj2 X)|exact Bw]|apply I]|]. lra.
Qed.
Lemma antidiff_encl k n (t : tmod) f g : (16 <= prec)%Z -> (k < n)%nat -> sized n (t_exp t) ->
  Forall (fun m => Forall (fun d => (d < 65536)%N) (fst m)) (t_exp t) -> encloses n t f ->
  (forall x, in_box n x -> g (set_nth k 0 x) = 0) ->
  (forall x, in_box n x -> derivable_pt_lim (fun s => g (set_nth k s x)) (nth k x 0) (f x)) ->
  encloses n (tm_antidiff k t) g.
Proof.
  intros P K Z S E G0 GD. unfold tm_antidiff. pose proof (antidiff_ok k n P K (t_exp t) fzero Z S) as O.
  destruct (antidiff_terms k (t_exp t) fzero) as [q e]. cbn [fst snd] in O.
  apply combine_encl with (g := anti k (t_exp t)); [|lra]. intros Ft Fe. destruct (E Ft) as [A B]. destruct (O Fe) as (_ & L & Q & I). split; auto.
  intros x X. specialize (I x X). cbn [fzero B2R] in I. split; [|lra].
  set (h := fun s => g (set_nth k s x) - anti k (t_exp t) (set_nth k s x)).
  set (h' := fun s => f (set_nth k s x) - peval (t_exp t) (set_nth k s x)).
  destruct X as [Lx Ux].
  assert (forall s, -1 <= s <= 1 -> derivable_pt_lim h s (h' s)) as D.
  { intros s Hs. pose proof (set_nth_box n k s x K (conj Lx Ux) Hs) as X'. specialize (GD _ X'). rewrite nth_set_nth in GD by lia.
    apply derivable_pt_lim_minus.
    - intros eps Heps. destruct (GD eps Heps) as [dl Hd]. exists dl. intros y H0 H1. specialize (Hd y H0 H1).
      rewrite !set_nth_set in Hd by lia. auto.
    - apply anti_deriv with n; auto. }
  assert (forall s, -1 <= s <= 1 -> Rabs (h' s) <= B2R (t_err t)) as HB.
  { intros s Hs. pose proof (B _ (set_nth_box n k s x K (conj Lx Ux) Hs)) as Bs. unfold h'. lra. }
  assert (h 0 = 0) as H0. { unfold h. rewrite G0, anti_zero with (n := n); auto; [ring|split; auto]. }
  assert (-1 <= nth k x 0 <= 1) as Hx by (rewrite Forall_forall in Ux; apply Ux, nth_In; lia).
  assert (h (nth k x 0) = g x - anti k (t_exp t) x) as Hh by (unfold h; rewrite set_nth_id; auto; lia).
  rewrite <- Hh. clear Hh. set (s := nth k x 0) in *.
  destruct (Rtotal_order s 0) as [Hs|[Hs|Hs]].
  - destruct (MVT_cor2 h h' s 0 Hs) as (c & Ec & Hc); [intros; apply D; lra|].
    specialize (HB c ltac:(lra)). replace (h s) with (- (h' c * (0 - s))) by lra. rewrite Rabs_Ropp, Rabs_mult.
    rewrite (Rabs_pos_eq (0 - s)) by lra. pose proof (Rabs_pos (h' c)). nra.
  - rewrite Hs, H0, Rabs_R0. specialize (HB 0 ltac:(lra)). pose proof (Rabs_pos (h' 0)). lra.
  - destruct (MVT_cor2 h h' 0 s Hs) as (c & Ec & Hc); [intros; apply D; lra|].
    specialize (HB c ltac:(lra)). replace (h s) with (h' c * (s - 0)) by lra. rewrite Rabs_mult.
    rewrite (Rabs_pos_eq (s - 0)) by lra. pose proof (Rabs_pos (h' c)). nra.
Qed.

(** ** Differentiation of the polynomial part *)
Fixpoint dpoly (k : nat) (p : list (mi * fl)) (x : list R) : R :=
  match p with
  | [] => 0
  | (a, c) :: p => B2R c * (INR (N.to_nat (nth k a 0%N)) * nth k x 0 ^ Nat.pred (N.to_nat (nth k a 0%N)) * rmonom (upd a k 0%N) x) + dpoly k p x
  end.
Lemma dpoly_deriv k n (p : list (mi * fl)) x s : (k < n)%nat -> sized n p -> length x = n ->
  derivable_pt_lim (fun s => peval p (set_nth k s x)) s (dpoly k p (set_nth k s x)).
Proof.
  intros K Z L. induction p as [|[a c] p IH].
  - cbn [dpoly]. apply derivable_pt_lim_const.
  - inversion_clear Z as [|? ? Z0 Z1]. cbn [fst] in Z0. specialize (IH Z1). cbn [dpoly].
    apply (derivable_pt_lim_plus (fun s => B2R c * rmonom a (set_nth k s x)) (fun s => peval p (set_nth k s x))); auto.
    rewrite nth_set_nth, monom_skip by lia. set (m := N.to_nat (nth k a 0%N)). set (M := rmonom (upd a k 0%N) x).
    assert (derivable_pt_lim (fun s0 => B2R c * M * s0 ^ m) s (B2R c * (INR m * s ^ Nat.pred m * M))) as D.
    { replace (B2R c * (INR m * s ^ Nat.pred m * M)) with (B2R c * M * (INR m * s ^ Nat.pred m)) by ring.
      apply derivable_pt_lim_scal. apply derivable_pt_lim_pow. }
    intros eps Heps. destruct (D eps Heps) as [dl Hd]. exists dl. intros h H0 H1. specialize (Hd h H0 H1).
    cbn beta in Hd |- *. rewrite !monom_set by lia. fold m. fold M. rewrite (power_pow (s + h) m), (power_pow s m).
    match goal with H : Rabs ?u < eps |- Rabs ?v < eps => replace v with u; auto end. f_equal. f_equal; ring.
Qed.
Lemma decr_upd : forall k a, (k < length a)%nat -> upd (decr k a) k 0%N = upd a k 0%N /\ nth k (decr k a) 0%N = w16 (nth k a 0 + 65535)%N /\ length (decr k a) = length a.
Proof.
  induction k as [|k IH]; intros [|u a] K; cbn [length] in *; try lia; cbn [decr upd nth length]; auto.
  destruct (IH a ltac:(lia)) as (-> & -> & ->). auto.
Qed.
Lemma w16_pred x : (x <> 0 -> x < 65536 -> w16 (x + 65535) = x - 1)%N.
Proof. intros N L. unfold w16. replace (x + 65535)%N with ((x - 1) + 1 * 65536)%N by lia. rewrite N.mod_add by lia. apply N.mod_small. lia. Qed.
Lemma diff_ok k n : (16 <= prec)%Z -> (k < n)%nat -> forall (p : list (mi * fl)) e, sized n p -> Forall (fun m => Forall (fun d => (d < 65536)%N) (fst m)) p ->
  fin (snd (diff_terms k p e)) -> fin e /\ B2R e <= B2R (snd (diff_terms k p e)) /\ allfin (fst (diff_terms k p e)) /\
  forall x, in_box n x -> Rabs (dpoly k p x - peval (fst (diff_terms k p e)) x) <= B2R (snd (diff_terms k p e)) - B2R e.
Proof.
  intros P K. induction p as [|[a c] p IH]; intros e Z S F; cbn [diff_terms] in *.
  - cbn [fst snd] in *. split; auto. split; [lra|]. split; [constructor|]. intros. rewrite peval_nil. cbn [dpoly]. rewrite Rminus_0_r, Rabs_R0. lra.
  - inversion_clear Z as [|? ? Z0 Z1]. inversion_clear S as [|? ? S0 S1]. cbn [fst] in *.
    assert (nth k a 0 < 65536)%N as La by (apply Forall_nth; auto; lia).
    destruct (N.eqb_spec (nth k a 0%N) 0) as [E|E].
    + destruct (IH e Z1 S1 F) as (F1 & L1 & Q1 & I). split; auto. split; auto. split; auto. intros x X. specialize (I x X). cbn [dpoly].
      rewrite E. cbn [N.to_nat INR]. replace (B2R c * (0 * nth k x 0 ^ Nat.pred 0 * rmonom (upd a k 0%N) x) + dpoly k p x) with (dpoly k p x) by ring. auto.
    + unfold mul_err_n in *. destruct (fnat_exact (nth k a 0%N) P La) as [Fn Vn].
      pose proof (mul_err_ok c (fnat near (nth k a 0%N)) e) as O. destruct (mul_err c (fnat near (nth k a 0%N)) e) as [w e1]. cbn [fst snd] in O.
      specialize (IH e1 Z1 S1). destruct (diff_terms k p e1) as [q e2]. cbn [fst snd] in *.
      destruct (IH F) as (F1 & L1 & Q1 & I). destruct (O F1) as (Fw & Fe & Bw & Le).
      split; auto. split; [lra|]. split; [constructor; auto|]. intros x X. specialize (I x X). rewrite peval_cons. cbn [dpoly].
      destruct (decr_upd k a ltac:(lia)) as (U & Nk & Li).
      assert (rmonom (decr k a) x = nth k x 0 ^ Nat.pred (N.to_nat (nth k a 0%N)) * rmonom (upd a k 0%N) x) as M.
      { rewrite <- (set_nth_id k x) at 1 by (destruct X; lia). rewrite monom_set by (destruct X; lia). rewrite U, Nk, w16_pred, power_pow by auto. do 2 f_equal. lia. }
      rewrite Rmult_assoc, <- M. rewrite Vn in Bw. rewrite INR_IZR_INZ, N_nat_Z.
      replace (B2R c * (IZR (Z.of_N (nth k a 0%N)) * rmonom (decr k a) x) + dpoly k p x - (B2R w * rmonom (decr k a) x + peval q x)) with
        ((B2R c * IZR (Z.of_N (nth k a 0%N)) - B2R w) * rmonom (decr k a) x + (dpoly k p x - peval q x)) by ring.
      eapply Rle_trans; [apply abs_step; [eapply Rle_trans; [apply term_unit, (proj2 X)|exact Bw]|apply I]|]. lra.
Qed.
Lemma deriv_unique f x l l' : derivable_pt_lim f x l -> derivable_pt_lim f x l' -> l = l'.
Proof. apply uniqueness_limite. Qed.
Lemma diff_encl k n (t : tmod) g : (16 <= prec)%Z -> (k < n)%nat -> sized n (t_exp t) ->
  Forall (fun m => Forall (fun d => (d < 65536)%N) (fst m)) (t_exp t) ->
  (forall x, in_box n x -> derivable_pt_lim (fun s => peval (t_exp t) (set_nth k s x)) (nth k x 0) (g x)) ->
  encloses n (tm_diff k t) g.
Proof.
  intros P K Z S D. unfold tm_diff. pose proof (diff_ok k n P K (t_exp t) fzero Z S) as O.
  destruct (diff_terms k (t_exp t) fzero) as [q e]. cbn [fst snd] in O. intros F. cbn [t_err t_exp] in *.
  destruct (O F) as (_ & L & Q & I). split; auto. intros x X. specialize (I x X). cbn [fzero B2R] in I.
  replace (g x) with (dpoly k (t_exp t) x); [lra|].
  apply (deriv_unique (fun s => peval (t_exp t) (set_nth k s x)) (nth k x 0)); auto.
  pose proof (dpoly_deriv k n (t_exp t) x (nth k x 0) K Z (proj1 X)) as DD. rewrite set_nth_id in DD by (destruct X; lia). auto.
Qed.

(** ** Variables *)
Lemma embed_peval n (p : list (mi * fl)) x s : sized n p -> length x = n ->
  peval (map (fun m => (fst m ++ [0%N], snd m)) p) (x ++ [s]) = peval p x.
Proof.
  intros Z L. induction p as [|[a c] p IH]; auto. inversion_clear Z as [|? ? Z0 Z1]. cbn [fst] in Z0. cbn [map fst snd].
  rewrite !peval_cons, IH by auto. rewrite (monom_app RTheory) by lia. cbn. ring.
Qed.
Lemma embed_error_ok n (t : tmod) x s : sized n (t_exp t) -> length x = n ->
  peval (t_exp (tm_embed_error n t)) (x ++ [s]) = peval (t_exp t) x + B2R (t_err t) * s.
Proof.
  intros Z L. cbn [tm_embed_error t_exp]. rewrite peval_cons, (embed_peval n) by auto.
  rewrite (monom_app RTheory) by (rewrite repeat_length; auto). rewrite (monom_zeros RTheory).
  cbn [monom power N.to_nat]. change (Pos.to_nat 1) with 1%nat. cbn [power]. ring.
Qed.
Lemma embed_error_wf n (t : tmod) : well_formed n t -> well_formed (S n) (tm_embed_error n t).
Proof.
  intros [Z S]. cbn [tm_embed_error]. split; cbn [t_exp].
  - constructor; cbn [fst]; [rewrite app_length, repeat_length; cbn; lia|]. apply Forall_map. eapply Forall_impl; [|exact Z].
    intros m H. cbn [fst] in *. rewrite app_length, H. cbn. lia.
  - constructor.
    + clear Z. induction S as [|m p S IH F]; cbn [map]; constructor; auto. apply Forall_map. eapply Forall_impl; [|exact F].
      intros b H. cbn [fst] in *. unfold reverse_lexicographic_less in *. rewrite !rev_app_distr. cbn. auto.
    + apply Forall_map. apply Forall_forall. intros m _. cbn [fst]. unfold reverse_lexicographic_less. rewrite !rev_app_distr. reflexivity.
Qed.

Lemma monom_select : forall keep a x, length keep = length a -> length x = length a -> uses_discarded keep a = false ->
  rmonom (select keep a) (select keep x) = rmonom a x.
Proof.
  induction keep as [|b keep IH]; intros [|u a] [|t x] La Lx U; cbn in La, Lx; try discriminate; auto.
  cbn [uses_discarded] in U. apply orb_false_iff in U. destruct U as [U0 U]. cbn [select]. destruct b.
  - cbn [monom]. rewrite IH by (auto; lia). auto.
  - cbn in U0. apply negb_false_iff, N.eqb_eq in U0. subst. cbn [monom N.to_nat power]. rewrite IH by (auto; lia). ring.
Qed.
Lemma discard_err_fin keep : forall (p : list (mi * fl)) e, fin (snd (discard_terms keep p e)) -> fin e.
Proof.
  induction p as [|[a c] p IH]; intros e F; cbn [discard_terms] in *; auto. destruct (uses_discarded keep a).
  - apply IH in F. apply fadd_fin in F. tauto.
  - apply IH. destruct (discard_terms keep p e). auto.
Qed.
Lemma discard_ok keep : forall (p : list (mi * fl)) e, sized (length keep) p -> allfin p -> fin (snd (discard_terms keep p e)) ->
  fin e /\ allfin (fst (discard_terms keep p e)) /\ forall x, in_box (length keep) x ->
    Rabs (peval p x - peval (fst (discard_terms keep p e)) (select keep x)) <= B2R (snd (discard_terms keep p e)) - B2R e.
Proof.
  induction p as [|[a c] p IH]; intros e Z A F; cbn [discard_terms] in *.
  - cbn [fst snd] in *. split; auto. split; auto. intros. rewrite !peval_nil, Rminus_0_r, Rabs_R0. lra.
  - inversion_clear Z as [|? ? Z0 Z1]. inversion_clear A as [|? ? A0 A1]. cbn [fst snd] in *. destruct (uses_discarded keep a) eqn:U.
    + destruct (IH _ Z1 A1 F) as (F1 & Q & I). destruct (fadd_fin _ _ _ F1) as [Fe _]. split; auto. split; auto. intros x X. specialize (I x X).
      rewrite peval_cons. pose proof (term_unit (B2R c) a x (proj2 X)). pose proof (fadd_up_ge _ _ F1) as G. rewrite fabs_val in G.
      match goal with |- Rabs (?u + ?w - ?y) <= _ => replace (u + w - y) with (u + (w - y)) by ring end.
      eapply Rle_trans; [apply abs_step; eassumption|]. lra.
    + specialize (IH e Z1 A1). destruct (discard_terms keep p e) as [q e']. cbn [fst snd] in *. destruct (IH F) as (F1 & Q & I).
      split; auto. split; [constructor; auto|]. intros x X. specialize (I x X). rewrite !peval_cons.
      rewrite monom_select by (auto; destruct X; congruence).
      match goal with |- Rabs (?u + ?w - (?u + ?y)) <= _ => replace (u + w - (u + y)) with (w - y) by ring end. auto.
Qed.
Lemma discard_encl keep (t : tmod) f : sized (length keep) (t_exp t) -> encloses (length keep) t f -> fin (t_err (tm_discard keep t)) ->
  allfin (t_exp (tm_discard keep t)) /\
  forall x, in_box (length keep) x -> Rabs (f x - peval (t_exp (tm_discard keep t)) (select keep x)) <= B2R (t_err (tm_discard keep t)).
Proof.
  intros Z E F. unfold tm_discard in *. pose proof (discard_ok keep (t_exp t) (fabs (t_err t)) Z) as O.
  destruct (discard_terms keep (t_exp t) (fabs (t_err t))) as [q e] eqn:Q0. cbn [fst snd t_err t_exp] in *. destruct (fadd_fin _ _ _ F) as [_ Fe].
  assert (fin (t_err t)) as Ft.
  { rewrite <- fabs_fin. apply (discard_err_fin keep (t_exp t)). rewrite Q0. auto. }
  destruct (E Ft) as [A B]. destruct (O A Fe) as (_ & Q & I). split; auto. intros x X. specialize (I x X). specialize (B x X).
  rewrite fabs_val in I. pose proof (fadd_up_ge _ _ F) as G. cbn [fzero B2R] in G. pose proof (Rle_abs (B2R (t_err t))).
  match goal with |- Rabs (?u - ?y) <= _ => replace (u - y) with ((u - peval (t_exp t) x) + (peval (t_exp t) x - y)) by ring end.
  eapply Rle_trans; [apply abs_step; eassumption|]. lra.
Qed.
Lemma select_app {A} : forall k1 k2 (a b : list A), length k1 = length a -> select (k1 ++ k2) (a ++ b) = select k1 a ++ select k2 b.
Proof. induction k1 as [|[] k1 IH]; intros k2 [|u a] b L; cbn in *; try discriminate; auto; rewrite IH by lia; auto. Qed.
Lemma select_rev {A} : forall keep (a : list A), length keep = length a -> rev (select keep a) = select (rev keep) (rev a).
Proof.
  induction keep as [|b keep IH]; intros [|u a] L; cbn in *; try discriminate; auto.
  rewrite select_app by (rewrite !rev_length; lia). rewrite <- IH by lia. destruct b; cbn; rewrite ?app_nil_r; auto.
Qed.
Lemma uses_app : forall k1 k2 a b, length k1 = length a -> uses_discarded (k1 ++ k2) (a ++ b) = uses_discarded k1 a || uses_discarded k2 b.
Proof. induction k1 as [|c k1 IH]; intros k2 [|u a] b L; cbn in *; try discriminate; auto. rewrite IH by lia. apply orb_assoc. Qed.
Lemma uses_rev : forall keep a, length keep = length a -> uses_discarded (rev keep) (rev a) = uses_discarded keep a.
Proof.
  induction keep as [|c keep IH]; intros [|u a] L; cbn in *; try discriminate; auto.
  rewrite uses_app by (rewrite !rev_length; lia). rewrite IH by lia. cbn. rewrite orb_false_r. apply orb_comm.
Qed.
Lemma select_length {A B} keep : forall (a : list A) (b : list B), length a = length b -> length (select keep a) = length (select keep b).
Proof. induction keep as [|[] keep IH]; intros [|u a] [|v b] L; cbn in *; try discriminate; auto. Qed.
Lemma first_diff_select less : forall keep a b, length keep = length a -> length b = length a ->
  uses_discarded keep a = false -> uses_discarded keep b = false -> first_diff less (select keep a) (select keep b) = first_diff less a b.
Proof.
  induction keep as [|c keep IH]; intros [|u a] [|v b] La Lb Ua Ub; cbn in La, Lb; try discriminate; auto.
  cbn [uses_discarded] in *. apply orb_false_iff in Ua. apply orb_false_iff in Ub. destruct Ua as [U0 Ua], Ub as [V0 Ub]. cbn [select]. destruct c.
  - cbn [first_diff]. rewrite IH by (auto; lia). auto.
  - cbn in U0, V0. apply negb_false_iff, N.eqb_eq in U0. apply negb_false_iff, N.eqb_eq in V0. subst. cbn [first_diff]. rewrite N.eqb_refl. apply IH; auto; lia.
Qed.
Lemma keys_select keep a b : length keep = length a -> length b = length a -> uses_discarded keep a = false -> uses_discarded keep b = false ->
  keys_lt a b -> keys_lt (select keep a) (select keep b).
Proof.
  unfold keys_lt, reverse_lexicographic_less. intros La Lb Ua Ub H. rewrite !select_rev by lia.
  rewrite first_diff_select; rewrite ?rev_length; auto; rewrite uses_rev; auto; lia.
Qed.
Lemma discard_forall keep (P Q : mi -> Prop) : (forall a, P a -> uses_discarded keep a = false -> Q (select keep a)) ->
  forall (p : list (mi * fl)) e, Forall P (map fst p) -> Forall Q (map fst (fst (discard_terms keep p e))).
Proof.
  intros H. induction p as [|[a c] p IH]; intros e F; cbn [discard_terms]; [constructor|]. cbn [map fst] in F. apply Forall_cons_iff in F. destruct F as [F0 F1].
  destruct (uses_discarded keep a) eqn:U; auto. specialize (IH e F1). destruct (discard_terms keep p e). cbn [fst map] in *. constructor; auto.
Qed.
Lemma discard_sorted keep : forall (p : list (mi * fl)) e, Forall (fun a => length a = length keep) (map fst p) ->
  StronglySorted keys_lt (map fst p) -> StronglySorted keys_lt (map fst (fst (discard_terms keep p e))).
Proof.
  induction p as [|[a c] p IH]; intros e Z S; cbn [discard_terms]; [constructor|]. cbn [map fst] in *.
  apply Forall_cons_iff in Z. destruct Z as [Z0 Z]. apply StronglySorted_inv in S. destruct S as [S F].
  destruct (uses_discarded keep a) eqn:U; auto. pose proof (IH e Z S) as IH1.
  pose proof (discard_forall keep (fun b => length b = length keep /\ keys_lt a b) (fun b => keys_lt (select keep a) b)) as D.
  assert (Forall (fun b => keys_lt (select keep a) b) (map fst (fst (discard_terms keep p e)))) as D1.
  { apply D; [intros b [Lb Kb] Ub; apply keys_select; auto; lia|apply Forall_and; auto]. }
  destruct (discard_terms keep p e). cbn [fst map] in *. constructor; auto.
Qed.
Lemma discard_wf keep (t : tmod) : well_formed (length keep) t -> well_formed (length (select keep keep)) (tm_discard keep t).
Proof.
  intros [Z S]. apply sized_keys in Z. apply sorted_keys in S. unfold tm_discard.
  pose proof (discard_sorted keep (t_exp t) (fabs (t_err t)) Z S) as H1.
  pose proof (discard_forall keep (fun a => length a = length keep) (fun a => length a = length (select keep keep))) as H2.
  specialize (H2 (fun a La _ => select_length keep a keep La) (t_exp t) (fabs (t_err t)) Z).
  destruct (discard_terms keep (t_exp t) (fabs (t_err t))) as [q e]. cbn [fst] in *. split; cbn [t_exp]; [apply sized_keys|apply sorted_keys]; auto.
Qed.

(** ** Refinement of constant models *)
Definition constant_only (n : nat) (p : list (mi * fl)) : Prop := p = [] \/ exists c, p = [(repeat 0%N n, c)].
Lemma mi_eqb_self a : mi_eqb a a = true. Proof. apply mi_eqb_refl. Qed.
Lemma refine_coef_contains (xe ye xv yv : fl) v : fin xe -> fin ye -> fin xv -> fin yv -> Rabs (v - B2R xv) <= B2R xe -> Rabs (v - B2R yv) <= B2R ye ->
  contains (refine_coef xe ye xv yv) v.
Proof.
  intros Fx Fy Vx Vy Bx By.
  assert (forall (e c : fl), fin e -> fin c -> Rabs (v - B2R c) <= B2R e -> contains (b_pm (b_of c) e) v) as K.
  { intros e c Fe Fc B. apply b_pm_contains; auto. apply above_finite; auto. }
  pose proof (K _ _ Fx Vx Bx). pose proof (K _ _ Fy Vy By). unfold refine_coef. apply b_refinement_iff; auto; eapply contains_no_nan; eauto.
Qed.
Definition coef (p : list (mi * fl)) : fl := match p with [] => fzero | m :: _ => snd m end.
Lemma coef_peval n p x : constant_only n p -> peval p x = B2R (coef p).
Proof. intros [->|[c ->]]; [reflexivity|]. rewrite peval_cons, peval_nil, (monom_zeros RTheory). cbn [coef snd]. ring. Qed.
Lemma coef_fin n p : constant_only n p -> allfin p -> fin (coef p).
Proof. intros [->|[c ->]] A; auto. inversion_clear A. auto. Qed.
Lemma refine_const_eq n (x y : tmod) : constant_only n (t_exp x) -> constant_only n (t_exp y) -> t_exp x <> [] \/ t_exp y <> [] ->
  tm_refinement x y = option_map (fun qe => mkTM (fst qe) (snd qe))
    (refine_step (t_err x) (t_err y) (repeat 0%N n) (coef (t_exp x)) (coef (t_exp y)) (Some ([], fzero))).
Proof.
  intros [X|[c X]] [Y|[d Y]] N; unfold tm_refinement; rewrite X, Y in *; cbn [refine_terms coef snd]; auto; [tauto|].
  rewrite mi_eqb_self. auto.
Qed.
Lemma refine_const n (x y : tmod) f : constant_only n (t_exp x) -> constant_only n (t_exp y) -> t_exp x <> [] \/ t_exp y <> [] ->
  fin (t_err x) -> fin (t_err y) -> finite_bounds (b_pm (b_of (coef (t_exp x))) (t_err x)) -> finite_bounds (b_pm (b_of (coef (t_exp y))) (t_err y)) ->
  encloses n x f -> encloses n y f -> exists r, tm_refinement x y = Some r /\ encloses n r f.
Proof.
  intros CX CY N Fx Fy BX BY EX EY. rewrite (refine_const_eq n x y CX CY N).
  destruct (EX Fx) as [AX HX]. destruct (EY Fy) as [AY HY]. pose proof (coef_fin n _ CX AX) as Vx. pose proof (coef_fin n _ CY AY) as Vy.
  set (B := refine_coef (t_err x) (t_err y) (coef (t_exp x)) (coef (t_exp y))).
  assert (forall z, in_box n z -> contains B (f z)) as C.
  { intros z Z. specialize (HX z Z). specialize (HY z Z). rewrite Rmult_1_l, (coef_peval n) in HX, HY by auto. apply refine_coef_contains; auto. }
  assert (finite_bounds B) as FB.
  { destruct BX as [X1 X2], BY as [Y1 Y2]. unfold B, refine_coef, b_refinement, fmax, fmin; split; cbn [b_l b_u];
    repeat match goal with |- context [if ?b then _ else _] => destruct b end; auto. }
  unfold refine_step. fold B.
  destruct (b_value_error B FB) as [[Fv Hv]|(Fv & _ & He)].
  - assert (lt0 (b_error B) = false) as L.
    { specialize (Hv _ (C _ (origin_box n))). destruct (lt0 (b_error B)) eqn:L; auto. exfalso.
      destruct (is_finite (b_error B)) eqn:F.
      - apply lt0_finite in L; auto. apply (proj1 (above_finite _ _ F)) in Hv. pose proof (Rabs_pos (f (repeat 0 n) - B2R (b_value B))). lra.
      - destruct (b_error B) as [|[]| |]; cbn in *; try discriminate; tauto. }
    rewrite L. cbn [option_map fst snd]. eexists. split; [reflexivity|]. intros F. cbn [t_err t_exp] in *.
    unfold fmax in *. change (Bltb (b_error B) fzero) with (lt0 (b_error B)) in *. rewrite L in *.
    assert (forall z, in_box n z -> Rabs (f z - B2R (b_value B)) <= B2R (b_error B)) as H.
    { intros z Z. specialize (Hv _ (C z Z)). apply (proj1 (above_finite _ _ F)) in Hv. lra. }
    destruct (flt_eq (b_value B) fzero) eqn:Z0.
    + split; [constructor|]. intros z Z. specialize (H z Z). apply flt_eq_finite in Z0; auto. rewrite Z0 in H. rewrite peval_nil. cbn [fzero B2R] in H. lra.
    + split; [constructor; auto|]. intros z Z. specialize (H z Z). rewrite peval_cons, peval_nil, (monom_zeros RTheory).
      replace (B2R (b_value B) * 1 + 0) with (B2R (b_value B)) by ring. lra.
  - rewrite He. cbn [lt0 Bltb option_map fst snd]. eexists. split; [reflexivity|]. intros F. discriminate.
Qed.
(** ** Evaluation *)
End Range.

(** The Horner scheme commutes with any relation its operations respect. *)
Section Param.
Context {A B : Type} (Rel : A -> B -> Prop)
  (zA : A) (addA mulA : A -> A -> A) (zB : B) (addB mulB : B -> B -> B)
  (Rz : Rel zA zB) (Ra : forall a b c d, Rel a b -> Rel c d -> Rel (addA a c) (addB b d))
  (Rm : forall a b c d, Rel a b -> Rel c d -> Rel (mulA a c) (mulB b d)).
Lemma p_mul_n t t' x x' m : Rel t t' -> Rel x x' -> Rel (mul_n mulA t x m) (mul_n mulB t' x' m).
Proof. intros T X. unfold mul_n. induction m as [|m IH] using N.peano_ind; auto. rewrite !N.iter_succ. auto. Qed.
Lemma p_nth : forall x x' i, Forall2 Rel x x' -> Rel (nth i x zA) (nth i x' zB).
Proof. intros x x' i F. revert i. induction F; intros [|i]; cbn; auto. Qed.
Lemma p_upd : forall x x' i v v', Forall2 Rel x x' -> Rel v v' -> Forall2 Rel (upd x i v) (upd x' i v').
Proof. intros x x' i v v' F V. revert i. induction F; intros [|i]; cbn; auto. Qed.
Lemma p_loop1 x x' a : Forall2 Rel x x' -> forall l t t', Rel t t' ->
  Rel (fold_left (fun t i => mul_n mulA t (nth i x zA) (nth i a 0%N)) l t) (fold_left (fun t i => mul_n mulB t (nth i x' zB) (nth i a 0%N)) l t').
Proof. intros X. induction l as [|i l IH]; intros t t' T; cbn [fold_left]; auto. apply IH. apply p_mul_n; auto. apply p_nth; auto. Qed.
Lemma p_loop2 x x' a : Forall2 Rel x x' -> forall m i t t' r r', Rel t t' -> Forall2 Rel r r' ->
  Rel (fst (loop2 zA addA mulA x a i m (t, r))) (fst (loop2 zB addB mulB x' a i m (t', r'))) /\
  Forall2 Rel (snd (loop2 zA addA mulA x a i m (t, r))) (snd (loop2 zB addB mulB x' a i m (t', r'))).
Proof.
  intros X. unfold loop2. intros m i. generalize (seq i m) as l. induction l as [|j l IH]; intros t t' r r' T H; cbn [fold_left]; auto.
  apply IH; [apply p_mul_n; auto; [apply Ra; auto|]; apply p_nth; auto|apply p_upd; auto].
Qed.
Lemma p_loop3 x x' a r r' : Forall2 Rel x x' -> Forall2 Rel r r' -> forall i m t t', Rel t t' ->
  Rel (loop3 zA addA mulA x a r i m t) (loop3 zB addB mulB x' a r' i m t').
Proof.
  intros X H i m. unfold loop3. generalize (seq i m) as l. induction l as [|j l IH]; intros t t' T; cbn [fold_left]; auto.
  apply IH. apply p_mul_n; [apply Ra; auto|]; apply p_nth; auto.
Qed.
Definition orel (x : outcome A) (y : outcome B) : Prop :=
  match x, y with Ret a, Ret b => Rel a b | AssertFail, AssertFail => True | UB, UB => True | _, _ => False end.
Lemma p_horner_loop n x x' : Forall2 Rel x x' -> forall e e', Forall2 (fun (m : mi * A) (m' : mi * B) => fst m = fst m' /\ Rel (snd m) (snd m')) e e' ->
  forall a c c' r r' j, Rel c c' -> Forall2 Rel r r' ->
  orel (horner_loop zA addA mulA n x a c r j e) (horner_loop zB addB mulB n x' a c' r' j e').
Proof.
  intros X e e' E. induction E as [|[na nc] [na' nc'] e e' [Ea Ec] E IH]; intros a c c' r r' j C H; cbn [horner_loop].
  - cbn [orel]. apply p_loop3; auto. apply p_loop1; auto.
  - cbn [fst snd] in *. subst na'. destruct (find_k a na n) as [k|]; [|exact I]. destruct (_ <=? _)%N; [exact I|].
    cbn zeta. set (jk := Nat.min j k).
    pose proof (p_loop2 x x' a X (k - jk) jk _ _ r r' (p_loop1 x x' a X (seq 0 jk) c c' C) H) as [L1 L2].
    fold (loop1 zA mulA x a 0 jk c) in L1, L2. fold (loop1 zB mulB x' a 0 jk c') in L1, L2.
    destruct (loop2 zA addA mulA x a jk (k - jk) _) as [t r1]. destruct (loop2 zB addB mulB x' a jk (k - jk) _) as [t' r1']. cbn [fst snd] in *.
    apply IH; auto. apply p_upd; auto. apply p_mul_n; [|apply p_nth; auto]. destruct (j <=? k)%nat; auto. apply Ra; auto. apply p_nth; auto.
Qed.
Lemma p_horner n e e' x x' : Forall2 (fun (m : mi * A) (m' : mi * B) => fst m = fst m' /\ Rel (snd m) (snd m')) e e' -> Forall2 Rel x x' ->
  orel (horner_evaluate zA addA mulA n e x) (horner_evaluate zB addB mulB n e' x').
Proof.
  intros E X. unfold horner_evaluate. destruct E as [|[a c] [a' c'] e e' [Ea Ec] E]; cbn [orel]; auto. cbn [fst snd] in *. subst a'.
  assert (length x = length x') as -> by (clear - X; induction X; cbn; auto). destruct (_ <? _)%nat; [exact I|].
  apply p_horner_loop; auto. clear - Rz. induction n; cbn; auto.
Qed.
End Param.

Section Evaluate.
Context {prec emax : Z}
        {Hprec : Prec_gt_0 prec} {Hemax : Prec_lt_emax prec emax}.
Notation fl := (binary_float prec emax).
Notation bnd := (bounds prec emax).
Notation fin x := (is_finite x = true).
Notation tmod := (tm prec emax).
Lemma evaluate_sound n (t : tmod) f (x : list bnd) v : well_formed n t -> encloses n t f -> fin (t_err t) ->
  in_box n v -> Forall2 contains x v -> nan_free n t x -> exists r, tm_evaluate n t x = Ret r /\ contains r (f v).
Proof.
  intros [Z S] E F V C [y Y]. destruct (E F) as [A B]. specialize (B v V). rewrite Rmult_1_l in B.
  set (rel1 := fun (a : option bnd) (b : bnd) => a = None \/ a = Some b).
  set (rel2 := fun (a : option bnd) (r : R) => match a with None => True | Some b => contains b r end).
  pose proof (p_horner rel1 (Some (b_of fzero)) (lift2 b_add) (fun a b => trap (lift2 b_mul a b)) (b_of fzero) b_add b_mul) as P1.
  pose proof (p_horner rel2 (Some (b_of fzero)) (lift2 b_add) (fun a b => trap (lift2 b_mul a b)) 0 Rplus Rmult) as P2.
  specialize (P1 ltac:(right; auto)
    ltac:(intros a b c d [->| ->] [->| ->]; unfold rel1; cbn; auto)
    ltac:(intros a b c d [->| ->] [->| ->]; unfold rel1; cbn; auto; destruct (_ || _); auto) n
    (map (fun m => (fst m, Some (b_of (snd m)))) (t_exp t)) (map (fun m => (fst m, b_of (snd m))) (t_exp t)) (map Some x) x).
  specialize (P2 ltac:(apply (b_of_contains (fzero : fl)); auto)
    ltac:(intros [a|] b [c|] d; unfold rel2; cbn; auto; intros; apply b_add_contains; auto)
    ltac:(intros [a|] b [c|] d; unfold rel2; cbn; auto; intros; destruct (_ || _) eqn:N; auto; apply orb_false_iff in N; apply b_mul_contains; auto; split; tauto) n
    (map (fun m => (fst m, Some (b_of (snd m)))) (t_exp t)) (map (fun m => (fst m, B2R (snd m))) (t_exp t)) (map Some x) v).
  rewrite Y in P1, P2.
  assert (orel rel1 (Ret (Some y)) (horner_evaluate (b_of fzero) b_add b_mul n (map (fun m => (fst m, b_of (snd m))) (t_exp t)) x)) as Q1.
  { apply P1.
    - clear. induction (t_exp t) as [|m p IH]; cbn; constructor; auto. split; auto. right; auto.
    - clear. induction x; cbn; constructor; auto. right; auto. }
  assert (orel rel2 (Ret (Some y)) (horner_evaluate 0 Rplus Rmult n (map (fun m => (fst m, B2R (snd m))) (t_exp t)) v)) as Q2.
  { apply P2.
    - clear - A. induction A as [|m p A0 A IH]; cbn; constructor; auto. split; auto. cbn. apply b_of_contains; auto.
    - clear - C. induction C; cbn; constructor; auto. }
  clear P1 P2. unfold tm_evaluate.
  destruct (horner_evaluate (b_of fzero) b_add b_mul n _ x) as [r| |]; cbn [orel] in Q1; try tauto. unfold rel1 in Q1. destruct Q1 as [Q1|Q1]; [discriminate|]. injection Q1 as <-.
  destruct (horner_ok RTheory n (map (fun m => (fst m, B2R (snd m))) (t_exp t)) v) as [[H _]|[_ H]].
  - destruct V; lia.
  - apply Forall_map. exact Z.
  - rewrite H in Q2. cbn [orel] in Q2. unfold rel2 in Q2. eexists. split; [reflexivity|].
    replace (f v) with (peval (t_exp t) v + (f v - peval (t_exp t) v)) by ring. apply b_add_contains; [exact Q2|].
    apply Rabs_le_inv in B. split; cbn [b_l b_u].
    + apply below_finite; [rewrite fneg_fin; auto|rewrite fneg_val; lra].
    + apply above_finite; auto. lra.
  - exfalso. apply H. clear - S. unfold sorted in *. induction S as [|m p S IH K]; cbn [map]; constructor; auto. apply Forall_map. exact K.
Qed.
End Evaluate.

