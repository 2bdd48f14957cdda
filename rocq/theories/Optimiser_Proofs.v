(** Proofs about the feasibility tests. *)
From Coq Require Import Reals List Lra Lia Arith Bool FunctionalExtensionality.
From Verif Require Import Logical_Model Solver_Model Solver_Spec Newton_Math Solver_LU_Proofs Solver_Proofs.
From Verif Require Import Optimiser_Model Optimiser_Spec Optimiser_Math.
Import ListNotations.
Local Open Scope R_scope.

Lemma all_below_true : forall n p, all_below n p = true -> forall i, (i < n)%nat -> p i = true.
Proof. intros n p H i Li. unfold all_below in H. rewrite forallb_forall in H. apply H. apply in_seq. lia. Qed.
Lemma lv_and_true : forall a b, definitely (lv_and a b) = true -> definitely a = true /\ definitely b = true.
Proof. intros [] []; cbn; intros H; try discriminate H; auto. Qed.
Lemma lv_or_true : forall a b, definitely (lv_or a b) = true -> definitely a = true \/ definitely b = true.
Proof. intros [] []; cbn; intros H; try discriminate H; auto. Qed.
Lemma definitely_true : forall a, definitely a = true -> a = TRUE.
Proof. intros []; cbn; congruence. Qed.
Lemma and_fold : forall p l r, definitely (fold_left (fun r i => lv_and r (p i)) l r) = true -> definitely r = true /\ forall i : nat, In i l -> p i = TRUE.
Proof.
  induction l as [|a l IH]; intros r H; cbn in H; [split; [exact H|intros i []]|]. destruct (IH _ H) as [H1 H2]. apply lv_and_true in H1. destruct H1 as [H1 H3].
  split; [exact H1|]. intros i [<-|Hi]; [apply definitely_true; exact H3|auto].
Qed.
Lemma and_below_true : forall n p, definitely (and_below n p) = true -> forall i, (i < n)%nat -> p i = TRUE.
Proof. intros n p H i Li. apply (and_fold p (seq 0 n) TRUE H). apply in_seq. lia. Qed.
Lemma or_fold : forall p l r, definitely (fold_left (fun r i => lv_or r (p i)) l r) = true -> definitely r = true \/ exists i : nat, In i l /\ p i = TRUE.
Proof.
  induction l as [|a l IH]; intros r H; cbn in H; [left; exact H|]. destruct (IH _ H) as [H1|[i [Hi H1]]].
  - apply lv_or_true in H1. destruct H1 as [H1|H1]; [left; exact H1|right]. exists a. split; [left; reflexivity|apply definitely_true; exact H1].
  - right. exists i. split; [right; exact Hi|exact H1].
Qed.
Lemma or_below_true : forall n p, definitely (or_below n p) = true -> exists i, (i < n)%nat /\ p i = TRUE.
Proof. intros n p H. destruct (or_fold p (seq 0 n) FALSE H) as [E|[i [Hi E]]]; [discriminate|]. apply in_seq in Hi. exists i. split; [lia|exact E]. Qed.

(** Mean value theorem, row by row, for maps between spaces of different dimension. *)
Lemma mvt_map : forall n m f D x y, smooth_map n m f D ->
  exists A : mat, (forall i, (i < m)%nat -> exists t, 0 <= t <= 1 /\ A i = D (seg y x t) i) /\
                  forall i, (i < m)%nat -> f x i - f y i = mv n A (vsub x y) i.
Proof.
  intros n m f D x y [HD _].
  destruct (finite_choice_col m (fun i a => (exists t, 0 <= t <= 1 /\ a = D (seg y x t) i) /\ f x i - f y i = sum n (fun j => a j * (x j - y j)))) as [A HA].
  - intros i Li. destruct (MVT_cor2 (fun s => f (seg y x s) i) (fun t => sum n (fun j => D (seg y x t) i j * (x j - y j))) 0 1) as [c [E Hc]]; [lra|intros c Hc; apply HD; [exact Li|lra]|].
    exists (D (seg y x c) i). split; [exists c; split; [lra|reflexivity]|]. rewrite seg_0, seg_1 in E. rewrite E. ring.
  - exists A. split; intros i Li; apply HA; exact Li.
Qed.

Section OPT.
  Variables (P : ops) (fin : num P -> option (R * R)) (er : R) (S : sound_ops P fin er).
  Variables (X : xops P) (val : pt X -> R) (inI : ival X -> R -> Prop) (inU : uiv X -> R -> Prop) (SX : sound_x P X fin val inI inU).
  Notation enc := (enc P fin). Notation venc := (venc P fin). Notation menc := (menc P fin).
  Notation feasible_for := (feasible_for P X inI). Notation in_box := (in_box P X inI).
  Variables (n m : nat) (g : gfn P X) (f : vec -> vec) (Df : vec -> mat).
  Hypothesis HE : encloses P X fin val inI inU n m g f Df.
  Variables (D C : nat -> ival X).

  Lemma box_has_in : forall x, box_has P X n D x = true -> in_box n D (fun j => val (x j)).
  Proof using SX. intros x H j Lj. apply (x_has_ok _ _ _ _ _ _ SX). apply (all_below_true n _ H j Lj). Qed.
  Lemma num_enc : forall x, venc n (fun j => x_num X (x j)) (fun j => val (x j)).
  Proof using SX. intros x j _. apply (x_num_ok _ _ _ _ _ _ SX). Qed.

  Theorem is_feasible_point_sound : forall x, is_feasible_point P X n m D g C x = true -> feasible_for n m D f C (fun j => val (x j)).
  Proof using SX HE.
    intros x H. unfold is_feasible_point in H. destruct (box_has P X n D x) eqn:B; [|discriminate]. cbn [negb] in H. split; [apply box_has_in; exact B|].
    intros i Li. eapply (x_contains_ok _ _ _ _ _ _ SX); [apply (and_below_true m _ H i Li)|].
    apply (e_ev _ _ _ _ _ _ _ _ _ _ _ HE); [apply num_enc|exact Li].
  Qed.

  (** ** Equality constraints *)
  Lemma equalities_in : forall i, In i (equalities P X m C) <-> (i < m)%nat /\ x_single X (C i) = true.
  Proof using. intros i. unfold equalities. rewrite filter_In, in_seq. split; intros [? ?]; split; auto; lia. Qed.
  Lemma at_in : forall e i, (i < length e)%nat -> In (at_ e i) e.
  Proof using. intros. apply nth_In. assumption. Qed.
  Lemma at_find : forall e q, In q e -> exists i, (i < length e)%nat /\ at_ e i = q.
  Proof using. intros e q H. destruct (In_nth e q 0%nat H) as [i [Li Ei]]. exists i. auto. Qed.

  (** The equality constraints as a map to R^k. *)
  Section EQ.
    Variable e : list nat.
    Hypothesis He : forall q, In q e -> (q < m)%nat /\ x_single X (C q) = true.
    Notation k := (length e).
    Definition cst (i : nat) : R := val (x_lower X (C (at_ e i))).
    Definition hf (v : vec) : vec := fun i => f v (at_ e i) - cst i.
    Definition hD (v : vec) : mat := fun i => Df v (at_ e i).
    Lemma at_lt : forall i, (i < k)%nat -> (at_ e i < m)%nat.
    Proof using He. intros i Li. apply He. apply at_in. exact Li. Qed.
    Lemma at_single : forall i, (i < k)%nat -> x_single X (C (at_ e i)) = true.
    Proof using He. intros i Li. apply He. apply at_in. exact Li. Qed.
    Lemma hf_smooth : smooth_map n m f Df -> smooth_map n k hf hD.
    Proof using He.
      intros [H1 H2]. split.
      - intros i y x t Li Ht. unfold hf, hD. replace (sum n _) with (sum n (fun j => Df (seg y x t) (at_ e i) j * (x j - y j)) - 0) by ring.
        apply (derivable_pt_lim_minus (fun s => f (seg y x s) (at_ e i)) (fun _ => cst i)); [apply H1; [apply at_lt; exact Li|exact Ht]|apply derivable_pt_lim_const].
      - intros xl xu. destruct (H2 xl xu) as [B HB]. exists B. intros v Hv i j Li Lj. unfold hD. apply HB; auto. apply at_lt. exact Li.
    Qed.
    Lemma zero_eq : forall v i, (i < k)%nat -> hf v i = 0 -> inI (C (at_ e i)) (f v (at_ e i)).
    Proof using He SX.
      intros v i Li Z. unfold hf, cst in Z. destruct (x_single_ok _ _ _ _ _ _ SX _ (at_single i Li)) as [H _].
      replace (f v (at_ e i)) with (val (x_lower X (C (at_ e i)))) by lra. exact H.
    Qed.
  End EQ.

  (** ** validate_feasibility *)
  Section VF.
    Variable HS : smooth_map n m f Df.
    Variable x0 : nat -> pt X.
    Variable e : list nat.
    Hypothesis He : forall q, In q e -> (q < m)%nat /\ x_single X (C q) = true.
    Notation k := (length e).
    Let v0 : vec := fun j => val (x0 j).
    Definition aT : mat := fun j i => Df v0 (at_ e i) j.
    Definition along (w : vec) : vec := fun j => v0 j + mv k aT w j.
    Definition phi (w : vec) : vec := hf e (along w).
    Definition phiD (w : vec) : mat := fun i l => sum n (fun j => hD e (along w) i j * aT j l).
    Definition Fphi : fn P := mkFn P
      (fun w i => nsub P (g_ev P X g (moved P X n g x0 e w) (at_ e i)) (x_num X (x_lower X (C (at_ e i)))))
      (fun w => nmm P n (fun i j => g_jac P X g (moved P X n g x0 e w) (at_ e i) j) (trans P X g x0 e)).

    Lemma start_enc : venc n (start P X x0) v0.
    Proof using SX. intros j _. apply (x_num_ok _ _ _ _ _ _ SX). Qed.
    Lemma trans_enc : forall j i, (j < n)%nat -> (i < k)%nat -> enc (trans P X g x0 e j i) (aT j i).
    Proof using SX HE He. intros j i Lj Li. apply (e_jac _ _ _ _ _ _ _ _ _ _ _ HE); [apply start_enc|apply at_lt; assumption|exact Lj]. Qed.
    Lemma moved_enc : forall w v, venc k w v -> venc n (moved P X n g x0 e w) (along v).
    Proof using S SX HE He.
      intros w v Hw. apply store_venc. intros j Lj. apply (s_add _ _ _ S); [apply start_enc; exact Lj|].
      apply (nsum_enc P fin er S). intros i Li. apply (s_mul _ _ _ S); [apply trans_enc; assumption|apply Hw; exact Li].
    Qed.
    Lemma phi_models : models P fin k Fphi phi phiD.
    Proof using S SX HE He.
      intros w v Hw. pose proof (moved_enc w v Hw) as Hx. split.
      - intros i Li. cbn [f_ev Fphi]. apply (s_sub _ _ _ S); [|apply (x_num_ok _ _ _ _ _ _ SX)].
        apply (e_ev _ _ _ _ _ _ _ _ _ _ _ HE); [exact Hx|apply at_lt; assumption].
      - intros i l Li Ll. cbn [f_jac Fphi]. apply (nsum_enc P fin er S). intros j Lj. apply (s_mul _ _ _ S); [|apply trans_enc; assumption].
        apply (e_jac _ _ _ _ _ _ _ _ _ _ _ HE); [exact Hx|apply at_lt; assumption|exact Lj].
    Qed.
    Lemma along_seg : forall y x t, along (seg y x t) = seg (along y) (along x) t.
    Proof using.
      intros y x t. apply functional_extensionality. intros j. unfold along, seg, mv.
      rewrite (sum_ext k (fun j0 => aT j j0 * (y j0 + t * (x j0 - y j0))) (fun i => aT j i * y i + t * (aT j i * x i - aT j i * y i))) by (intros; ring).
      rewrite sum_plus, sum_scal, sum_minus. ring.
    Qed.
    Lemma phi_smooth : smooth k phi phiD.
    Proof using HS He.
      pose proof (hf_smooth e He HS) as [H1 H2]. split.
      - intros i y x t Li Ht. unfold phi.
        replace (fun s => hf e (along (seg y x s)) i) with (fun s => hf e (seg (along y) (along x) s) i) by (apply functional_extensionality; intros s; rewrite along_seg; reflexivity).
        replace (sum k _) with (sum n (fun j => hD e (seg (along y) (along x) t) i j * (along x j - along y j))); [apply H1; assumption|].
        unfold phiD. rewrite along_seg. unfold along at 3 4.
        transitivity (sum n (fun j => sum k (fun l => hD e (seg (along y) (along x) t) i j * aT j l * (x l - y l)))).
        + apply sum_ext. intros j _. rewrite (sum_ext k _ (fun l => hD e (seg (along y) (along x) t) i j * (aT j l * x l - aT j l * y l))) by (intros; ring).
          rewrite sum_scal, sum_minus. unfold mv. ring.
        + rewrite sum_swap. apply sum_ext. intros l _. apply sum_scal_r.
      - intros xl xu.
        set (b := fun l => Rabs (xl l) + Rabs (xu l)).
        set (r := fun j => sum k (fun l => Rabs (aT j l) * b l)).
        destruct (H2 (fun j => v0 j - r j) (fun j => v0 j + r j)) as [B HB].
        set (al := sum n (fun j => sum k (fun l => Rabs (aT j l)))).
        exists (sum n (fun j => Rmax B 0 * al)). intros v Hv i l Li Ll. unfold phiD. eapply Rle_trans; [apply sum_abs|]. apply sum_le. intros j Lj.
        rewrite Rabs_mult. apply Rmult_le_compat; try apply Rabs_pos.
        + eapply Rle_trans; [|apply Rmax_l]. apply HB; [|exact Li|exact Lj]. intros q Lq. unfold along.
          assert (Q : Rabs (mv k aT v q) <= r q).
          { unfold mv, r. eapply Rle_trans; [apply sum_abs|]. apply sum_le. intros p Lp. rewrite Rabs_mult. apply Rmult_le_compat_l; [apply Rabs_pos|].
            specialize (Hv p Lp). unfold b. apply Rabs_le. pose proof (Rle_abs (xu p)). pose proof (Rle_abs (- xl p)). rewrite Rabs_Ropp in *. pose proof (Rabs_pos (xl p)). pose proof (Rabs_pos (xu p)). lra. }
          pose proof (Rle_abs (mv k aT v q)). pose proof (Rle_abs (- mv k aT v q)). rewrite Rabs_Ropp in *. lra.
        + unfold al. eapply Rle_trans; [|apply (sum_term n (fun j => sum k (fun l => Rabs (aT j l)))); [intros; apply sum_nonneg; intros; apply Rabs_pos|exact Lj]].
          apply (sum_term k (fun l => Rabs (aT j l))); [intros; apply Rabs_pos|exact Ll].
    Qed.

    Lemma vf_newton : forall w nw, vf_step P X n g C x0 e w = Some nw -> exists nr, newton_step P k Fphi w = Some nr /\ forall i, (i < k)%nat -> nw i = nr i.
    Proof using.
      intros w nw H. unfold vf_step, lu_solve in H. unfold newton_step. cbn [f_ev f_jac Fphi].
      destruct (lu_inverse P k (nmm P n (fun i j => g_jac P X g (moved P X n g x0 e w) (at_ e i) j) (trans P X g x0 e))) as [Ai|]; [|discriminate].
      injection H as <-. eexists. split; [reflexivity|]. intros i Li. rewrite !store_v_eq by exact Li. reflexivity.
    Qed.
    Lemma venc_nw : forall nw nr v, (forall i, (i < k)%nat -> nw i = nr i) -> venc k nr v -> venc k nw v.
    Proof using. intros nw nr v E H i Li. rewrite (E i Li). apply H. exact Li. Qed.
    Lemma refines_nw : forall nw nr w, (forall i, (i < k)%nat -> nw i = nr i) -> vrefines P k nw w = true -> vrefines P k nr w = true.
    Proof using.
      intros nw nr w E H. unfold vrefines in *. rewrite forallb_forall in *. intros i Hi. rewrite <- E by (apply in_seq in Hi; lia). apply H. exact Hi.
    Qed.
    Lemma step_zeros : forall w nw z, vf_step P X n g C x0 e w = Some nw -> venc k w z -> is_zero k phi z -> venc k nw z.
    Proof using S SX HE He HS.
      intros w nw z H Hz Z. destruct (vf_newton w nw H) as [nr [E1 E2]]. apply (venc_nw nw nr z E2).
      apply (step_zero P fin er S k Fphi phi phiD phi_models phi_smooth Newton w nr z E1 Hz Z).
    Qed.
    Lemma step_inh : forall w nw, vf_step P X n g C x0 e w = Some nw -> (exists v, venc k w v) -> exists v, venc k nw v.
    Proof using S SX HE He HS.
      intros w nw H Hw. destruct (vf_newton w nw H) as [nr [E1 E2]].
      destruct (step_inhabited P fin er S k Fphi phi phiD phi_models phi_smooth Newton w nr E1 Hw) as [v Hv]. exists v. apply (venc_nw nw nr v E2 Hv).
    Qed.
    Lemma step_ex : forall w nw, vf_step P X n g C x0 e w = Some nw -> (exists v, venc k w v) -> vrefines P k nw w = true -> exists z, venc k w z /\ is_zero k phi z.
    Proof using S SX HE He HS.
      intros w nw H Hw R. destruct (vf_newton w nw H) as [nr [E1 E2]].
      apply (step_exists P fin er S k Fphi phi phiD phi_models phi_smooth Newton w nr E1 Hw (refines_nw nw nr w E2 R)).
    Qed.
    Lemma towards_enc : forall w v z u t, venc k w z -> venc k v u -> 0 <= t <= 1 -> venc k (towards P X e w v) (fun i => z i + t * (u i - z i)).
    Proof using S SX.
      intros w v z u t Hw Hv Ht. apply store_venc. intros i Li. apply (s_add _ _ _ S); [apply Hw; exact Li|].
      apply (s_mul _ _ _ S); [apply (x_unit_ok _ _ _ _ _ _ SX); exact Ht|]. apply (s_sub _ _ _ S); [apply Hv|apply Hw]; exact Li.
    Qed.
    Lemma towards_keep : forall w v z, (exists u, venc k v u) -> venc k w z -> venc k (towards P X e w v) z.
    Proof using S SX.
      intros w v z [u Hu] Hz. pose proof (towards_enc w v z u 0 Hz Hu ltac:(lra)) as H.
      intros i Li. specialize (H i Li). cbv beta in H. replace (z i + 0 * (u i - z i)) with (z i) in H by ring. exact H.
    Qed.
    Lemma vf_loop_sound : forall c found validated w, (exists v, venc k w v) -> (found = true -> exists z, venc k w z /\ is_zero k phi z) ->
      (validated = true -> found = true) ->
      forall w', vf_loop P X n g C x0 e c found validated w = Some (true, w') -> exists z, venc k w' z /\ is_zero k phi z.
    Proof using S SX HE He HS.
      induction c as [|c IH]; intros found validated w Hw Hf Hv w' H; cbn [vf_loop] in H.
      - injection H as -> <-. apply Hf. apply Hv. reflexivity.
      - destruct (vf_step P X n g C x0 e w) as [nw|] eqn:E; [|discriminate]. destruct found; cbn [negb] in H.
        + destruct (Hf eq_refl) as [z [Hz Zz]]. pose proof (step_zeros w nw z E Hz Zz) as Hn.
          assert (Hr : venc k (store_v P k (fun i => nrefinement P (nw i) (w i))) z).
          { apply store_venc. intros i Li. apply (s_refinement _ _ _ S). split; [apply Hn|apply Hz]; exact Li. }
          destruct (vrefines P k nw w) eqn:R; [|destruct validated].
          * eapply IH; [| | |exact H]; [exists z; exact Hr|intros _; exists z; split; assumption|reflexivity].
          * injection H as <-. exists z. split; assumption.
          * eapply IH; [| | |exact H]; [exists z; exact Hr|intros _; exists z; split; assumption|reflexivity].
        + destruct (vrefines P k nw w) eqn:R.
          * destruct (step_ex w nw E Hw R) as [z [Hz Zz]].
            assert (Ht : venc k (towards P X e w (vzero P)) z) by (apply towards_keep; [exists (fun _ => 0); intros i _; apply (s_0 _ _ _ S)|exact Hz]).
            eapply IH; [| | |exact H]; [exists z; exact Ht|intros _; exists z; split; assumption|reflexivity].
          * destruct (step_inh w nw E Hw) as [u Hu]. destruct Hw as [v Hw].
            eapply IH; [| | |exact H]; [|discriminate|intros Q; apply Hv; exact Q].
            exists v. apply towards_keep; [|exact Hw]. exists (fun i => 2 * u i). intros i Li. apply (s_mul _ _ _ S); [apply (x_two_ok _ _ _ _ _ _ SX)|apply Hu; exact Li].
    Qed.
    Lemma ineq_sound : forall gx u, (forall i, (i < m)%nat -> enc (gx i) (u i)) -> ineq_hold P X m C gx = true -> forall i, (i < m)%nat -> x_single X (C i) = false -> inI (C i) (u i).
    Proof using SX.
      intros gx u Hg H i Li Ns. pose proof (all_below_true m _ H i Li) as Q. cbv beta in Q. rewrite Ns in Q. cbn [orb] in Q.
      eapply (x_contains_ok _ _ _ _ _ _ SX); [apply definitely_true; exact Q|]. apply Hg. exact Li.
    Qed.
  End VF.

  Lemma ev_enc : forall x v, venc n x v -> forall i, (i < m)%nat -> enc (store_v P m (g_ev P X g x) i) (f v i).
  Proof using HE. intros x v Hx i Li. rewrite store_v_eq by exact Li. apply (e_ev _ _ _ _ _ _ _ _ _ _ _ HE); assumption. Qed.
  Lemma vf_end_sound : smooth_map n m f Df -> forall x0 e c, (forall q, In q e <-> (q < m)%nat /\ x_single X (C q) = true) ->
    vf_end P X n m g C x0 e (vf_loop P X n g C x0 e c false false (vzero P)) = Answer TRUE -> exists v, in_box m C (f v).
  Proof using S SX HE.
    intros HS x0 e c He H. assert (He' : forall q, In q e -> (q < m)%nat /\ x_single X (C q) = true) by (intros q; apply He). unfold vf_end in H.
    destruct (vf_loop P X n g C x0 e c false false (vzero P)) as [[validated w]|] eqn:EL; [|discriminate].
    destruct validated; cbn [negb] in H; [|discriminate]. destruct (ineq_hold P X m C (store_v P m (g_ev P X g (moved P X n g x0 e w)))) eqn:I1; [|discriminate].
    destruct (vf_loop_sound HS x0 e He' c false false (vzero P)) with (w' := w) as [z [Hz Zz]]; [exists (fun _ => 0); intros i _; apply (s_0 _ _ _ S)|discriminate|discriminate|exact EL|].
    exists (along x0 e z). intros i Li. destruct (x_single X (C i)) eqn:Si.
    - assert (Q : In i e) by (apply He; auto). destruct (at_find e i Q) as [l [Ll <-]]. apply (zero_eq e He' _ l Ll). apply (Zz l Ll).
    - apply (ineq_sound _ _ (ev_enc _ _ (moved_enc x0 e He' w z Hz)) I1 i Li Si).
  Qed.
  (** If validate_feasibility succeeds then the constraints hold at some point. *)
  Theorem validate_sound : smooth_map n m f Df -> forall x0, validate_feasibility P X n m D g C x0 = Answer TRUE ->
    exists v, in_box m C (f v).
  Proof using S SX HE.
    intros HS x0. unfold validate_feasibility. generalize 12%nat as c. intros c H. pose proof equalities_in as EI.
    destruct (ineq_hold P X m C _) eqn:I0; [|discriminate]. cbn [negb] in H.
    destruct (equalities P X m C) as [|q0 e0].
    - exists (fun j => val (x0 j)). intros i Li. destruct (x_single X (C i)) eqn:Si.
      + assert (Q : In i []) by (apply EI; auto). destruct Q.
      + apply (ineq_sound _ _ (ev_enc _ _ (start_enc x0)) I0 i Li Si).
    - apply (vf_end_sound HS x0 (q0 :: e0) c EI H).
  Qed.

  (** ** contains_feasible_point *)
  Lemma test_ineq_none : forall gx u is r, (forall i, In i is -> enc (gx i) (u i)) -> test_ineq P X C gx is r = None -> exists i, In i is /\ ~ inI (C i) (u i).
  Proof using SX.
    induction is as [|a is IH]; intros r Hg H; cbn [test_ineq] in H; [discriminate|]. destruct (definitely (x_disjoint X (gx a) (C a))) eqn:Q.
    - exists a. split; [left; reflexivity|]. eapply (x_disjoint_ok _ _ _ _ _ _ SX); [apply definitely_true; exact Q|apply Hg; left; reflexivity].
    - destruct (IH _ (fun i Hi => Hg i (or_intror Hi)) H) as [i [Hi Ni]]. exists i. split; [right; exact Hi|exact Ni].
  Qed.
  Theorem contains_false_sound : forall L x, contains_feasible_point P X n m D g C L x = Answer FALSE -> forall v, venc n x v -> ~ feasible_for n m D f C v.
  Proof using SX HE.
    intros L x H v Hv [F1 F2]. unfold contains_feasible_point in H. destruct (definitely (box_disjoint P X n x D)) eqn:B.
    { destruct (or_below_true n _ B) as [i [Li E]]. apply (x_disjoint_ok _ _ _ _ _ _ SX _ _ _ E (Hv i Li)). apply F1. exact Li. }
    destruct (definitely (lv_neg _)); [discriminate|]. destruct (test_ineq P X C _ (seq 0 m) TRUE) as [r|] eqn:T.
    - destruct (negb (definitely r)) eqn:R.
      + injection H as ->. assert (Q : forall gx is r0 r, test_ineq P X C gx is r0 = Some r -> r0 <> FALSE -> r <> FALSE).
        { clear. induction is as [|a is IH]; intros r0 r H N; cbn [test_ineq] in H; [congruence|]. destruct (definitely _); [discriminate|]. eapply IH; [exact H|].
          destruct (negb _); [destruct (definitely _); [discriminate|exact N]|exact N]. }
        apply (Q _ _ _ _ T); [discriminate|reflexivity].
      + destruct (Nat.eqb m 0); [discriminate|]. destruct (projected_newton P X n _ _ g C L x) as [nx|]; [|discriminate]. destruct (vrefines P n nx x); discriminate.
    - destruct (test_ineq_none (store_v P m (g_ev P X g x)) (f v) (seq 0 m) TRUE) as [i [Hi Ni]]; [|exact T|].
      + intros i Hi. apply in_seq in Hi. rewrite store_v_eq by lia. apply (e_ev _ _ _ _ _ _ _ _ _ _ _ HE); [exact Hv|lia].
      + apply Ni. apply F2. apply in_seq in Hi. lia.
  Qed.

  Theorem projected_sound : smooth_map n m f Df -> forall e L x nx, (forall q, In q e -> (q < m)%nat /\ x_single X (C q) = true) ->
    projected_newton P X n (length e) e g C L x = Some nx -> vrefines P n nx x = true -> (exists v, venc n x v) ->
    exists v, venc n x v /\ forall q, In q e -> inI (C q) (f v q).
  Proof using S SX HE.
    intros HS e L x nx He H R Hx. set (k := length e) in *.
    enough (G : exists v, venc n x v /\ forall i, (i < k)%nat -> hf e v i = 0).
    { destruct G as [v [Hv Z]]. exists v. split; [exact Hv|]. intros q Hq. destruct (at_find e q Hq) as [i [Li <-]]. apply (zero_eq e He v i Li). apply Z. exact Li. }
    pose proof (hf_smooth e He HS) as HS'.
    unfold projected_newton in H.
    set (A := fun i j => g_jac P X g x (at_ e i) j) in *. set (Ln := fun j i => x_num X (L j i)) in *.
    set (Sm := nmm P n A Ln) in *. destruct (lu_inverse P k Sm) as [Ri|] eqn:EI; [|discriminate].
    set (mx := store_v P n (fun j => nmid P (x j))) in *.
    set (h := store_v P k (fun i => nsub P (g_ev P X g mx (at_ e i)) (x_cast X (C (at_ e i))))) in *.
    injection H as E.
    assert (RF : forall j, (j < n)%nat -> nrefines P (nx j) (x j) = true) by (intros j Lj; apply (vrefines_spec P n nx x R j Lj)).
    assert (FR : forall j, (j < n)%nat -> fin (x j) <> None) by (intros j Lj; apply (s_refines _ _ _ S _ _ (RF j Lj))).
    assert (FN : forall j, (j < n)%nat -> fin (nx j) <> None) by (intros j Lj; apply (s_refines _ _ _ S _ _ (RF j Lj))).
    assert (SUB : forall v, venc n nx v -> venc n x v) by (intros v Hv j Lj; apply (s_refines _ _ _ S _ _ (RF j Lj)); apply Hv; exact Lj).
    set (xl := fun i => match fin (x i) with Some (l, _) => l | None => 0 end). set (xu := fun i => match fin (x i) with Some (_, u) => u | None => 0 end).
    assert (BX : forall v, inb n xl xu v <-> venc n x v).
    { intros v. split; intros Hv i Li; specialize (Hv i Li); specialize (FR i Li); unfold Solver_Spec.enc, xl, xu in *; destruct (fin (x i)) as [[l u]|]; [exact Hv|contradiction|exact Hv|contradiction]. }
    destruct (mid_v P fin er S n x Hx) as [mm0 [Hm1 Hm2]]. fold mx in Hm2.
    assert (HX : forall j, (j < n)%nat -> xl j <= xu j) by (intros j Lj; apply BX in Hm1; specialize (Hm1 j Lj); lra).
    (* bounds of the Jacobian over the box *)
    destruct HS' as [HD HL]. destruct (HL xl xu) as [L0 BL0].
    set (La := Rmax L0 0).
    assert (BL : forall v, inb n xl xu v -> forall i j, (i < k)%nat -> (j < n)%nat -> Rabs (hD e v i j) <= La).
    { intros v Hv i j Li Lj. eapply Rle_trans; [apply (BL0 v Hv i j Li Lj)|apply Rmax_l]. }
    set (loA := fun i j => match fin (A i j) with Some (l, _) => Rmax l (- La) | None => - La end).
    set (hiA := fun i j => match fin (A i j) with Some (_, u) => Rmin u La | None => La end).
    assert (JA : forall M, inJr k n loA hiA M -> forall i j, (i < k)%nat -> (j < n)%nat -> enc (A i j) (M i j) /\ Rabs (M i j) <= La).
    { intros M HM i j Li Lj. specialize (HM i j Li Lj). unfold loA, hiA in HM. unfold Solver_Spec.enc. destruct (fin (A i j)) as [[l u]|].
      - pose proof (Rmax_l l (- La)). pose proof (Rmin_l u La). pose proof (Rmax_r l (- La)). pose proof (Rmin_r u La). split; [lra|apply Rabs_le; lra].
      - split; [exact I|apply Rabs_le; lra]. }
    assert (DJ : forall v, inb n xl xu v -> forall i j, (i < k)%nat -> (j < n)%nat -> loA i j <= hD e v i j <= hiA i j).
    { intros v Hv i j Li Lj. pose proof (BL v Hv i j Li Lj) as B1. apply BX in Hv.
      assert (B2 : enc (A i j) (hD e v i j)) by (apply (e_jac _ _ _ _ _ _ _ _ _ _ _ HE); [exact Hv|apply at_lt; assumption|exact Lj]).
      pose proof (Rle_abs (hD e v i j)). pose proof (Rle_abs (- hD e v i j)). rewrite Rabs_Ropp in *.
      unfold Solver_Spec.enc in B2. unfold loA, hiA. destruct (fin (A i j)) as [[l u]|]; [|lra]. split; [apply Rmax_lub|apply Rmin_glb]; lra. }
    set (Lr := fun j i => val (L j i)).
    set (cs := sum n (fun j => sum k (fun l => Rabs (Lr j l)))).
    set (Ls := sum n (fun j => La * cs)).
    assert (Lr_le : forall j l, (j < n)%nat -> (l < k)%nat -> Rabs (Lr j l) <= cs).
    { intros j l Lj Ll. unfold cs. eapply Rle_trans; [|apply (sum_term n (fun j => sum k (fun l => Rabs (Lr j l)))); [intros; apply sum_nonneg; intros; apply Rabs_pos|exact Lj]].
      apply (sum_term k (fun l => Rabs (Lr j l))); [intros; apply Rabs_pos|exact Ll]. }
    set (lo := fun i j => match fin (Sm i j) with Some (l, _) => Rmax l (- Ls) | None => - Ls end).
    set (hi := fun i j => match fin (Sm i j) with Some (_, u) => Rmin u Ls | None => Ls end).
    assert (JS : forall M, inJ k lo hi M -> menc k Sm M).
    { intros M HM i j Li Lj. specialize (HM i j Li Lj). unfold lo, hi in HM. unfold Solver_Spec.enc. destruct (fin (Sm i j)) as [[l u]|]; [|exact I].
      pose proof (Rmax_l l (- Ls)). pose proof (Rmin_l u Ls). lra. }
    assert (ASm : forall M, inJr k n loA hiA M -> menc k Sm (mm n M Lr)).
    { intros M HM i j Li Lj. apply (nsum_enc P fin er S). intros q Lq. apply (s_mul _ _ _ S); [apply (JA M HM i q Li Lq)|apply (x_num_ok _ _ _ _ _ _ SX)]. }
    assert (AL : forall M, inJr k n loA hiA M -> inJ k lo hi (mm n M Lr)).
    { intros M HM i j Li Lj. pose proof (ASm M HM i j Li Lj) as Q.
      assert (Q2 : Rabs (mm n M Lr i j) <= Ls).
      { unfold mm, Ls. eapply Rle_trans; [apply sum_abs|]. apply sum_le. intros q Lq. rewrite Rabs_mult. apply Rmult_le_compat; try apply Rabs_pos; [apply (JA M HM i q Li Lq)|apply Lr_le; assumption]. }
      pose proof (Rle_abs (mm n M Lr i j)). pose proof (Rle_abs (- mm n M Lr i j)). rewrite Rabs_Ropp in *.
      unfold Solver_Spec.enc in Q. unfold lo, hi. destruct (fin (Sm i j)) as [[l u]|]; [|lra]. split; [apply Rmax_lub|apply Rmin_glb]; lra. }
    assert (HM0 : inJr k n loA hiA (hD e mm0)) by (intros i j Li Lj; apply DJ; [apply BX; exact Hm1|exact Li|exact Lj]).
    set (bd := fun i j => match fin (Ri i j) with Some (l, u) => Rabs l + Rabs u | None => 0 end).
    assert (Hbd : forall i j, 0 <= bd i j) by (intros i j; unfold bd; destruct (fin (Ri i j)) as [[l u]|]; [pose proof (Rabs_pos l); pose proof (Rabs_pos u); lra|lra]).
    set (beta := sum k (fun i => sum k (bd i))). assert (Hb : 0 <= beta) by (apply sum_nonneg; intros; apply sum_nonneg; auto).
    assert (KN : (0 < k)%nat -> (0 < n)%nat).
    { intros Lk. destruct n as [|n']; [exfalso|lia].
      destruct (lu_inverse_sound P fin er S k Sm Ri _ EI (ASm _ HM0)) as [B [_ [HB _]]]. specialize (HB O O Lk Lk). unfold delta in HB. cbn in HB.
      unfold mm in HB. cbn [sum] in HB. rewrite (sum_ext k _ (fun _ => 0)) in HB by (intros; ring). rewrite sum_0 in HB. lra. }
    assert (FA : forall i j, (i < k)%nat -> (j < k)%nat -> fin (Ri i j) <> None).
    { intros i j Li Lj. specialize (FN O (KN ltac:(lia))). rewrite <- E in FN. rewrite store_v_eq in FN by (apply KN; lia). apply (s_fin_sub _ _ _ S) in FN. destruct FN as [_ FN].
      unfold nmv in FN. apply (nsum_fin P fin er S k _) with (j := i) in FN; [|exact Li]. apply (s_fin_mul _ _ _ S) in FN. destruct FN as [_ FN]. rewrite store_v_eq in FN by exact Li.
      apply (nsum_fin P fin er S k _) with (j := j) in FN; [|exact Lj]. apply (s_fin_mul _ _ _ S) in FN. apply FN. }
    destruct (projected_exists k n loA hiA lo hi beta xl xu (hf e) mm0 Lr) as [v [Hv Z]].
    - intros i j Li Lj. specialize (HM0 i j Li Lj). lra.
    - intros i j Li Lj. specialize (AL _ HM0 i j Li Lj). lra.
    - exact Hb.
    - intros M HM. destruct (lu_inverse_sound P fin er S k Sm Ri M EI (JS M HM)) as [B [HB1 HB2]]. exists B. split; [exact HB2|].
      intros i j Li Lj. specialize (HB1 i j Li Lj). specialize (FA i j Li Lj).
      assert (B1 : Rabs (B i j) <= bd i j).
      { unfold Solver_Spec.enc in HB1. unfold bd. destruct (fin (Ri i j)) as [[l u]|]; [|contradiction]. apply Rabs_le.
        pose proof (Rle_abs u). pose proof (Rle_abs (- l)). rewrite Rabs_Ropp in *. pose proof (Rabs_pos l). pose proof (Rabs_pos u). lra. }
      assert (B2 : bd i j <= sum k (bd i)) by (apply sum_term; auto).
      assert (B3 : sum k (bd i) <= beta) by (apply (sum_term k (fun i => sum k (bd i))); [intros; apply sum_nonneg; auto|exact Li]). lra.
    - exact AL.
    - exact HX.
    - apply BX. exact Hm1.
    - intros u w Hu Hw. destruct (mvt_map n k (hf e) (hD e) u w (conj HD HL)) as [M [H1 H2]]. exists M. split; [|exact H2]. intros i j Li Lj. destruct (H1 i Li) as [t [Ht ->]].
      apply DJ; [|exact Li|exact Lj]. apply BX. intros q Lq. apply BX in Hu. apply BX in Hw. specialize (Hu q Lq). specialize (Hw q Lq). unfold Solver_Spec.enc, seg in *. destruct (fin (x q)) as [[l r]|]; [nra|exact I].
    - intros M B HM HB. apply BX. apply SUB. rewrite <- E. apply store_venc. intros j Lj. apply (s_sub _ _ _ S); [apply Hm2; exact Lj|].
      apply (nsum_enc P fin er S). intros i Li. apply (s_mul _ _ _ S); [apply (x_num_ok _ _ _ _ _ _ SX)|]. rewrite store_v_eq by exact Li.
      apply (nsum_enc P fin er S). intros q Lq. apply (s_mul _ _ _ S); [apply (lu_inverse_all P fin er S k Sm Ri _ B EI (ASm M HM) HB i q Li Lq)|].
      unfold h. rewrite store_v_eq by exact Lq. unfold hf. apply (s_sub _ _ _ S).
      + apply (e_ev _ _ _ _ _ _ _ _ _ _ _ HE); [exact Hm2|apply at_lt; assumption].
      + apply (x_cast_ok _ _ _ _ _ _ SX). apply (x_single_ok _ _ _ _ _ _ SX). apply at_single; assumption.
    - exists v. split; [apply BX; exact Hv|exact Z].
  Qed.

  (** If the box is inside the domain and satisfies the inequalities then the answer true is right. *)
  Theorem contains_true_sound : smooth_map n m f Df -> forall L x, contains_feasible_point P X n m D g C L x = Answer TRUE -> (exists v, venc n x v) ->
    (forall v, venc n x v -> in_box n D v) -> (forall v i, venc n x v -> (i < m)%nat -> x_single X (C i) = false -> inI (C i) (f v i)) ->
    exists v, venc n x v /\ feasible_for n m D f C v.
  Proof using S SX HE.
    intros HS L x H Hx HD HC. unfold contains_feasible_point in H. destruct (definitely (box_disjoint P X n x D)); [discriminate|].
    destruct (definitely (lv_neg _)); [discriminate|]. destruct (test_ineq P X C _ (seq 0 m) TRUE) as [r|] eqn:T; [|discriminate].
    destruct (negb (definitely r)) eqn:Q; [injection H as ->; discriminate Q|]. destruct (Nat.eqb m 0); [discriminate|].
    destruct (projected_newton P X n _ _ g C L x) as [nx|] eqn:PN; [|discriminate]. destruct (vrefines P n nx x) eqn:R; [|discriminate].
    destruct (projected_sound HS (equalities P X m C) L x nx) as [v [Hv Z]]; auto; [intros q; apply equalities_in|].
    exists v. split; [exact Hv|]. split; [apply HD; exact Hv|]. intros i Li. destruct (x_single X (C i)) eqn:Si; [apply Z; apply equalities_in; auto|apply HC; assumption].
  Qed.

  (** ** Certificates of infeasibility *)
  Lemma u_sum_ok : forall k a u s v, inU a u -> (forall i, (i < k)%nat -> inU (s i) (v i)) -> inU (u_sum P X k a s) (u + sum k v).
  Proof using SX.
    induction k as [|k IH]; intros a u s v Ha Hs; cbn [u_sum sum]; [rewrite Rplus_0_r; exact Ha|].
    replace (u + (sum k v + v k)) with ((u + sum k v) + v k) by ring. apply (u_add_ok _ _ _ _ _ _ SX); [apply IH; auto|apply Hs; lia].
  Qed.
  Lemma u_dot_ok : forall y s v, (forall i, (i < m)%nat -> inU (s i) (v i)) -> inU (u_dot P X m y s) (sum m (fun i => val (y i) * v i)).
  Proof using SX.
    intros y s v Hs. unfold u_dot. replace (sum m _) with (0 + sum m (fun i => val (y i) * v i)) by ring. apply u_sum_ok; [apply (u_zero_ok _ _ _ _ _ _ SX)|].
    intros i Li. apply (u_mul_ok _ _ _ _ _ _ SX); [apply (u_pt_ok _ _ _ _ _ _ SX)|apply Hs; exact Li].
  Qed.
  Theorem certificate_sound : forall ny y, is_infeasibility_certificate P X n m ny D g C y = true -> infeasible_problem P X inI n m D f C.
  Proof using SX HE.
    intros ny y H v [F1 F2]. unfold is_infeasibility_certificate in H. destruct (Nat.eqb ny 0).
    - apply existsb_exists in H. destruct H as [j [Hj E]]. apply in_seq in Hj. apply (x_empty_ok _ _ _ _ _ _ SX _ E (v j)). apply F1. lia.
    - apply definitely_true in H. apply (u_disjoint_ok _ _ _ _ _ _ SX _ _ (sum m (fun i => val (y i) * f v i)) H).
      + apply u_dot_ok. intros i Li. apply (u_ivl_ok _ _ _ _ _ _ SX). apply F2. exact Li.
      + apply (u_num_ok _ _ _ _ _ _ SX). apply (e_taylor _ _ _ _ _ _ _ _ _ _ _ HE). exact F1.
  Qed.
  Theorem validate_infeasibility_sound : smooth_map n m f Df -> forall x y, in_box n D (fun j => val (x j)) -> validate_infeasibility P X n m D g C x y = true ->
    infeasible_problem P X inI n m D f C.
  Proof using SX HE.
    intros HS x y Hx H v [F1 F2]. unfold validate_infeasibility in H. apply definitely_true in H.
    set (vx := fun j => val (x j)) in *.
    apply (u_apart_ok _ _ _ _ _ _ SX _ _ (sum m (fun i => val (y i) * f v i)) H).
    - apply u_dot_ok. intros i Li. apply (u_ivl_ok _ _ _ _ _ _ SX). apply F2. exact Li.
    - (* the mean value theorem for y.f along the segment from x to v *)
      destruct HS as [HD _].
      destruct (MVT_cor2 (fun s => sum m (fun i => val (y i) * f (seg vx v s) i)) (fun t => sum m (fun i => val (y i) * sum n (fun j => Df (seg vx v t) i j * (v j - vx j)))) 0 1) as [c [E Hc]]; [lra| |].
      { intros c Hc. clear H F2 HE. revert HD. generalize m as q. induction q as [|q IH]; intros HD; cbn [sum]; [apply derivable_pt_lim_const|].
        apply (derivable_pt_lim_plus (fun s => sum q (fun i => val (y i) * f (seg vx v s) i)) (fun s => val (y q) * f (seg vx v s) q)).
        - apply IH. intros; apply HD; [lia|assumption].
        - apply (derivable_pt_lim_scal (fun s => f (seg vx v s) q)). apply HD; [lia|exact Hc]. }
      rewrite seg_0, seg_1 in E.
      set (w := seg vx v c) in *.
      replace (sum m (fun i => val (y i) * f v i)) with (sum m (fun i => val (y i) * f vx i) + sum n (fun j => sum m (fun i => Df w i j * val (y i)) * (v j - vx j))).
      2:{ assert (Q : sum n (fun j => sum m (fun i => Df w i j * val (y i)) * (v j - vx j)) = sum m (fun i => val (y i) * sum n (fun j => Df w i j * (v j - vx j)))).
          { transitivity (sum n (fun j => sum m (fun i => val (y i) * (Df w i j * (v j - vx j))))).
            - apply sum_ext. intros j _. rewrite <- sum_scal_r. apply sum_ext. intros; ring.
            - rewrite sum_swap. apply sum_ext. intros i _. apply sum_scal. }
          rewrite Q. lra. }
      assert (Hw : in_box n D w) by (intros j Lj; apply (x_convex _ _ _ _ _ _ SX); [apply Hx|apply F1|lra]; exact Lj).
      apply u_sum_ok.
      + apply u_dot_ok. intros i Li. apply (e_apply _ _ _ _ _ _ _ _ _ _ _ HE); [|exact Li]. intros j Lj. apply (u_pt_ok _ _ _ _ _ _ SX).
      + intros j Lj. apply (u_mul_ok _ _ _ _ _ _ SX).
        * replace (sum m _) with (0 + sum m (fun i => Df w i j * val (y i))) by ring. apply u_sum_ok; [apply (u_zero_ok _ _ _ _ _ _ SX)|]. intros i Li.
          apply (u_mul_ok _ _ _ _ _ _ SX); [|apply (u_pt_ok _ _ _ _ _ _ SX)]. apply (e_jrange _ _ _ _ _ _ _ _ _ _ _ HE); [|exact Li|exact Lj].
          intros q Lq. apply (u_ivl_ok _ _ _ _ _ _ SX). apply Hw. exact Lq.
        * apply (u_sub_ok _ _ _ _ _ _ SX); [apply (u_ivl_ok _ _ _ _ _ _ SX); apply F1; exact Lj|apply (u_pt_ok _ _ _ _ _ _ SX)].
  Qed.
End OPT.

(** ** The drivers *)
Section DRIVE.
  Variables (P : ops) (fin : num P -> option (R * R)) (er : R) (S : sound_ops P fin er).
  Variables (X : xops P) (val : pt X -> R) (inI : ival X -> R -> Prop) (inU : uiv X -> R -> Prop) (SX : sound_x P X fin val inI inU).
  Variables (n m : nat) (g : gfn P X) (f : vec -> vec) (Df : vec -> mat).
  Hypothesis HE : encloses P X fin val inI inU n m g f Df.
  Variables (D C : nat -> ival X).
  Lemma feasible_loop_sound : smooth_map n m f Df -> forall its,
    (feasible_loop P X n m D g C its = Answer FALSE -> infeasible_problem P X inI n m D f C) /\
    (feasible_loop P X n m D g C its = Answer TRUE -> exists v, in_box P X inI m C (f v)).
  Proof using S SX HE.
    intros HS. induction its as [|it its [IH1 IH2]]; cbn [feasible_loop]; [split; discriminate|].
    destruct (validate_feasibility P X n m D g C (it_x P X it)) as [v| |] eqn:V; try (split; discriminate).
    destruct (definitely v) eqn:Q; [split; [discriminate|intros _]|].
    - apply definitely_true in Q. subst v. eapply (validate_sound P fin er S X val inI inU SX n m g f Df HE D C HS); exact V.
    - destruct (is_infeasibility_certificate P X n m m D g C (it_y P X it)) eqn:K; [split; [intros _|discriminate]; eapply (certificate_sound P fin X val inI inU SX n m g f Df HE); exact K|].
      destruct (it_stop P X it); [split; discriminate|]. split; assumption.
  Qed.
  Lemma minimise_loop_sound : smooth_map n m f Df -> forall C' its x0,
    (minimise_loop P X n m D g C' its x0 = Infeasible P -> infeasible_problem P X inI n m D f C') /\
    (forall x, minimise_loop P X n m D g C' its x0 = Point P x -> exists v, in_box P X inI m C' (f v)).
  Proof using S SX HE.
    intros HS C' its. assert (EN : forall x0, min_end P X n m D g C' x0 <> Infeasible P /\ forall x, min_end P X n m D g C' x0 = Point P x -> exists v, in_box P X inI m C' (f v)).
    { intros x0. unfold min_end. destruct (validate_feasibility P X n m D g C' x0) as [v| |] eqn:V; try (split; [discriminate|intros ? W; discriminate W]).
      destruct (definitely v) eqn:Q; split; try discriminate. intros x _. apply definitely_true in Q. subst v.
      eapply (validate_sound P fin er S X val inI inU SX n m g f Df HE D C' HS); exact V. }
    induction its as [|it its IH]; intros x0; cbn [minimise_loop].
    - split; [intros Q; exfalso; revert Q; apply EN|apply EN].
    - destruct (is_infeasibility_certificate P X n m m D g C' (it_y P X it)) eqn:K; [split; [intros _|intros ? W; discriminate W]; eapply (certificate_sound P fin X val inI inU SX n m g f Df HE); exact K|].
      destruct (it_stop P X it); [split; [intros Q; exfalso; revert Q; apply EN|apply EN]|apply IH].
  Qed.
  Lemma cut_in : forall v, in_box P X inI n D v -> in_box P X inI m C (f v) -> in_box P X inI m (cut P X D g C) (f v).
  Proof using SX HE.
    intros v Hv HC i Li. apply (x_meet_ok _ _ _ _ _ _ SX); [apply HC; exact Li|]. replace (f v i) with (f v i + 0) by ring.
    apply (u_add_ok _ _ _ _ _ _ SX); [|apply (u_sym_ok _ _ _ _ _ _ SX)]. apply (e_apply _ _ _ _ _ _ _ _ _ _ _ HE); [|exact Li].
    intros j Lj. apply (u_ivl_ok _ _ _ _ _ _ SX). apply Hv. exact Lj.
  Qed.
  Theorem minimise_sound : smooth_map n m f Df -> forall its x0,
    (minimise P X n m D g C its x0 = Infeasible P -> infeasible_problem P X inI n m D f C) /\
    (forall x, minimise P X n m D g C its x0 = Point P x -> exists v, in_box P X inI m C (f v)).
  Proof using S SX HE.
    intros HS its x0. destruct (minimise_loop_sound HS (cut P X D g C) (firstn 24 its) x0) as [H1 H2]. split.
    - intros H v [F1 F2]. apply (H1 H v). split; [exact F1|apply cut_in; assumption].
    - intros x H. destruct (H2 x H) as [v Hv]. exists v. intros i Li. eapply (x_meet_sub _ _ _ _ _ _ SX). apply Hv. exact Li.
  Qed.
End DRIVE.
