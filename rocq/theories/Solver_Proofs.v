(** Proofs about linear systems, the Newton and Krawczyk steps and the solver loops. *)
From Coq Require Import Reals List Lra Lia Arith Bool FunctionalExtensionality.
From Verif Require Import Solver_Model Solver_Spec Newton_Math Solver_LU_Proofs.
Import ListNotations.
Local Open Scope R_scope.

Lemma seg_0 : forall y x, seg y x 0 = y.
Proof. intros. apply functional_extensionality. intros j. unfold seg. ring. Qed.
Lemma seg_1 : forall y x, seg y x 1 = x.
Proof. intros. apply functional_extensionality. intros j. unfold seg. ring. Qed.

(** Mean value theorem, row by row. *)
Lemma mvt_rows : forall n f D x y, smooth n f D ->
  exists A : mat, (forall i, (i < n)%nat -> exists t, 0 <= t <= 1 /\ A i = D (seg y x t) i) /\
                  forall i, (i < n)%nat -> f x i - f y i = mv n A (vsub x y) i.
Proof.
  intros n f D x y [HD _].
  destruct (finite_choice_col n (fun i a => (exists t, 0 <= t <= 1 /\ a = D (seg y x t) i) /\ f x i - f y i = sum n (fun j => a j * (x j - y j)))) as [A HA].
  - intros i Li. destruct (MVT_cor2 (fun s => f (seg y x s) i) (fun t => sum n (fun j => D (seg y x t) i j * (x j - y j))) 0 1) as [c [E Hc]]; [lra|intros c Hc; apply HD; [exact Li|lra]|].
    exists (D (seg y x c) i). split; [exists c; split; [lra|reflexivity]|]. rewrite seg_0, seg_1 in E. rewrite E. ring.
  - exists A. split; intros i Li; apply HA; exact Li.
Qed.

Section SOL.
  Variables (P : ops) (fin : num P -> option (R * R)) (e : R) (S : sound_ops P fin e).
  Notation enc := (enc P fin). Notation menc := (menc P fin). Notation venc := (venc P fin).

  Lemma nsum_enc : forall n f g, (forall j, (j < n)%nat -> enc (f j) (g j)) -> enc (nsum P n f) (sum n g).
  Proof using S.
    induction n as [|n IH]; intros f g H; cbn; [apply (s_0 _ _ _ S)|]. apply (s_add _ _ _ S); [apply IH; intros; apply H; lia|apply H; lia].
  Qed.
  Lemma nmv_enc : forall n A x a v, menc n A a -> venc n x v -> venc n (nmv P n A x) (mv n a v).
  Proof using S. intros n A x a v HA Hx i Li. apply nsum_enc. intros j Lj. apply (s_mul _ _ _ S); auto. Qed.
  Lemma nmm_enc : forall n A B a b, menc n A a -> menc n B b -> menc n (nmm P n A B) (mm n a b).
  Proof using S. intros n A B a b HA HB i j Li Lj. apply nsum_enc. intros k Lk. apply (s_mul _ _ _ S); auto. Qed.
  Lemma nid_enc : forall n, menc n (nid P) delta.
  Proof using S. intros n i j _ _. unfold nid, delta. destruct (Nat.eqb i j); [apply (s_1 _ _ _ S)|apply (s_0 _ _ _ S)]. Qed.

  Lemma nsum_fin : forall n f, fin (nsum P n f) <> None -> forall j, (j < n)%nat -> fin (f j) <> None.
  Proof using S.
    induction n as [|n IH]; intros f H j L; [lia|]. cbn in H. apply (s_fin_add _ _ _ S) in H. destruct H as [H1 H2].
    destruct (Nat.eq_dec j n) as [->|N]; [exact H2|]. apply IH; [exact H1|lia].
  Qed.

  Lemma mid_v : forall n x, (exists v, venc n x v) -> exists m, venc n x m /\ venc n (store_v P n (fun i => nmid P (x i))) m.
  Proof using S.
    intros n x [v Hv]. destruct (finite_choice_col n (fun i a => enc (x i) (a O) /\ enc (nmid P (x i)) (a O))) as [a Ha].
    - intros i Li. destruct (s_mid _ _ _ S (x i) (v i) (Hv i Li)) as [m Hm]. exists (fun _ => m). exact Hm.
    - exists (fun i => a i O). split; [intros i Li; apply Ha; exact Li|]. apply store_venc. intros i Li. apply Ha. exact Li.
  Qed.
  Lemma mid_m : forall n A a, menc n A a -> exists m, menc n A m /\ menc n (fun i j => nmid P (A i j)) m.
  Proof using S.
    intros n A a Ha.
    destruct (finite_choice_col n (fun i r => forall j, (j < n)%nat -> enc (A i j) (r j) /\ enc (nmid P (A i j)) (r j))) as [m Hm].
    - intros i Li. destruct (finite_choice_col n (fun j r => enc (A i j) (r O) /\ enc (nmid P (A i j)) (r O))) as [r Hr].
      + intros j Lj. destruct (s_mid _ _ _ S (A i j) (a i j) (Ha i j Li Lj)) as [x Hx]. exists (fun _ => x). exact Hx.
      + exists (fun j => r j O). exact Hr.
    - exists m. split; intros i j Li Lj; apply (Hm i Li j Lj).
  Qed.

  (** ** Linear systems *)
  Lemma lu_solve_sound : forall n A b x a v y, lu_solve P n A b = Some x -> menc n A a -> venc n b v -> veq n (mv n a y) v -> venc n x y.
  Proof using S.
    intros n A b x a v y H HA Hb E. unfold lu_solve in H. destruct (lu_inverse P n A) as [Ai|] eqn:EA; [|discriminate]. injection H as <-.
    destruct (lu_inverse_sound P fin e S n A Ai a EA HA) as [ai [H1 H2]]. apply store_venc. intros i Li.
    rewrite (inverse_apply n a ai y v H2 E i Li). apply nmv_enc; assumption.
  Qed.

  Section GS.
    Variables (n : nat) (A : nat -> nat -> num P) (b : nat -> num P) (a : mat) (v y : vec).
    Hypotheses (HA : menc n A a) (Hb : venc n b v) (HE : veq n (mv n a y) v).
    Lemma gs_entry_sound : forall x i, (i < n)%nat -> venc n x y -> venc n (gs_entry P n A b x i) y.
    Proof using S HA Hb HE.
      intros x i Li Hx. unfold gs_entry.
      set (go := fix go (c k : nat) (r : num P) : num P :=
        match c with O => r | Datatypes.S c' => go c' (Datatypes.S k) (if Nat.eqb k i then r else nsub P r (nmul P (A i k) (x k))) end).
      set (g := fun l => if Nat.eqb l i then 0 else a i l * y l).
      assert (G : forall c k r u, (k + c <= n)%nat -> enc r u -> enc (go c k r) (u - (sum (k + c) g - sum k g))).
      { induction c as [|c IH]; intros k r u L Hr; cbn [go].
        - rewrite Nat.add_0_r. replace (u - (sum k g - sum k g)) with u by ring. exact Hr.
        - replace (k + Datatypes.S c)%nat with (Datatypes.S k + c)%nat by lia.
          replace (u - (sum (Datatypes.S k + c) g - sum k g)) with ((u - g k) - (sum (Datatypes.S k + c) g - sum (Datatypes.S k) g)) by (cbn [sum]; ring).
          apply IH; [lia|]. unfold g. destruct (Nat.eqb_spec k i) as [->|N]; [replace (u - 0) with u by ring; exact Hr|].
          apply (s_sub _ _ _ S); [exact Hr|]. apply (s_mul _ _ _ S); [apply HA; lia|apply Hx; lia]. }
      destruct (nnonzero P (A i i)) eqn:NZ; [|exact Hx]. apply store_venc. intros j Lj. destruct (Nat.eqb_spec j i) as [->|N]; [|apply Hx; exact Lj].
      apply (s_refinement _ _ _ S). split; [apply Hx; exact Li|].
      pose proof (s_nonzero _ _ _ S (A i i) (a i i) NZ (HA i i Li Li)) as Nz.
      specialize (G n 0%nat (b i) (v i) (Nat.le_refl n) (Hb i Li)). cbn [sum] in G. rewrite Nat.add_0_l in G.
      assert (Q : v i - (sum n g - 0) = a i i * y i).
      { rewrite <- (HE i Li). unfold mv, g.
        rewrite (sum_ext n (fun l => if Nat.eqb l i then 0 else a i l * y l) (fun l => a i l * y l - (if Nat.eqb l i then a i l * y l else 0))) by (intros l _; destruct (Nat.eqb l i); ring).
        rewrite sum_minus, (sum_delta n i (fun l => a i l * y l)) by exact Li. ring. }
      rewrite Q in G. replace (y i) with (a i i * y i / a i i) by (field; exact Nz). apply (s_div _ _ _ S); [exact G|apply HA; assumption|exact Nz].
    Qed.
    Lemma gs_pass_sound : forall c i x, (i + c <= n)%nat -> venc n x y -> venc n (gs_pass P n A b c i x) y.
    Proof using S HA Hb HE. induction c as [|c IH]; intros i x L Hx; cbn; [exact Hx|]. apply IH; [lia|]. apply gs_entry_sound; [lia|exact Hx]. Qed.
  End GS.
  Lemma gs_solve_sound : forall n J A b x j a v y, gs_solve P n J A b = Some x -> menc n J j -> menc n A a -> venc n b v -> veq n (mv n a y) v -> venc n x y.
  Proof using S.
    intros n J A b x j a v y H HJ HA Hb E. unfold gs_solve in H. destruct (lu_solve P n A b) as [x0|] eqn:E0; [|discriminate]. injection H as <-.
    apply (gs_pass_sound n _ _ (mm n j a) (mv n j v) y); [apply store_menc, nmm_enc; assumption|apply store_venc, nmv_enc; assumption| |lia|].
    - intros i Li. rewrite (mv_mm n j a y i Li). apply mv_ext. exact E.
    - eapply lu_solve_sound; eassumption.
  Qed.

  (** ** Steps *)
  Variables (n : nat) (F : fn P) (f : vec -> vec) (D : vec -> mat).
  Hypotheses (HM : models P fin n F f D) (HS : smooth n f D).

  Lemma venc_seg : forall r x y t, venc n r x -> venc n r y -> 0 <= t <= 1 -> venc n r (seg y x t).
  Proof using.
    intros r x y t Hx Hy Ht i Li. specialize (Hx i Li). specialize (Hy i Li). unfold Solver_Spec.enc, seg in *. destruct (fin (r i)) as [[l u]|]; [nra|exact I].
  Qed.
  Lemma mvt_pair : forall r x y, venc n r x -> venc n r y ->
    exists A, menc n (f_jac P F r) A /\ forall i, (i < n)%nat -> f x i - f y i = mv n A (vsub x y) i.
  Proof using HM HS.
    intros r x y Hx Hy. destruct (mvt_rows n f D x y HS) as [A [H1 H2]]. exists A. split; [|exact H2].
    intros i j Li Lj. destruct (H1 i Li) as [t [Ht ->]]. apply (HM r _ (venc_seg r x y t Hx Hy Ht)); assumption.
  Qed.

  (** Every step encloses every zero of the box it starts from, and is not empty. *)
  Lemma newton_enc : forall r nr m A B, lu_inverse P n (f_jac P F r) <> None -> newton_step P n F r = Some nr -> venc n (store_v P n (fun i => nmid P (r i))) m ->
    menc n (f_jac P F r) A -> inverses n A B -> venc n nr (fun i => m i - mv n B (f m) i).
  Proof using S HM.
    intros r nr m A B _ H Hm HA HB. unfold newton_step in H. destruct (lu_inverse P n (f_jac P F r)) as [Ainv|] eqn:E; [|discriminate]. injection H as <-.
    apply store_venc. intros i Li. apply (s_sub _ _ _ S); [apply Hm; exact Li|]. apply nmv_enc; [eapply lu_inverse_all; eassumption| |exact Li].
    apply store_venc. apply HM. exact Hm.
  Qed.
  Lemma krawczyk_enc : forall r nr m A M0 B0 x, krawczyk_step P n F r = Some nr -> venc n (store_v P n (fun i => nmid P (r i))) m ->
    menc n (f_jac P F r) A -> menc n (fun i j => nmid P (store_m P n (f_jac P F r) i j)) M0 -> inverses n M0 B0 -> venc n r x ->
    venc n nr (fun i => m i - mv n B0 (f m) i + (vsub x m i - mv n B0 (mv n A (vsub x m)) i)).
  Proof using S HM.
    intros r nr m A M0 B0 x H Hm HA HM0 HB Hx. unfold krawczyk_step in H. destruct (lu_inverse P n _) as [M|] eqn:E; [|discriminate]. injection H as <-.
    pose proof (lu_inverse_all P fin e S n _ _ M0 B0 E HM0 HB) as EB.
    apply store_venc. intros i Li.
    replace (m i - mv n B0 (f m) i + (vsub x m i - mv n B0 (mv n A (vsub x m)) i))
      with (m i - (mv n B0 (f m) i - mv n (fun i j => delta i j - mm n B0 A i j) (vsub x m) i)) by (rewrite (E_apply n B0 A (vsub x m) i Li); ring).
    apply (s_sub _ _ _ S); [apply Hm; exact Li|]. apply (s_sub _ _ _ S).
    - apply nmv_enc; [exact EB|apply store_venc, HM; exact Hm|exact Li].
    - apply nmv_enc; [| |exact Li].
      + intros k j Lk Lj. apply (s_sub _ _ _ S); [apply (nid_enc n); assumption|]. apply store_menc; [|assumption|assumption]. apply nmm_enc; [exact EB|apply store_menc; exact HA].
      + intros j Lj. apply (s_sub _ _ _ S); [apply Hx; exact Lj|apply Hm; exact Lj].
  Qed.
  Lemma factored_enc : forall r nr m A M0 B0 x, factored_step P n F r = Some nr -> venc n (store_v P n (fun i => nmid P (r i))) m ->
    menc n (f_jac P F r) A -> menc n (fun i j => nmid P (store_m P n (f_jac P F r) i j)) M0 -> inverses n M0 B0 -> venc n r x ->
    venc n nr (fun i => m i - mv n B0 (f m) i + (vsub x m i - mv n B0 (mv n A (vsub x m)) i)).
  Proof using S HM.
    intros r nr m A M0 B0 x H Hm HA HM0 HB Hx. unfold factored_step in H. destruct (lu_inverse P n _) as [M|] eqn:E; [|discriminate]. injection H as <-.
    pose proof (lu_inverse_all P fin e S n _ _ M0 B0 E (store_menc P fin n _ _ HM0) HB) as EB.
    apply store_venc. intros i Li.
    replace (m i - mv n B0 (f m) i + (vsub x m i - mv n B0 (mv n A (vsub x m)) i))
      with (m i - mv n B0 (fun k => f m k + mv n (fun i j => A i j - M0 i j) (vsub x m) k) i).
    - apply (s_sub _ _ _ S); [apply Hm; exact Li|]. apply nmv_enc; [exact EB| |exact Li]. apply store_venc. intros k Lk. apply (s_add _ _ _ S).
      + apply store_venc; [apply HM; exact Hm|exact Lk].
      + apply nmv_enc; [| |exact Lk].
        * intros p q Lp Lq. apply (s_sub _ _ _ S); apply store_menc; assumption.
        * intros j Lj. apply (s_sub _ _ _ S); [apply Hx; exact Lj|apply Hm; exact Lj].
    - assert (Q : mv n B0 (fun k => f m k + mv n (fun i j => A i j - M0 i j) (vsub x m) k) i
        = mv n B0 (f m) i + (mv n B0 (mv n A (vsub x m)) i - mv n B0 (mv n M0 (vsub x m)) i)).
      { unfold mv at 1 3 4 6. rewrite <- sum_minus, <- sum_plus. apply sum_ext. intros k Lk.
        assert (W : mv n (fun i j => A i j - M0 i j) (vsub x m) k = mv n A (vsub x m) k - mv n M0 (vsub x m) k).
        { unfold mv. rewrite <- sum_minus. apply sum_ext. intros; ring. } rewrite W. ring. }
      assert (Q2 : mv n B0 (mv n M0 (vsub x m)) i = vsub x m i).
      { rewrite <- (mv_mm n B0 M0 (vsub x m) i Li). apply mv_id; [apply HB|exact Li]. }
      rewrite Q, Q2. ring.
  Qed.

  (** Midpoint data for the Krawczyk methods. *)
  Lemma krawczyk_mid : forall r, (exists v, venc n r v) -> (exists Ms, lu_inverse P n (fun i j => nmid P (store_m P n (f_jac P F r) i j)) = Some Ms) ->
    exists M0 B0, menc n (fun i j => nmid P (store_m P n (f_jac P F r) i j)) M0 /\ inverses n M0 B0.
  Proof using S HM.
    intros r [v Hv] [Ms E]. destruct (mid_m n (store_m P n (f_jac P F r)) (D v)) as [M0 [_ H0]]; [apply store_menc, HM; exact Hv|].
    destruct (lu_inverse_sound P fin e S n _ Ms M0 E H0) as [B0 [_ HB]]. exists M0, B0. auto.
  Qed.
  Lemma factored_mid : forall r, (exists v, venc n r v) -> (exists Ms, lu_inverse P n (store_m P n (fun i j => nmid P (store_m P n (f_jac P F r) i j))) = Some Ms) ->
    exists M0 B0, menc n (fun i j => nmid P (store_m P n (f_jac P F r) i j)) M0 /\ inverses n M0 B0.
  Proof using S HM.
    intros r [v Hv] [Ms E]. destruct (mid_m n (store_m P n (f_jac P F r)) (D v)) as [M0 [_ H0]]; [apply store_menc, HM; exact Hv|].
    destruct (lu_inverse_sound P fin e S n _ Ms M0 E (store_menc P fin n _ _ H0)) as [B0 [_ HB]]. exists M0, B0. auto.
  Qed.

  (** A common form of the three steps: there are a point [m] and, for the Krawczyk methods, a
      matrix such that the step encloses the Newton or Krawczyk image. *)
  Definition newton_like (r nr : nat -> num P) (m : vec) : Prop :=
    (forall A, menc n (f_jac P F r) A -> exists B, inverses n A B) /\
    forall A B, menc n (f_jac P F r) A -> inverses n A B -> venc n nr (fun i => m i - mv n B (f m) i).
  Definition krawczyk_like (r nr : nat -> num P) (m : vec) : Prop :=
    exists M0 B0, inverses n M0 B0 /\ forall A x, menc n (f_jac P F r) A -> venc n r x ->
      venc n nr (fun i => m i - mv n B0 (f m) i + (vsub x m i - mv n B0 (mv n A (vsub x m)) i)).
  Lemma step_form : forall s r nr, step P s n F r = Some nr -> (exists v, venc n r v) ->
    exists m, venc n r m /\ (match s with Newton => newton_like r nr m | _ => krawczyk_like r nr m end).
  Proof using S HM.
    intros s r nr H Hr. destruct (mid_v n r Hr) as [m [H1 H2]]. exists m. split; [exact H1|]. destruct s; cbn [step] in H.
    - assert (N : lu_inverse P n (f_jac P F r) <> None) by (unfold newton_step in H; destruct (lu_inverse P n (f_jac P F r)); congruence).
      split.
      + intros A HA. destruct (lu_inverse P n (f_jac P F r)) as [Ai|] eqn:E; [|contradiction]. destruct (lu_inverse_sound P fin e S n _ Ai A E HA) as [B [_ HB]]. exists B. exact HB.
      + intros A B HA HB. eapply newton_enc; eassumption.
    - destruct (krawczyk_mid r Hr) as [M0 [B0 [H3 H4]]].
      { unfold krawczyk_step in H. destruct (lu_inverse P n _) as [Ms|]; [exists Ms; reflexivity|discriminate]. }
      exists M0, B0. split; [exact H4|]. intros A x HA Hx. eapply krawczyk_enc; eassumption.
    - destruct (factored_mid r Hr) as [M0 [B0 [H3 H4]]].
      { unfold factored_step in H. destruct (lu_inverse P n _) as [Ms|]; [exists Ms; reflexivity|discriminate]. }
      exists M0, B0. split; [exact H4|]. intros A x HA Hx. eapply factored_enc; eassumption.
  Qed.

  Lemma venc_ext : forall r x y, veq n x y -> venc n r x -> venc n r y.
  Proof using. intros r x y E H i Li. rewrite <- (E i Li). apply H. exact Li. Qed.

  Lemma step_zero : forall s r nr z, step P s n F r = Some nr -> venc n r z -> is_zero n f z -> venc n nr z.
  Proof using S HM HS.
    intros s r nr z H Hz Z. destruct (step_form s r nr H (ex_intro _ z Hz)) as [m [Hm Q]].
    destruct (mvt_pair r z m Hz Hm) as [A [HA EA]].
    assert (Q1 : veq n (mv n A (vsub z m)) (fun i => - f m i)) by (intros i Li; rewrite <- (EA i Li), (Z i Li); ring).
    assert (Ng : forall B i, mv n B (fun i => - f m i) i = - mv n B (f m) i) by (intros; unfold mv; rewrite <- sum_opp; apply sum_ext; intros; ring).
    destruct s.
    - destruct Q as [Q2 Q3]. destruct (Q2 A HA) as [B HB]. eapply venc_ext; [|apply (Q3 A B HA HB)]. intros i Li.
      pose proof (inverse_apply n A B _ _ HB Q1 i Li) as E. rewrite Ng in E. unfold vsub in E. lra.
    - destruct Q as [M0 [B0 [HB Q2]]]. eapply venc_ext; [|apply (Q2 A z HA Hz)]. intros i Li. cbv beta.
      rewrite (mv_ext n B0 _ _ Q1 i), Ng. unfold vsub. ring.
    - destruct Q as [M0 [B0 [HB Q2]]]. eapply venc_ext; [|apply (Q2 A z HA Hz)]. intros i Li. cbv beta.
      rewrite (mv_ext n B0 _ _ Q1 i), Ng. unfold vsub. ring.
  Qed.

  Lemma step_inhabited : forall s r nr, step P s n F r = Some nr -> (exists v, venc n r v) -> exists v, venc n nr v.
  Proof using S HM HS.
    intros s r nr H Hr. destruct (step_form s r nr H Hr) as [m [Hm Q]]. destruct (mvt_pair r m m Hm Hm) as [A [HA _]]. destruct s.
    - destruct Q as [Q1 Q2]. destruct (Q1 A HA) as [B HB]. eexists. apply (Q2 A B HA HB).
    - destruct Q as [M0 [B0 [_ Q]]]. eexists. apply (Q A m HA Hm).
    - destruct Q as [M0 [B0 [_ Q]]]. eexists. apply (Q A m HA Hm).
  Qed.

  Lemma jac_unique : forall r Ai x y, lu_inverse P n (f_jac P F r) = Some Ai -> venc n r x -> venc n r y -> is_zero n f x -> is_zero n f y -> veq n x y.
  Proof using S HM HS.
    intros r Ai x y E Hx Hy Zx Zy i Li. destruct (mvt_pair r x y Hx Hy) as [A [HA EA]]. destruct (lu_inverse_sound P fin e S n _ Ai A E HA) as [B [_ HB]].
    assert (Q : veq n (mv n A (vsub x y)) (fun _ => 0)) by (intros k Lk; rewrite <- (EA k Lk), (Zx k Lk), (Zy k Lk); ring).
    pose proof (inverse_zero n A B _ HB Q i Li) as W. unfold vsub in W. lra.
  Qed.

  (** ** Existence when the step refines its argument *)
  Lemma vrefines_spec : forall x y, vrefines P n x y = true -> forall i, (i < n)%nat -> nrefines P (x i) (y i) = true.
  Proof using. intros x y H i Li. unfold vrefines in H. rewrite forallb_forall in H. apply H. apply in_seq. lia. Qed.

  Lemma step_exists : forall s r nr, step P s n F r = Some nr -> (exists v, venc n r v) -> vrefines P n nr r = true ->
    exists x, venc n r x /\ is_zero n f x.
  Proof using S HM HS.
    intros s r nr H Hr HR.
    assert (FR : forall i, (i < n)%nat -> fin (r i) <> None) by (intros i Li; apply (s_refines _ _ _ S _ _ (vrefines_spec nr r HR i Li))).
    assert (FN : forall i, (i < n)%nat -> fin (nr i) <> None) by (intros i Li; apply (s_refines _ _ _ S _ _ (vrefines_spec nr r HR i Li))).
    assert (SUB : forall v, venc n nr v -> venc n r v) by (intros v Hv i Li; apply (s_refines _ _ _ S _ _ (vrefines_spec nr r HR i Li)); apply Hv; exact Li).
    set (xl := fun i => match fin (r i) with Some (l, _) => l | None => 0 end). set (xu := fun i => match fin (r i) with Some (_, u) => u | None => 0 end).
    assert (BX : forall v, inb n xl xu v <-> venc n r v).
    { intros v. split; intros Hv i Li; specialize (Hv i Li); specialize (FR i Li); unfold Solver_Spec.enc, xl, xu in *; destruct (fin (r i)) as [[l u]|]; [exact Hv|contradiction|exact Hv|contradiction]. }
    destruct (step_form s r nr H Hr) as [m [Hm Q]].
    assert (HX : forall i, (i < n)%nat -> xl i <= xu i) by (intros i Li; apply BX in Hm; specialize (Hm i Li); lra).
    destruct HS as [HD HL]. destruct (HL xl xu) as [L0 BL0].
    set (L := Rmax L0 0). assert (BL : forall v, inb n xl xu v -> forall i j, (i < n)%nat -> (j < n)%nat -> Rabs (D v i j) <= L).
    { intros v Hv i j Li Lj. eapply Rle_trans; [apply (BL0 v Hv i j Li Lj)|apply Rmax_l]. }
    set (J := f_jac P F r).
    set (lo := fun i j => match fin (J i j) with Some (l, _) => Rmax l (- L) | None => - L end).
    set (hi := fun i j => match fin (J i j) with Some (_, u) => Rmin u L | None => L end).
    assert (JM : forall A, inJ n lo hi A -> menc n J A).
    { intros A HA i j Li Lj. specialize (HA i j Li Lj). unfold lo, hi in HA. unfold Solver_Spec.enc. destruct (fin (J i j)) as [[l u]|]; [|exact I].
      pose proof (Rmax_l l (- L)). pose proof (Rmin_l u L). lra. }
    assert (DJ : forall v, inb n xl xu v -> forall i j, (i < n)%nat -> (j < n)%nat -> lo i j <= D v i j <= hi i j).
    { intros v Hv i j Li Lj. pose proof (BL v Hv i j Li Lj) as B1. apply BX in Hv. destruct (HM r v Hv) as [_ B2]. specialize (B2 i j Li Lj). fold J in B2.
      pose proof (Rle_abs (D v i j)). pose proof (Rle_abs (- D v i j)). rewrite Rabs_Ropp in *.
      unfold Solver_Spec.enc in B2. unfold lo, hi. destruct (fin (J i j)) as [[l u]|]; [|lra]. split; [apply Rmax_lub|apply Rmin_glb]; lra. }
    assert (SL : slopes n lo hi (inb n xl xu) f).
    { intros x y Hx Hy. destruct (mvt_rows n f D x y HS) as [A [H1 H2]]. exists A. split; [|exact H2]. intros i j Li Lj. destruct (H1 i Li) as [t [Ht ->]].
      apply DJ; [|exact Li|exact Lj]. apply BX. apply venc_seg; [apply BX; exact Hx|apply BX; exact Hy|exact Ht]. }
    assert (HJ : forall i j, (i < n)%nat -> (j < n)%nat -> lo i j <= hi i j) by (intros i j Li Lj; apply BX in Hm; pose proof (DJ m Hm i j Li Lj); lra).
    assert (GOAL : exists x, inb n xl xu x /\ veq n (f x) (fun _ => 0)).
    2:{ destruct GOAL as [x [Hx Zx]]. exists x. split; [apply BX; exact Hx|exact Zx]. }
    destruct s.
    - cbn [step] in H. unfold newton_step in H. fold J in H. destruct (lu_inverse P n J) as [Ai|] eqn:EI; [|discriminate]. injection H as E.
      destruct Q as [Q1 Q2].
      set (bd := fun i j => match fin (Ai i j) with Some (l, u) => Rabs l + Rabs u | None => 0 end).
      assert (Hbd : forall i j, 0 <= bd i j) by (intros i j; unfold bd; destruct (fin (Ai i j)) as [[l u]|]; [pose proof (Rabs_pos l); pose proof (Rabs_pos u); lra|lra]).
      set (beta := sum n (fun i => sum n (bd i))). assert (Hb : 0 <= beta) by (apply sum_nonneg; intros; apply sum_nonneg; auto).
      assert (FA : forall i j, (i < n)%nat -> (j < n)%nat -> fin (Ai i j) <> None).
      { intros i j Li Lj. specialize (FN i Li). rewrite <- E in FN. rewrite store_v_eq in FN by exact Li. apply (s_fin_sub _ _ _ S) in FN. destruct FN as [_ FN].
        unfold nmv in FN. apply (nsum_fin n _) with (j := j) in FN; [|exact Lj]. apply (s_fin_mul _ _ _ S) in FN. apply FN. }
      apply (newton_exists n lo hi beta xl xu f m); auto.
      + intros A HA. destruct (lu_inverse_sound P fin e S n J Ai A EI (JM A HA)) as [B [HB1 HB2]]. exists B. split; [exact HB2|].
        intros i j Li Lj. specialize (HB1 i j Li Lj). specialize (FA i j Li Lj).
        assert (B1 : Rabs (B i j) <= bd i j).
        { unfold Solver_Spec.enc in HB1. unfold bd. destruct (fin (Ai i j)) as [[l u]|]; [|contradiction]. apply Rabs_le.
          pose proof (Rle_abs u). pose proof (Rle_abs (- l)). rewrite Rabs_Ropp in *. pose proof (Rabs_pos l). pose proof (Rabs_pos u). lra. }
        assert (B2 : bd i j <= sum n (bd i)) by (apply sum_term; auto).
        assert (B3 : sum n (bd i) <= beta) by (apply (sum_term n (fun i => sum n (bd i))); [intros; apply sum_nonneg; auto|exact Li]). lra.
      + apply BX. exact Hm.
      + intros A B HA HB. apply BX. apply SUB. apply (Q2 A B (JM A HA) HB).
    - destruct Q as [M0 [B0 [[HB _] Q]]]. apply (krawczyk_exists n lo hi xl xu f m B0 M0); auto.
      + apply BX. exact Hm.
      + intros A x HA Hx. apply BX. apply SUB. apply Q; [apply JM; exact HA|apply BX; exact Hx].
    - destruct Q as [M0 [B0 [[HB _] Q]]]. apply (krawczyk_exists n lo hi xl xu f m B0 M0); auto.
      + apply BX. exact Hm.
      + intros A x HA Hx. apply BX. apply SUB. apply Q; [apply JM; exact HA|apply BX; exact Hx].
  Qed.
End SOL.
