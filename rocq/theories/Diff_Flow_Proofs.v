(** Flows. *)
From Coq Require Import NArith ZArith List Bool Reals Lra Lia Permutation Sorted.
From Verif Require Import LRU_Model Poly_Model Poly_Spec Poly_Proofs Diff_Model Diff_Spec Diff_O_Proofs Diff_Ring_Proofs Diff_Series_Proofs Diff_Inst Diff_Elem_Proofs Diff_Comp_Proofs Diff_Vec_Proofs Diff_Int_Proofs.
Import ListNotations.
Local Open Scope R_scope.

Lemma F2_nth {A B} (P : A -> B -> Prop) a b l m : Forall2 P l m -> forall i, (i < length m)%nat -> P (nth i l a) (nth i m b).
Proof. induction 1; intros [|i] L; simpl in *; try lia; auto. apply IHForall2. lia. Qed.
Lemma F2_make {A B} (P : A -> B -> Prop) a b : forall l m, length l = length m -> (forall i, (i < length m)%nat -> P (nth i l a) (nth i m b)) -> Forall2 P l m.
Proof.
  induction l as [|x l IH]; intros [|y m] L H; try discriminate L; constructor.
  - exact (H 0%nat ltac:(simpl; lia)).
  - apply IH; [simpl in L; lia|]. intros i I. exact (H (S i) ltac:(simpl; lia)).
Qed.
Lemma F2_map_seq {A B} (P : A -> B -> Prop) f b m : (forall i, (i < length m)%nat -> P (f i) (nth i m b)) -> Forall2 P (map f (seq 0 (length m))) m.
Proof.
  intros H. apply (F2_make P (f 0%nat) b); [now rewrite map_length, seq_length|]. intros i I. rewrite map_nth, seq_nth by exact I. apply H, I.
Qed.
Notation zf := (fun _ : list R => 0).

Section Flow.
Context (X : scalar) (holds : X -> R -> Prop) (E : encloses X holds).
Notation good := (good X holds).
Notation v_ok := (v_ok X holds).
Notation atleast := (atleast X holds).
Notation outer := (outer X holds).

Lemma good_local n k d f g e : 0 < e -> (forall h, length h = n -> norm h <= e -> f h = g h) -> good n k d f -> good n k d g.
Proof.
  intros E0 Q (W & A & D & p & S & K & e' & E1 & O). repeat split; try apply W; auto. exists p. split; [exact S|]. rewrite A, D in *. exists K, (Rmin e e'). split; [now apply Rmin_glb_lt|].
  intros h L N. rewrite <- Q; [|exact L | eapply Rle_trans; [exact N | apply Rmin_l]]. apply O; [exact L | eapply Rle_trans; [exact N | apply Rmin_r]].
Qed.

Context (n N' : nat) (kf : N) (df dx0 da : dvec X) (Fs phis x0s as_ : list (list R -> R)) (d : R).
Context (N0 : (1 <= n)%nat) (NT : (n < N')%nat) (K1 : (1 <= kf)%N) (K2 : (kf + 1 < 65536)%N) (D0 : 0 < d).
Context (LF : length Fs = n) (LP : length phis = n) (LX : length x0s = n).
Context (HF : Forall2 (outer (n + length as_) kf) (v_elt X df) Fs).
Context (AX : v_as X dx0 = N') (HX : Forall2 (good N' (kf + 1)) (v_elt X dx0) x0s).
Context (HA : Forall2 (good N' (kf + 1)) (v_elt X da) as_).
(** The trajectories: along the coordinate n, which is the time. *)
Context (ODE : forall i h, (i < n)%nat -> length h = N' -> norm h <= d ->
  derivable_pt_lim (fun t => nth i phis zf (lupd h n t)) (nth n h 0) (nth i Fs zf (disp N' (phis ++ as_) h))).
Context (INI : forall i h, (i < n)%nat -> length h = N' -> norm h <= d -> nth i phis zf (lupd h n 0) = nth i x0s zf h).
Context (CON : forall i e, (i < n)%nat -> 0 < e -> exists d', 0 < d' /\ forall h, length h = N' -> norm h <= d' -> Rabs (nth i phis zf h - nth i phis zf (origin N')) <= e).

Definition up_to_constant (j : N) (x : diff X) (f : list R -> R) : Prop := exists c, good N' j x (fun h => f h - c).

Lemma disp_shift gs gs' : Forall2 (fun g g' => exists c, forall h : list R, g h = g' h - c) gs gs' -> forall h, disp N' gs h = disp N' gs' h.
Proof. intros F h. unfold disp. induction F as [|g g' gs gs' [c Q] F IH]; [reflexivity|]. simpl. rewrite IH. f_equal. rewrite !Q. ring. Qed.

Lemma flow_step j dphi : v_as X dphi = N' -> (j <= kf)%N -> Forall2 (up_to_constant j) (v_elt X dphi) phis ->
  exists c, v_compose X df (v_join X dphi da) = Ret c /\
    let r := v_add X dx0 (v_antiderivative X c n) in
    v_as X r = N' /\ Forall2 (good N' (j + 1)) (v_elt X r) phis.
Proof.
  intros Ad J HP.
  assert (G : exists gs, Forall2 (good N' j) (v_elt X dphi) gs /\ Forall2 (fun g g' => exists c, forall h : list R, g h = g' h - c) gs phis).
  { clear - HP. induction HP as [|x f l m [c Hc] F (gs & G1 & G2)]; [exists []; split; constructor|]. exists ((fun h => f h - c) :: gs). split; constructor; auto. now exists c. }
  destruct G as (gs & G1 & G2).
  assert (Lg : length gs = n) by (rewrite <- LP; exact (Forall2_len _ _ _ G2)).
  assert (Le : length (v_elt X dphi) = n) by (rewrite <- Lg; exact (Forall2_len _ _ _ G1)).
  assert (V : v_ok N' j (v_join X dphi da) (gs ++ as_)).
  { split; [exact Ad|]. split; [|split; [lia|]].
    - unfold v_join. cbn [v_deg]. destruct (v_elt X dphi) as [|x l]; [simpl in Le; lia|]. inversion G1; subst. match goal with H : good _ _ x _ |- _ => apply H end.
    - unfold v_join. cbn [v_elt]. apply Forall2_app.
      + eapply Forall2_weaken; [|exact G1]. intros x f G. exists j. split; [lia | exact G].
      + eapply Forall2_weaken; [|exact HA]. intros x f G. exists (kf + 1)%N. split; [lia | exact G]. }
  assert (HF' : Forall2 (outer (length (gs ++ as_)) kf) (v_elt X df) Fs) by (rewrite app_length, Lg; exact HF).
  destruct (v_compose_good X holds E N' j kf df (v_join X dphi da) (gs ++ as_) Fs K1 HF' V) as (r & Qr & Fr).
  exists (mkVec X N' j r). split; [exact Qr|]. cbv zeta. unfold v_add, v_antiderivative. cbn [v_as v_elt]. split; [exact AX|].
  assert (Lr : length r = n) by (rewrite <- LF; exact (Forall2_len _ _ _ Fr)).
  assert (Lx : length (v_elt X dx0) = n) by (rewrite <- LX; exact (Forall2_len _ _ _ HX)).
  assert (Sh : forall h, disp N' (gs ++ as_) h = disp N' (phis ++ as_) h).
  { apply disp_shift. apply Forall2_app; [exact G2|]. clear. induction as_ as [|f l IH]; constructor; [|exact IH]. exists 0. intros h. ring. }
  replace (N.min kf j) with j in Fr by lia.
  apply (F2_make _ (d_zero X N' 0) zf). { rewrite map_length, combine_length, map_length, Lr, Lx, LP. lia. }
  intros i I. rewrite LP in I.
  rewrite (nth_indep _ _ (d_add X (d_zero X N' 0) (d_antiderivative X (d_zero X N' 0) n))) by (rewrite map_length, combine_length, map_length, Lr, Lx; lia).
  rewrite (map_nth (fun p => d_add X (fst p) (snd p)) _ (d_zero X N' 0, d_antiderivative X (d_zero X N' 0) n)), combine_nth by (rewrite map_length; lia).
  cbn [fst snd]. rewrite (map_nth (fun d => d_antiderivative X d n)).
  pose proof (F2_nth _ (d_zero X N' 0) zf _ _ HX i ltac:(lia)) as GX. pose proof (F2_nth _ (d_zero X N' 0) zf _ _ Fr i ltac:(lia)) as GR. cbv beta in GR.
  assert (GI : good N' (j + 1) (d_antiderivative X (nth i r (d_zero X N' 0)) n) (fun h => nth i phis zf h - nth i phis zf (lupd h n 0))).
  { apply (antiderivative_good X holds E N' j _ n _ _ d GR); [lia | exact NT | exact D0 | |].
    - intros h Lh Nh. rewrite Sh. pose proof (ODE i h I Lh Nh) as H. intros eps He. destruct (H eps He) as [dl H']. exists dl. intros u U0 U1. specialize (H' u U0 U1). rewrite !lupd_lupd.
      replace (nth i phis zf (lupd h n (nth n h 0 + u)) - nth i phis zf (lupd h n 0) - (nth i phis zf (lupd h n (nth n h 0)) - nth i phis zf (lupd h n 0))) with (nth i phis zf (lupd h n (nth n h 0 + u)) - nth i phis zf (lupd h n (nth n h 0))) by ring. exact H'.
    - intros h _ _. rewrite lupd_lupd. ring. }
  pose proof (good_add_min X holds E N' _ _ _ _ _ _ GX GI) as GS. replace (N.min (kf + 1) (j + 1)) with (j + 1)%N in GS by lia.
  eapply (good_local N' (j + 1) _ _ _ d D0); [|exact GS]. intros h Lh Nh. cbv beta. rewrite (INI i h I Lh Nh). ring.
Qed.

Lemma good_up j x f : good N' j x f -> up_to_constant j x f.
Proof. intros G. exists 0. eapply good_ext; [|exact G]. intros h _. ring. Qed.
Lemma flow_loop_good m : forall j dphi, v_as X dphi = N' -> (j + N.of_nat m = kf + 1)%N -> (1 <= m)%nat -> Forall2 (up_to_constant j) (v_elt X dphi) phis ->
  exists r, flow_loop X df dx0 da n m dphi = Ret r /\ v_as X r = N' /\ Forall2 (good N' (kf + 1)) (v_elt X r) phis.
Proof.
  induction m as [|m IH]; intros j dphi A J M H; [lia|]. cbn [flow_loop].
  destruct (flow_step j dphi A ltac:(lia) H) as (c & -> & A' & H'). destruct m as [|m].
  - cbn [flow_loop]. eexists. split; [reflexivity|]. split; [exact A'|]. replace (kf + 1)%N with (j + 1)%N by lia. exact H'.
  - apply (IH (j + 1)%N); [exact A' | lia | lia |]. eapply Forall2_weaken; [|exact H']. intros x f. apply good_up.
Qed.

(** The trajectories move at most proportionally to the displacement. *)
Lemma outer_bounded m x F : outer m kf x F -> exists K e, 0 < e /\ forall u, length u = m -> norm u <= e -> Rabs (F u) <= K.
Proof.
  intros (W & A & D & p & S & O). rewrite A in O. 
  assert (Zp : List.Forall (fun m' => length (fst m') = m) p) by (eapply shadow_sized; [exact S | rewrite <- A; apply W]).
  destruct (O_bounded m _ F p Zp O) as (K & e & E0 & B).
  - exists K, e. split; [exact E0|]. intros u L Nu. specialize (B u L Nu). simpl in B. lra.
Qed.
Lemma disp_con e : 0 < e -> exists d', 0 < d' /\ forall h, length h = N' -> norm h <= d' -> norm (disp N' (phis ++ as_) h) <= e.
Proof.
  intros E0. unfold disp.
  assert (P1 : exists d', 0 < d' /\ forall h, length h = N' -> norm h <= d' -> norm (disp N' phis h) <= e).
  { clear - CON E0 LP. assert (C : forall g, In g phis -> exists d', 0 < d' /\ forall h, length h = N' -> norm h <= d' -> Rabs (g h - g (origin N')) <= e).
    { intros g I. apply (In_nth _ _ zf) in I as (i & Li & <-). apply CON; [lia | exact E0]. }
    clear CON LP. induction phis as [|g l IH].
    - exists 1. split; [lra|]. intros h _ _. simpl. lra.
    - destruct (C g (or_introl eq_refl)) as (d1 & P1 & B1). destruct IH as (d2 & P2 & B2); [intros g' I; apply C; now right|]. exists (Rmin d1 d2). split; [now apply Rmin_glb_lt|].
      intros h L Nh. unfold disp. simpl. apply Rmax_lub; [apply B1; [exact L | eapply Rle_trans; [exact Nh | apply Rmin_l]] | apply B2; [exact L | eapply Rle_trans; [exact Nh | apply Rmin_r]]]. }
  assert (P2 : exists d', 0 < d' /\ forall h, length h = N' -> norm h <= d' -> norm (disp N' as_ h) <= e).
  { assert (HA' : Forall2 (atleast N' (kf + 1)) (v_elt X da) as_) by (eapply Forall2_weaken; [|exact HA]; intros x f G; exists (kf + 1)%N; split; [lia | exact G]).
    destruct (disp_small X holds N' _ _ _ HA') as (K & d1 & P & KP & B). exists (Rmin d1 (e / (K + 1))). split; [apply Rmin_glb_lt; [exact P | apply Rdiv_lt_0_compat; lra]|].
    intros h L Nh. eapply Rle_trans; [apply B; [exact L | eapply Rle_trans; [exact Nh | apply Rmin_l]]|].
    assert (Nh' : norm h <= e / (K + 1)) by (eapply Rle_trans; [exact Nh | apply Rmin_r]). pose proof (norm_nonneg h).
    apply Rle_trans with ((K + 1) * norm h); [nra|]. apply (Rmult_le_reg_l (/ (K + 1))); [apply Rinv_0_lt_compat; lra|]. rewrite <- Rmult_assoc, Rinv_l, Rmult_1_l by lra. unfold Rdiv in Nh'. lra. }
  destruct P1 as (d1 & P1 & B1), P2 as (d2 & P2 & B2). exists (Rmin d1 d2). split; [now apply Rmin_glb_lt|]. intros h L Nh. rewrite map_app.
  assert (B1' := B1 h L ltac:(eapply Rle_trans; [exact Nh | apply Rmin_l])). assert (B2' := B2 h L ltac:(eapply Rle_trans; [exact Nh | apply Rmin_r])).
  apply norm_le; [lra|]. intros x I. apply in_app_or in I as [I|I]; [eapply Rle_trans; [apply norm_in, I | exact B1'] | eapply Rle_trans; [apply norm_in, I | exact B2']].
Qed.
Lemma origin_lupd : lupd (origin N') n 0 = origin N'.
Proof. unfold origin. clear - NT. revert n NT. induction N' as [|m IH]; intros [|i] L; simpl; try lia; [reflexivity|]. now rewrite IH by lia. Qed.
Lemma start_good i : (i < n)%nat -> good N' 0 (d_zero X N' 0) (fun h => nth i phis zf h - nth i phis zf (origin N')).
Proof.
  intros I. split; [repeat split; try constructor; simpl; lia|]. split; [reflexivity|]. split; [reflexivity|]. exists []. split; [constructor|]. cbn [d_as d_deg d_zero]. change (N.to_nat 0) with 0%nat.
  pose proof (F2_nth _ (d_zero X N' 0) zf _ _ HF i ltac:(lia)) as GF. pose proof (F2_nth _ (d_zero X N' 0) zf _ _ HX i ltac:(lia)) as GX.
  destruct (outer_bounded _ _ _ GF) as (K & e & E0 & B). destruct (disp_con e E0) as (d1 & P1 & B1). destruct (good_offset X holds _ _ _ _ GX) as (KX & d2 & P2 & B2).
  exists (Rmax K 0 + KX), (Rmin d (Rmin d1 d2)). split; [repeat apply Rmin_glb_lt; assumption|]. intros h L Nh.
  assert (N1 : norm h <= d) by (eapply Rle_trans; [exact Nh | apply Rmin_l]). assert (N2 : norm h <= d1) by (eapply Rle_trans; [exact Nh | eapply Rle_trans; [apply Rmin_r | apply Rmin_l]]).
  assert (N3 : norm h <= d2) by (eapply Rle_trans; [exact Nh | eapply Rle_trans; [apply Rmin_r | apply Rmin_r]]).
  assert (BC : forall c, Rmin 0 (nth n h 0) <= c <= Rmax 0 (nth n h 0) -> Rabs c <= norm h).
  { intros c [C1 C2]. eapply Rle_trans; [|apply (norm_nth h n)]. unfold Rmin, Rmax in *. destruct (Rle_dec 0 (nth n h 0)); unfold Rabs; repeat destruct Rcase_abs; lra. }
  destruct (MVT_abs (fun t => nth i phis zf (lupd h n t)) (fun t => nth i Fs zf (disp N' (phis ++ as_) (lupd h n t))) 0 (nth n h 0)) as (c & M & C).
  - intros c C. specialize (BC c C). pose proof (ODE i (lupd h n c) I ltac:(now rewrite lupd_length) ltac:(eapply Rle_trans; [apply lupd_norm, BC | exact N1])) as G.
    rewrite lupd_nth in G by lia. intros eps He. destruct (G eps He) as [dl H]. exists dl. intros u U0 U1. specialize (H u U0 U1). rewrite !lupd_lupd in H. exact H.
  - rewrite lupd_same in M. rewrite (INI i h I L N1) in M. rewrite rpoly_nil. specialize (BC c C). pose proof (lupd_norm n c h BC) as Nc.
    assert (BF : Rabs (nth i Fs zf (disp N' (phis ++ as_) (lupd h n c))) <= Rmax K 0).
    { eapply Rle_trans; [apply B; [unfold disp; rewrite map_length, app_length, LP; reflexivity | apply B1; [now rewrite lupd_length | lra]] | apply Rmax_l]. }
    assert (OR : nth i phis zf (origin N') = nth i x0s zf (origin N')).
    { rewrite <- origin_lupd at 1. apply INI; [exact I | apply repeat_length | rewrite norm_origin; lra]. }
    specialize (B2 h L N3). rewrite pow_1 in *.
    replace (nth i phis zf h - nth i phis zf (origin N') - 0) with ((nth i phis zf h - nth i x0s zf h) + (nth i x0s zf h - nth i x0s zf (origin N'))) by (rewrite OR; ring).
    eapply Rle_trans; [apply Rabs_triang|]. rewrite Rmult_plus_distr_r. apply Rplus_le_compat; [|exact B2]. rewrite M.
    rewrite Rminus_0_r. apply Rmult_le_compat; [apply Rabs_pos | apply Rabs_pos | exact BF | apply norm_nth].
Qed.
Lemma flow_good : exists r, flow_loop X df dx0 da n (N.to_nat (kf + 1)) (mkVec X N' 0 (repeat (d_zero X N' 0) n)) = Ret r /\ v_as X r = N' /\ Forall2 (good N' (kf + 1)) (v_elt X r) phis.
Proof.
  apply (flow_loop_good _ 0); [reflexivity | lia | lia |]. cbn [v_elt].
  apply (F2_make _ (d_zero X N' 0) zf); [rewrite repeat_length; lia|]. intros i I. rewrite nth_repeat. exists (nth i phis zf (origin N')). apply start_good. lia.
Qed.
End Flow.
