(** Derivatives, integrals and flows. *)
From Coq Require Import NArith ZArith List Bool Reals Lra Lia Permutation Sorted.
From Verif Require Import LRU_Model Poly_Model Poly_Spec Poly_Proofs Diff_Model Diff_Spec Diff_O_Proofs Diff_Ring_Proofs Diff_Series_Proofs Diff_Inst Diff_Elem_Proofs Diff_Comp_Proofs Diff_Vec_Proofs.
Import ListNotations.
Local Open Scope R_scope.

(** ** Changing one entry *)
Lemma lupd_length i t h : length (lupd h i t) = length h.
Proof. revert i; induction h as [|x h IH]; intros [|i]; simpl; auto. Qed.
Lemma lupd_nth i t h : (i < length h)%nat -> nth i (lupd h i t) 0 = t.
Proof. revert i; induction h as [|x h IH]; intros [|i] L; simpl in *; try lia; auto. apply IH. lia. Qed.
Lemma lupd_lupd i s t h : lupd (lupd h i s) i t = lupd h i t.
Proof. revert i; induction h as [|x h IH]; intros [|i]; simpl; auto. now rewrite IH. Qed.
Lemma lupd_same i h : lupd h i (nth i h 0) = h.
Proof. revert i; induction h as [|x h IH]; intros [|i]; simpl; auto. now rewrite IH. Qed.
Lemma lupd_norm i t h : Rabs t <= norm h -> norm (lupd h i t) <= norm h.
Proof.
  intros T. apply norm_le; [apply norm_nonneg|]. intros x I.
  assert (H : x = t \/ In x h). { clear T. revert i I; induction h as [|y h IH]; intros [|i] I; simpl in *; [tauto | tauto | destruct I as [<-|I]; auto |]. destruct I as [<-|I]; auto. destruct (IH _ I); auto. }
  destruct H as [->|H]; [exact T | now apply norm_in].
Qed.
Lemma mi_upd_length a i m : length (mi_upd a i m) = length a.
Proof. revert i; induction a as [|x a IH]; intros [|i]; simpl; auto. Qed.
Lemma mi_upd_total a i m : (i < length a)%nat -> (total (mi_upd a i m) + nth i a 0 = total a + m)%N.
Proof.
  revert i; induction a as [|x a IH]; intros [|i] L; cbn [mi_upd nth length] in *; rewrite ?total_cons; try lia. specialize (IH i ltac:(lia)). lia.
Qed.
Lemma mi_upd_upd a i m m' : mi_upd (mi_upd a i m) i m' = mi_upd a i m'.
Proof. revert i; induction a as [|x a IH]; intros [|i]; simpl; auto. now rewrite IH. Qed.
Lemma mi_upd_same a i : mi_upd a i (nth i a 0%N) = a.
Proof. revert i; induction a as [|x a IH]; intros [|i]; simpl; auto. now rewrite IH. Qed.
Lemma mi_upd_nth a i m : (i < length a)%nat -> nth i (mi_upd a i m) 0%N = m.
Proof. revert i; induction a as [|x a IH]; intros [|i] L; simpl in *; try lia; auto. apply IH. lia. Qed.
Lemma monom_upd a i m : forall h t, length a = length h -> (i < length a)%nat ->
  rmonom (mi_upd a i m) (lupd h i t) = t ^ N.to_nat m * rmonom (mi_upd a i 0) h.
Proof.
  revert i; induction a as [|x a IH]; intros [|i] [|y h] t L I; cbn [length] in *; try lia; cbn [mi_upd lupd monom].
  - change (power 1 Rmult t (N.to_nat m)) with (t ^ N.to_nat m). change (power 1 Rmult y (N.to_nat 0)) with 1. ring.
  - rewrite IH by lia. ring.
Qed.
Lemma monom_at a i h t : length a = length h -> (i < length a)%nat -> rmonom a (lupd h i t) = t ^ N.to_nat (nth i a 0%N) * rmonom (mi_upd a i 0) h.
Proof. intros L I. rewrite <- (mi_upd_same a i) at 1. now apply monom_upd. Qed.

(** ** Integrating the terms of a polynomial *)
Definition int_term (i : nat) (m : mi * R) : mi * R := (mi_upd (fst m) i (nth i (fst m) 0%N + 1), snd m / INR (N.to_nat (nth i (fst m) 0%N + 1))).
Definition der_terms (i : nat) (p : list (mi * R)) : list (mi * R) :=
  concat (map (fun m => let a := fst m in let n := nth i a 0%N in
                        if (n =? 0)%N then [] else [(mi_upd a i (n - 1), snd m * INR (N.to_nat n))]) p).
Lemma int_derive i p h t : List.Forall (fun m => length (fst m) = length h) p -> (i < length h)%nat ->
  derivable_pt_lim (fun t => rpoly (map (int_term i) p) (lupd h i t)) t (rpoly p (lupd h i t)).
Proof.
  intros Z I. induction p as [|[a c] p IH]; [apply derivable_pt_lim_const|]. apply Forall_cons_iff in Z as [La Z]. cbn [fst] in La.
  cbn [map]. rewrite rpoly_cons. unfold int_term at 1. cbn [fst snd].
  apply (derivable_pt_lim_plus (fun t => c / INR (N.to_nat (nth i a 0%N + 1)) * rmonom (mi_upd a i (nth i a 0%N + 1)) (lupd h i t)) (fun t => rpoly (map (int_term i) p) (lupd h i t))); [|exact (IH Z)].
  set (n := nth i a 0%N). rewrite (monom_at a i h t La ltac:(lia)). fold n.
  assert (Q : forall t, c / INR (N.to_nat (n + 1)) * rmonom (mi_upd a i (n + 1)) (lupd h i t) = (c / INR (N.to_nat (n + 1)) * rmonom (mi_upd a i 0) h) * t ^ N.to_nat (n + 1)).
  { intros s. rewrite monom_upd by (lia || exact La). ring. }
  replace (c * (t ^ N.to_nat n * rmonom (mi_upd a i 0) h)) with ((c / INR (N.to_nat (n + 1)) * rmonom (mi_upd a i 0) h) * (INR (N.to_nat (n + 1)) * t ^ Nat.pred (N.to_nat (n + 1)))).
  - intros eps He. destruct (derivable_pt_lim_scal (fun t => t ^ N.to_nat (n + 1)) (c / INR (N.to_nat (n + 1)) * rmonom (mi_upd a i 0) h) t _ (derivable_pt_lim_pow t (N.to_nat (n + 1))) eps He) as [dl H].
    exists dl. intros u U0 U1. specialize (H u U0 U1). unfold mult_real_fct in H. rewrite !Q. exact H.
  - replace (Nat.pred (N.to_nat (n + 1))) with (N.to_nat n) by lia. field. apply not_0_INR. lia.
Qed.
Lemma int_zero i p h : List.Forall (fun m => length (fst m) = length h) p -> (i < length h)%nat -> rpoly (map (int_term i) p) (lupd h i 0) = 0.
Proof.
  intros Z I. induction p as [|[a c] p IH]; [reflexivity|]. apply Forall_cons_iff in Z as [La Z]. cbn [fst] in La.
  cbn [map]. unfold int_term at 1. cbn [fst snd]. rewrite rpoly_cons, IH, monom_upd by (lia || assumption). rewrite pow_ne_zero by lia. ring.
Qed.
Lemma der_derive i p h t : List.Forall (fun m => length (fst m) = length h) p -> (i < length h)%nat ->
  derivable_pt_lim (fun t => rpoly p (lupd h i t)) t (rpoly (der_terms i p) (lupd h i t)).
Proof.
  intros Z I. induction p as [|[a c] p IH]; [apply derivable_pt_lim_const|]. apply Forall_cons_iff in Z as [La Z]. cbn [fst] in La.
  unfold der_terms. cbn [map concat fst snd]. rewrite rpoly_app. fold (der_terms i p).
  apply (derivable_pt_lim_plus (fun t => c * rmonom a (lupd h i t)) (fun t => rpoly p (lupd h i t))); [|exact (IH Z)].
  set (n := nth i a 0%N).
  assert (Q : forall t, c * rmonom a (lupd h i t) = (c * rmonom (mi_upd a i 0) h) * t ^ N.to_nat n) by (intros s; rewrite (monom_at a i h s La ltac:(lia)); fold n; ring).
  destruct (N.eqb_spec n 0) as [N0|N0].
  - rewrite rpoly_nil. intros eps He. exists (mkposreal 1 Rlt_0_1). intros u U0 U1. rewrite !Q, N0. simpl (_ ^ _).
    replace ((c * rmonom (mi_upd a i 0) h * 1 - c * rmonom (mi_upd a i 0) h * 1) / u - 0) with 0 by (field; exact U0). rewrite Rabs_R0. exact He.
  - rewrite rpoly_cons, rpoly_nil, Rplus_0_r, monom_upd by (lia || exact La).
    replace (c * INR (N.to_nat n) * (t ^ N.to_nat (n - 1) * rmonom (mi_upd a i 0) h)) with ((c * rmonom (mi_upd a i 0) h) * (INR (N.to_nat n) * t ^ Nat.pred (N.to_nat n))).
    + intros eps He. destruct (derivable_pt_lim_scal (fun t => t ^ N.to_nat n) (c * rmonom (mi_upd a i 0) h) t _ (derivable_pt_lim_pow t (N.to_nat n)) eps He) as [dl H].
      exists dl. intros u U0 U1. specialize (H u U0 U1). unfold mult_real_fct in H. rewrite !Q. exact H.
    + replace (Nat.pred (N.to_nat n)) with (N.to_nat (n - 1)) by lia. ring.
Qed.

Section Int.
Context (X : scalar) (holds : X -> R -> Prop) (E : encloses X holds).
Notation shadow := (@shadow X holds).
Notation wf := (@wf X).
Notation jet := (@jet X holds).
Notation good := (good X holds).
Notation v_ok := (v_ok X holds).
Notation atleast := (atleast X holds).

(** ** Setting coefficients one after the other *)
Lemma set_all n k l : forall p r q, shadow l p -> sized n l -> NoDup (map fst l) ->
  d_as X r = n -> d_deg X r = k -> shadow (d_exp X r) q -> sized n (d_exp X r) -> sorted graded_less (d_exp X r) ->
  (forall b d, In (b, d) (d_exp X r) -> ~ In b (map fst l)) ->
  exists q', let r' := fold_left (fun r m => d_set X r (fst m) (snd m)) l r in
    d_as X r' = n /\ d_deg X r' = k /\ shadow (d_exp X r') q' /\ sized n (d_exp X r') /\ sorted graded_less (d_exp X r') /\
    (forall h, rpoly q' h = rpoly q h + rpoly p h) /\
    (forall b d, In (b, d) (d_exp X r') -> In b (map fst l) \/ exists d', In (b, d') (d_exp X r)).
Proof.
  induction l as [|[a c] l IH]; intros p r q S Z ND A D Sq Zr Sr Dis.
  - inversion S; subst. exists q. cbv zeta. cbn [fold_left]. repeat split; try assumption. { intros h. rewrite rpoly_nil. ring. } intros b d I. right. now exists d.
  - apply shadow_inv in S as (s & p' & -> & H & S). apply Forall_cons_iff in Z as [La Z]. cbn [fst] in La. cbn [map fst] in ND. inversion_clear ND as [|? ? Na ND'].
    destruct (sset_wf n (d_exp X r) a c Zr Sr La) as [Z1 S1].
    destruct (IH p' (d_set X r a c) (s_set graded_less q a s) S Z ND' A D (shadow_set X holds _ _ _ _ _ Sq H) Z1 S1) as (q' & A' & D' & Sq' & Z' & S' & V & C).
    + intros b d I N. apply s_set_in in I as [->|I]; [exact (Na N)|]. apply (Dis b d I). now right.
    + exists q'. cbv zeta. cbn [fold_left fst snd]. split; [exact A'|]. split; [exact D'|]. split; [exact Sq'|]. split; [exact Z'|]. split; [exact S'|]. split.
      * intros h. rewrite V, (sset_rpoly n) by (exact (shadow_sized _ _ _ _ _ Sq Zr) || exact (shadow_sorted X holds _ _ Sq Sr) || exact La). rewrite rpoly_cons.
        replace (rget q a) with 0; [ring|]. symmetry. apply get_absent. intros b d I ->.
        assert (G : exists d', In (a, d') (d_exp X r)). { clear - Sq I. induction Sq as [|[x y] [x' y'] e p [F _] _ IH]; [destruct I|]. simpl in F. subst x'. destruct I as [I|I]; [injection I as -> ->; exists y; now left|]. destruct (IH I) as [d' Hd]. exists d'. now right. }
        destruct G as [d' G]. exact (Dis _ _ G (or_introl eq_refl)).
      * intros b d I. destruct (C b d I) as [C1|[d' C1]]; [left; now right|]. apply s_set_in in C1 as [->|C1]; [left; now left | right; now exists d'].
Qed.
Lemma e_get_in (e : list (mi * X)) a c : sorted graded_less e -> forall n, sized n e -> In (a, c) e -> e_get (x_nul X) e a = c.
Proof.
  intros S n Z I. induction e as [|[b d] e IH]; [destruct I|]. apply Forall_cons_iff in Z as [Lb Z]. cbn [fst] in Lb. apply sorted_inv in S as [S Lt]. simpl.
  destruct I as [I|I].
  - injection I as -> ->. replace (mi_eqb a a) with true by (symmetry; now apply mi_eqb_eq). reflexivity.
  - assert (Q : mi_eqb b a = false) by (apply mi_eqb_neq; exact (less_neq n graded_less (graded_order n) b a Lb (Lt _ _ I))). rewrite Q. now apply IH.
Qed.
Lemma fold_flat {A B C} (f : A -> list B) (g : C -> B -> C) (l : list A) : forall r,
  fold_left (fun r m => fold_left g (f m) r) l r = fold_left g (concat (map f l)) r.
Proof. induction l as [|m l IH]; intros r; [reflexivity|]. simpl. now rewrite fold_left_app, IH. Qed.
Lemma fold_ext {A C} (f g : C -> A -> C) l : (forall r m, In m l -> f r m = g r m) -> forall r, fold_left f l r = fold_left g l r.
Proof.
  induction l as [|m l IH]; intros H r; [reflexivity|]. simpl. rewrite H by now left. apply IH. intros r' m' I. apply H. now right.
Qed.
Lemma sorted_nodup' {A} n (e : list (mi * A)) : sized n e -> sorted graded_less e -> NoDup (map fst e).
Proof. intros Z S. eapply sorted_nodup; [apply graded_order | exact Z | exact S]. Qed.

(** ** Antiderivative *)
Definition xint_term (i : nat) (m : mi * X) : mi * X :=
  let n := w16 (nth i (fst m) 0%N + 1) in (mi_upd (fst m) i n, x_div X (snd m) (x_nat X n)).
Lemma nth_total (a : mi) i : (nth i a 0 <= total a)%N.
Proof. revert i; induction a as [|x a IH]; intros [|i]; cbn [nth]; rewrite ?total_cons; try (simpl; lia). specialize (IH i). lia. Qed.
Lemma mi_upd_inj a b i : length a = length b -> (i < length a)%nat -> mi_upd a i (nth i a 0 + 1)%N = mi_upd b i (nth i b 0 + 1)%N -> a = b.
Proof.
  intros L I Q. assert (N : nth i a 0%N = nth i b 0%N).
  { pose proof (mi_upd_nth a i (nth i a 0 + 1)%N I) as A. rewrite Q, mi_upd_nth in A by lia. lia. }
  rewrite <- (mi_upd_same a i), <- (mi_upd_same b i), <- N. rewrite <- (mi_upd_upd a i (nth i a 0 + 1)%N), <- (mi_upd_upd b i (nth i b 0 + 1)%N). now rewrite Q, N.
Qed.
Lemma antiderivative_real n k x i p : wf x -> d_as X x = n -> d_deg X x = k -> (k + 1 < 65536)%N -> (i < n)%nat -> shadow (d_exp X x) p ->
  wf (d_antiderivative X x i) /\ d_as X (d_antiderivative X x i) = n /\ d_deg X (d_antiderivative X x i) = (k + 1)%N /\
  exists q, shadow (d_exp X (d_antiderivative X x i)) q /\ forall h, rpoly q h = rpoly (map (int_term i) p) h.
Proof.
  intros W A D K I Sp. pose proof (wf_small X _ W) as T. destruct W as (_ & Z & S & U). rewrite A, D in *.
  assert (Sm : forall m, In m (d_exp X x) -> w16 (nth i (fst m) 0%N + 1) = (nth i (fst m) 0 + 1)%N).
  { intros m Im. rewrite List.Forall_forall in U. pose proof (U m Im) as Um. pose proof (nth_total (fst m) i). apply w16_small. unfold mi in *. lia. }
  set (l := map (xint_term i) (d_exp X x)).
  assert (Q : d_antiderivative X x i = fold_left (fun r m => d_set X r (fst m) (snd m)) l (d_zero X n (k + 1))).
  { unfold d_antiderivative, l. rewrite A, D, (w16_small (k + 1)) by lia.
    rewrite (fold_ext _ (fun r m => d_set X r (fst (xint_term i m)) (snd (xint_term i m)))).
    - generalize (d_zero X n (k + 1)). generalize (d_exp X x). induction l0 as [|m l0 IH]; intros r; [reflexivity|]. simpl. apply IH.
    - intros r [a c] Im. cbn [fst snd xint_term]. unfold d_get. rewrite (e_get_in _ a c S n Z Im). reflexivity. }
  assert (Sl : shadow l (map (int_term i) p)).
  { unfold l. clear - Sp Sm E. induction Sp as [|[a c] [a' r] e p [F H] Sp IH]; simpl; constructor.
    - cbn [fst snd] in *. subst a'. pose proof (Sm (a, c) (or_introl eq_refl)) as Sa. cbn [fst] in Sa. unfold xint_term, int_term. cbn [fst snd]. rewrite Sa. split; [reflexivity|].
      apply (h_div _ _ E); [exact H | apply (h_nat _ _ E) | apply not_0_INR; lia].
    - apply IH. intros m Im. apply Sm. now right. }
  assert (Zl : sized n l).
  { unfold l, sized. rewrite List.Forall_forall. intros m Im. apply in_map_iff in Im as ([a c] & <- & Im). cbn [xint_term fst]. rewrite mi_upd_length. unfold sized in Z. rewrite List.Forall_forall in Z. exact (Z _ Im). }
  assert (Nl : NoDup (map fst l)).
  { unfold l. rewrite map_map. pose proof (sorted_nodup' n _ Z S) as ND. unfold sized in Z. clear - ND Z Sm I. induction (d_exp X x) as [|[a c] e IH]; [constructor|].
    cbn [map fst] in ND. inversion_clear ND as [|? ? Na ND']. apply Forall_cons_iff in Z as [La Z]. cbn [fst] in La. simpl. constructor.
    - intros J. apply in_map_iff in J as ([b d] & Qb & Ib). pose proof (Sm (a, c) (or_introl eq_refl)) as Sa. pose proof (Sm (b, d) (or_intror Ib)) as Sb. cbn [fst] in Sa, Sb. cbn [xint_term fst] in Qb. rewrite Sa, Sb in Qb.
      rewrite List.Forall_forall in Z. pose proof (Z _ Ib) as Lb. cbn [fst] in Lb. apply Na. apply in_map_iff. exists (b, d). split; [|exact Ib]. cbn [fst].
      apply (mi_upd_inj b a i); [congruence | lia | exact Qb].
    - apply IH; try assumption. intros m Im; apply Sm; now right. }
  destruct (set_all n (k + 1) l _ (d_zero X n (k + 1)) [] Sl Zl Nl eq_refl eq_refl ltac:(constructor) ltac:(constructor) ltac:(constructor) ltac:(intros b d [])) as (q & A' & D' & Sq & Z' & S' & V & C).
  rewrite Q. split; [|split; [exact A' | split; [exact D'|]]].
  - split; [rewrite D'; exact K|]. rewrite A', D'. split; [exact Z'|]. split; [exact S'|]. rewrite List.Forall_forall. intros [b d] Ib. cbn [fst].
    destruct (C b d Ib) as [C1|[d' []]]. unfold l in C1. rewrite map_map in C1. apply in_map_iff in C1 as ([a c] & <- & Ia). cbn [xint_term fst].
    pose proof (Sm (a, c) Ia) as Sa. cbn [fst] in Sa. rewrite Sa. unfold sized in Z. rewrite List.Forall_forall in U, Z. pose proof (U _ Ia) as Ua. pose proof (Z _ Ia) as La. cbn [fst] in Ua, La.
    pose proof (mi_upd_total a i (nth i a 0 + 1)%N ltac:(lia)). unfold mi in *. lia.
  - exists q. split; [exact Sq|]. intros h. rewrite V, rpoly_nil. ring.
Qed.
(** F is an integral of f along the coordinate i, near the origin. *)
Lemma antiderivative_good n k x i f F d : good n k x f -> (k + 1 < 65536)%N -> (i < n)%nat -> 0 < d ->
  (forall h, length h = n -> norm h <= d -> derivable_pt_lim (fun t => F (lupd h i t)) (nth i h 0) (f h)) ->
  (forall h, length h = n -> norm h <= d -> F (lupd h i 0) = 0) -> good n (k + 1) (d_antiderivative X x i) F.
Proof.
  intros (W & A & D & p & Sp & K' & e & E0 & O) K I D0 HF H0. destruct (antiderivative_real n k x i p W A D K I Sp) as (W' & A' & D' & q & Sq & V).
  split; [exact W'|]. split; [exact A'|]. split; [exact D'|]. exists q. split; [exact Sq|]. rewrite A', D'. rewrite A, D in O.
  assert (Zp : List.Forall (fun m => length (fst m) = n) p) by (eapply shadow_sized; [exact Sp | rewrite <- A; apply W]).
  exists K', (Rmin d e). split; [now apply Rmin_glb_lt|]. intros h Lh N.
  assert (N1 : norm h <= d) by (eapply Rle_trans; [exact N | apply Rmin_l]). assert (N2 : norm h <= e) by (eapply Rle_trans; [exact N | apply Rmin_r]).
  assert (B : forall c, Rmin 0 (nth i h 0) <= c <= Rmax 0 (nth i h 0) -> Rabs c <= norm h).
  { intros c [C1 C2]. eapply Rle_trans; [|apply (norm_nth h i)]. unfold Rmin, Rmax in *. destruct (Rle_dec 0 (nth i h 0)); unfold Rabs; repeat destruct Rcase_abs; lra. }
  destruct (MVT_abs (fun t => F (lupd h i t) - rpoly (map (int_term i) p) (lupd h i t)) (fun t => f (lupd h i t) - rpoly p (lupd h i t)) 0 (nth i h 0)) as (c & M & C).
  - intros c C. specialize (B c C). apply derivable_pt_lim_minus.
    + pose proof (HF (lupd h i c) ltac:(now rewrite lupd_length) ltac:(eapply Rle_trans; [apply lupd_norm, B | exact N1])) as G.
      rewrite lupd_nth in G by lia. intros eps He. destruct (G eps He) as [dl H]. exists dl. intros u U0 U1. specialize (H u U0 U1). rewrite !lupd_lupd in H. exact H.
    + apply int_derive; [rewrite Lh; exact Zp | lia].
  - cbv beta in M. rewrite (H0 h Lh N1), (int_zero i p h), lupd_same in M by (rewrite ?Lh; assumption || lia). rewrite !Rminus_0_r in M. rewrite V, M.
    specialize (B c C). pose proof (lupd_norm i c h B) as Nc.
    pose proof (O (lupd h i c) ltac:(now rewrite lupd_length) ltac:(eapply Rle_trans; [exact Nc | exact N2])) as OB.
    assert (Kn : 0 <= K' * norm h ^ S (N.to_nat k)) by (eapply Rle_trans; [apply Rabs_pos | apply (O h Lh N2)]).
    pose proof (norm_nonneg h) as P. pose proof (norm_nonneg (lupd h i c)) as Pc.
    replace (K' * norm h ^ S (N.to_nat (k + 1))) with (K' * norm h ^ S (N.to_nat k) * norm h) by (rewrite N2Nat.inj_add; simpl (N.to_nat 1); rewrite Nat.add_1_r; simpl; ring).
    apply Rmult_le_compat; [apply Rabs_pos | apply Rabs_pos | | apply norm_nth].
    eapply Rle_trans; [exact OB|]. destruct (Req_dec (norm h) 0) as [Z0|Z0].
    + assert (norm (lupd h i c) = 0) by lra. rewrite H, Z0. right. reflexivity.
    + assert (P1 : 0 < norm h ^ S (N.to_nat k)) by (apply pow_lt; lra). assert (KP : 0 <= K') by (apply (Rmult_le_reg_r (norm h ^ S (N.to_nat k))); lra).
      apply Rmult_le_compat_l; [exact KP|]. apply pow_incr. split; assumption.
Qed.

(** ** Derivative *)
Definition xder_terms (i : nat) (e : list (mi * X)) : list (mi * X) :=
  concat (map (fun m => let a := fst m in let n := nth i a 0%N in if (n =? 0)%N then [] else [(mi_upd a i (n - 1), x_mul X (snd m) (x_nat X n))]) e).
Lemma xder_in i e b d : In (b, d) (xder_terms i e) -> exists a c, In (a, c) e /\ nth i a 0%N <> 0%N /\ b = mi_upd a i (nth i a 0 - 1)%N.
Proof.
  unfold xder_terms. intros I. apply in_concat in I as (l & Il & I). apply in_map_iff in Il as ([a c] & <- & Ia). cbn [fst snd] in I.
  destruct (N.eqb_spec (nth i a 0%N) 0) as [Q|Q]; [destruct I|]. destruct I as [I|[]]. injection I as <- <-. now exists a, c.
Qed.
Lemma xder_shadow i e p : shadow e p -> shadow (xder_terms i e) (der_terms i p).
Proof.
  induction 1 as [|[a c] [a' r] e p [F H] Sp IH]; [constructor|]. cbn [fst snd] in *. subst a'. unfold xder_terms, der_terms. cbn [map concat fst snd]. apply shadow_app; [|exact IH].
  destruct (nth i a 0 =? 0)%N; [constructor|]. apply shadow_cons; [|constructor]. apply (h_mul _ _ E); [exact H | apply (h_nat _ _ E)].
Qed.
Lemma mi_pred_inj a b i : length a = length b -> (i < length a)%nat -> nth i a 0%N <> 0%N -> nth i b 0%N <> 0%N ->
  mi_upd a i (nth i a 0 - 1)%N = mi_upd b i (nth i b 0 - 1)%N -> a = b.
Proof.
  intros L I Na Nb Q. assert (N : nth i a 0%N = nth i b 0%N).
  { pose proof (mi_upd_nth a i (nth i a 0 - 1)%N I) as A. rewrite Q, mi_upd_nth in A by lia. lia. }
  rewrite <- (mi_upd_same a i), <- (mi_upd_same b i), <- N. rewrite <- (mi_upd_upd a i (nth i a 0 - 1)%N), <- (mi_upd_upd b i (nth i b 0 - 1)%N). now rewrite Q, N.
Qed.
Lemma xder_nodup n i e : sized n e -> (i < n)%nat -> NoDup (map fst e) -> NoDup (map fst (xder_terms i e)).
Proof.
  intros Z I. induction e as [|[a c] e IH]; intros ND; [constructor|]. cbn [map fst] in ND. inversion_clear ND as [|? ? Na ND']. apply Forall_cons_iff in Z as [La Z]. cbn [fst] in La.
  unfold xder_terms. cbn [map concat fst snd]. fold (xder_terms i e). destruct (N.eqb_spec (nth i a 0%N) 0) as [Q|Q]; [exact (IH Z ND')|]. simpl. constructor; [|exact (IH Z ND')].
  intros J. apply in_map_iff in J as ([b d] & Qb & Ib). cbn [fst] in Qb. apply xder_in in Ib as (a' & c' & Ia & Q' & ->).
  unfold sized in Z. rewrite List.Forall_forall in Z. pose proof (Z _ Ia) as La'. cbn [fst] in La'.
  apply Na. apply in_map_iff. exists (a', c'). split; [|exact Ia]. cbn [fst]. apply (mi_pred_inj a' a i); [congruence | lia | exact Q' | exact Q | exact Qb].
Qed.
Lemma derivative_real n k x i p : wf x -> d_as X x = n -> d_deg X x = k -> (1 <= k)%N -> (i < n)%nat -> shadow (d_exp X x) p ->
  wf (d_derivative X x i) /\ d_as X (d_derivative X x i) = n /\ d_deg X (d_derivative X x i) = (k - 1)%N /\
  exists q, shadow (d_exp X (d_derivative X x i)) q /\ forall h, rpoly q h = rpoly (der_terms i p) h.
Proof.
  intros W A D K I Sp. destruct W as (KK & Z & S & U). rewrite A, D in *.
  set (l := xder_terms i (d_exp X x)).
  assert (Q : d_derivative X x i = fold_left (fun r m => d_set X r (fst m) (snd m)) l (d_zero X n (k - 1))).
  { unfold d_derivative, l, xder_terms. rewrite A, D. replace (k =? 0)%N with false by (symmetry; apply N.eqb_neq; lia).
    rewrite <- fold_flat. apply fold_ext. intros r [a c] Im. cbn [fst snd]. destruct (nth i a 0 =? 0)%N; [reflexivity|]. cbn [fold_left fst snd]. unfold d_get. now rewrite (e_get_in _ a c S n Z Im). }
  assert (Zl : sized n l).
  { unfold l, sized. rewrite List.Forall_forall. intros [b d] Im. cbn [fst]. apply xder_in in Im as (a & c & Ia & _ & ->). rewrite mi_upd_length. unfold sized in Z. rewrite List.Forall_forall in Z. exact (Z _ Ia). }
  pose proof (xder_nodup n i _ Z I (sorted_nodup' n _ Z S)) as Nl.
  destruct (set_all n (k - 1) l _ (d_zero X n (k - 1)) [] (xder_shadow i _ _ Sp) Zl Nl eq_refl eq_refl ltac:(constructor) ltac:(constructor) ltac:(constructor) ltac:(intros b d [])) as (q & A' & D' & Sq & Z' & S' & V & C).
  rewrite Q. split; [|split; [exact A' | split; [exact D'|]]].
  - split; [rewrite D'; lia|]. rewrite A', D'. split; [exact Z'|]. split; [exact S'|]. rewrite List.Forall_forall. intros [b d] Ib. cbn [fst].
    destruct (C b d Ib) as [C1|[d' []]]. apply in_map_iff in C1 as ([b' d'] & <- & Ib'). cbn [fst]. apply xder_in in Ib' as (a & c & Ia & Na & ->).
    unfold sized in Z. rewrite List.Forall_forall in U, Z. pose proof (U _ Ia) as Ua. pose proof (Z _ Ia) as La. cbn [fst] in Ua, La.
    pose proof (mi_upd_total a i (nth i a 0 - 1)%N ltac:(lia)). unfold mi in *. lia.
  - exists q. split; [exact Sq|]. intros h. rewrite V, rpoly_nil. ring.
Qed.
End Int.
