(** Composition, derivatives and integrals. *)
From Coq Require Import NArith ZArith List Bool Reals Lra Lia Permutation Sorted.
From Verif Require Import LRU_Model Poly_Model Poly_Spec Poly_Proofs Diff_Model Diff_Spec Diff_O_Proofs Diff_Ring_Proofs Diff_Series_Proofs Diff_Inst Diff_Elem_Proofs Diff_Comp_Proofs.
Import ListNotations.
Local Open Scope R_scope.

Lemma sset_wf {A} n (e : list (mi * A)) a c : sized n e -> sorted graded_less e -> length a = n ->
  sized n (s_set graded_less e a c) /\ sorted graded_less (s_set graded_less e a c).
Proof.
  pose proof (graded_order n) as GO. induction e as [|[b d] e IH]; intros Z S La.
  - split; [repeat constructor; exact La | repeat constructor].
  - pose proof Z as Z'. apply Forall_cons_iff in Z' as [Lb Z']. pose proof S as S'. apply sorted_inv in S' as [S' Lt]. simpl in Lb.
    destruct (IH Z' S' La) as [A1 A2]. cbn [s_set]. destruct (graded_less b a) eqn:L; [|destruct (mi_eqb b a) eqn:Q].
    + split; [constructor; assumption|]. apply sorted_cons; [exact A2|]. intros x y I. apply s_set_in in I as [->|I]; [exact L | exact (Lt _ _ I)].
    + split; [constructor; assumption|]. apply sorted_cons; assumption.
    + split; [constructor; assumption|]. apply mi_eqb_neq in Q. assert (L' : graded_less a b = true) by (apply (less_total n graded_less GO b a); assumption).
      apply sorted_cons; [exact S|]. intros x y [I|I]; [injection I as <- <-; exact L'|]. unfold sized in Z'. rewrite List.Forall_forall in Z'.
      exact (less_trans n graded_less GO a b x La Lb (Z' _ I) L' (Lt _ _ I)).
Qed.
Section Vec.
Context (X : scalar) (holds : X -> R -> Prop) (E : encloses X holds).
Notation shadow := (@shadow X holds).
Notation wf := (@wf X).
Notation jet := (@jet X holds).
Notation upto := (upto X).
Notation good := (good X holds).

Lemma good_set_value n k d f c r : holds c r -> good n k d f -> good n k (d_set_value X d c) (fun h => f h - f (origin n) + r).
Proof.
  intros H ((K & Z & S & U) & A & D & p & Sp & O). unfold d_set_value, d_set. rewrite A, D in *.
  destruct (sset_wf n (d_exp X d) (zeros n) c Z S (length_zeros n)) as (Z' & S').
  split; [|split; [reflexivity | split; [reflexivity|]]].
  - apply wf_make; [exact K | exact Z' | exact S' |]. unfold Diff_Ring_Proofs.upto. rewrite List.Forall_forall in *. intros [b v] I. apply s_set_in in I as [->|I]; [simpl; rewrite total_zeros0; lia | exact (U _ I)].
  - exists (s_set graded_less p (zeros n) r). split; [exact (shadow_set X holds _ _ _ _ _ Sp H)|].
    pose proof (shadow_sized _ _ _ _ _ Sp Z) as Zp. pose proof (shadow_sorted X holds _ _ Sp S) as Sop.
    pose proof (O_origin _ _ _ O) as F0. pose proof (rpoly_origin n p Zp Sop) as P0.
    eapply O_ext; [|exact O]. intros h _. cbv beta. rewrite (sset_rpoly n) by (assumption || apply length_zeros). rewrite monom_zeros1. lra.
Qed.
Lemma good_lower n k l d f : good n k d f -> (l <= k)%N -> good n l (d_set_degree X d l) f.
Proof.
  intros (W & A & D & p & Sp & O) L. pose proof (wf_small X _ W) as T. destruct W as (K & Z & S & U). unfold d_set_degree. rewrite A, D in *.
  destruct (N.ltb_spec l k) as [LT|LT].
  - destruct (cut_split X l _ S T) as (e2 & _ & _ & C). destruct (cut_shadow X holds n l _ p Z S T Sp) as (q & Sq & Oq).
    split; [|split; [reflexivity | split; [reflexivity|]]].
    + apply wf_make; [lia | now apply cut_sized | now apply cut_sorted | exact C].
    + exists q. split; [exact Sq|]. eapply O_ext; [|exact (O_add _ _ _ _ (O_weaken n (Datatypes.S (N.to_nat k)) (Datatypes.S (N.to_nat l)) _ ltac:(lia) O) Oq)]. intros h _. cbv beta. ring.
  - assert (l = k) by lia. subst l. split; [repeat split; assumption|]. split; [reflexivity|]. split; [reflexivity|]. exists p. split; [exact Sp | exact O].
Qed.
Lemma good_mul_min n k l x y f g : good n k x f -> good n l y g -> (k <= l)%N -> good n k (d_mul X x y) (fun h => f h * g h).
Proof.
  intros (W & A & D & J) (W' & A' & D' & J') L. split; [apply (d_mul_wf X holds E); congruence|]. split; [exact A|]. split; [simpl; rewrite D, D'; lia|].
  apply d_mul_jet; auto; congruence.
Qed.
Lemma good_mul_min' n k l x y f g : good n k x f -> good n l y g -> good n (N.min k l) (d_mul X x y) (fun h => f h * g h).
Proof.
  intros (W & A & D & J) (W' & A' & D' & J'). split; [apply (d_mul_wf X holds E); congruence|]. split; [exact A|]. split; [simpl; rewrite D, D'; reflexivity|].
  apply d_mul_jet; auto; congruence.
Qed.
Lemma good_add_min n k l x y f g : good n k x f -> good n l y g -> good n (N.min k l) (d_add X x y) (fun h => f h + g h).
Proof.
  intros (W & A & D & J) (W' & A' & D' & J'). split; [apply d_add_wf; congruence|]. split; [exact A|]. split; [simpl; rewrite D, D'; reflexivity|].
  apply d_add_jet; auto; congruence.
Qed.

(** An element of degree at least k. *)
Definition atleast (n : nat) (k : N) (d : diff X) (f : list R -> R) : Prop := exists l, (k <= l)%N /\ good n l d f.

Lemma val_pow_good n k one a g : good n k one (fun _ => 1) -> atleast n k a g -> forall m, atleast n k (val_pow X one a m) (fun h => g h ^ m).
Proof.
  intros G1 Ga m. induction m as [|m IH]; [exists k; split; [lia|]; eapply good_ext; [|exact G1]; reflexivity|].
  destruct m as [|m].
  - destruct Ga as (l & L & Ga). exists l. split; [exact L|]. eapply good_ext; [|exact Ga]. intros h _. simpl. ring.
  - destruct IH as (l & L & IH), Ga as (l' & L' & Ga). exists (N.min l l'). split; [lia|].
    change (val_pow X one a (Datatypes.S (Datatypes.S m))) with (d_mul X (val_pow X one a (Datatypes.S m)) a).
    eapply good_ext; [|exact (good_mul_min' _ _ _ _ _ _ _ IH Ga)]. intros h _. simpl. ring.
Qed.
Lemma val_monomial_good n k one : good n k one (fun _ => 1) -> forall j a gs t u, Forall2 (atleast n k) a gs -> length j = length gs -> good n k t u ->
  good n k (val_monomial X one t j a) (fun h => u h * rmonom j (map (fun g => g h) gs)).
Proof.
  intros G1 j. induction j as [|m j IH]; intros a gs t u F L G.
  - eapply good_ext; [|exact G]. intros h _. simpl. ring.
  - destruct gs as [|g gs]; [discriminate L|]. inversion F as [|x ? a' ? Gx F' E1 E2]. subst. cbn [val_monomial].
    destruct (val_pow_good n k one x g G1 Gx (N.to_nat m)) as (l & Ll & Gp).
    eapply good_ext; [|apply (IH a' gs _ _ F' ltac:(simpl in L; lia) (good_mul_min _ _ _ _ _ _ _ G Gp Ll))].
    intros h _. cbv beta. cbn [map monom]. change (power 1 Rmult (g h) (N.to_nat m)) with (g h ^ N.to_nat m). ring.
Qed.
Lemma evaluate_fold n k one a gs : good n k one (fun _ => 1) -> Forall2 (atleast n k) a gs ->
  forall e p r u, shadow e p -> sized (length gs) e -> good n k r u ->
  good n k (fold_left (fun r m => d_add X r (d_mulc X (val_monomial X one one (fst m) a) (snd m))) e r) (fun h => u h + rpoly p (map (fun g => g h) gs)).
Proof.
  intros G1 F e. induction e as [|[b c] e IH]; intros p r u S Z G.
  - inversion S; subst. eapply good_ext; [|exact G]. intros h _. rewrite rpoly_nil. ring.
  - apply shadow_inv in S as (s & p' & -> & H & S). apply Forall_cons_iff in Z as [Lb Z]. cbn [fold_left fst snd] in *.
    eapply good_ext; [|apply (IH p' _ _ S Z (good_add X holds E _ _ _ _ _ _ G (good_mulc X holds E _ _ _ _ _ _ H (val_monomial_good n k one G1 b a gs one _ F Lb G1))))].
    intros h _. cbv beta. rewrite rpoly_cons. ring.
Qed.
Lemma Forall2_weaken {A B} (P Q : A -> B -> Prop) l m : (forall x y, P x y -> Q x y) -> Forall2 P l m -> Forall2 Q l m.
Proof. intros I. induction 1; constructor; auto. Qed.
Lemma Forall2_len {A B} (P : A -> B -> Prop) l m : Forall2 P l m -> length l = length m.
Proof. induction 1; simpl; congruence. Qed.

(** The displacement of the inner functions. *)
Lemma disp_length n gs h : length (disp n gs h) = length gs.
Proof. apply map_length. Qed.
Lemma disp_small n k a gs : Forall2 (atleast n k) a gs ->
  exists K d, 0 < d /\ 0 <= K /\ forall h, length h = n -> norm h <= d -> norm (disp n gs h) <= K * norm h.
Proof.
  induction 1 as [|x g a gs (l & Ll & G) F (K & d & D & K0 & H)].
  - exists 0, 1. split; [lra|]. split; [lra|]. intros h L N. unfold disp, norm at 1. simpl. rewrite Rmult_0_l. lra.
  - destruct (good_offset X holds _ _ _ _ G) as (K' & d' & D' & H'). exists (Rmax K K'), (Rmin d d'). split; [now apply Rmin_glb_lt|].
    split; [eapply Rle_trans; [exact K0 | apply Rmax_l]|]. intros h L N.
    specialize (H h L ltac:(eapply Rle_trans; [exact N | apply Rmin_l])). specialize (H' h L ltac:(eapply Rle_trans; [exact N | apply Rmin_r])). rewrite pow_1 in H'.
    pose proof (norm_nonneg h). unfold disp, norm in *. cbn [map fold_right]. apply Rmax_lub.
    + eapply Rle_trans; [exact H'|]. apply Rmult_le_compat_r; [assumption | apply Rmax_r].
    + eapply Rle_trans; [exact H|]. apply Rmult_le_compat_r; [assumption | apply Rmax_l].
Qed.
Lemma big_compose_many n k a gs m F : Forall2 (atleast n k) a gs -> big_O (length gs) m F -> big_O n m (fun h => F (disp n gs h)).
Proof.
  intros G (L & d' & D' & HF). destruct (disp_small n k a gs G) as (K0 & d & D & Kp & H). pose (K := Rmax K0 1). assert (K1 : 1 <= K) by apply Rmax_r.
  exists (Rmax L 0 * K ^ m), (Rmin d (d' / K)). split; [apply Rmin_glb_lt; [exact D | apply Rdiv_lt_0_compat; lra]|]. intros h Lh N.
  assert (N1 : norm h <= d) by (eapply Rle_trans; [exact N | apply Rmin_l]). assert (N2 : norm h <= d' / K) by (eapply Rle_trans; [exact N | apply Rmin_r]).
  pose proof (norm_nonneg h) as P. specialize (H h Lh N1).
  assert (G1 : norm (disp n gs h) <= K * norm h). { eapply Rle_trans; [exact H|]. apply Rmult_le_compat_r; [exact P | apply Rmax_l]. }
  assert (G2 : norm (disp n gs h) <= d'). { eapply Rle_trans; [exact G1|]. apply Rle_trans with (K * (d' / K)); [apply Rmult_le_compat_l; lra | right; field; lra]. }
  eapply Rle_trans; [exact (HF _ (disp_length n gs h) G2)|]. pose proof (norm_nonneg (disp n gs h)) as P'.
  apply Rle_trans with (Rmax L 0 * norm (disp n gs h) ^ m).
  - apply Rmult_le_compat_r; [now apply pow_le | apply Rmax_l].
  - rewrite Rmult_assoc, <- Rpow_mult_distr. apply Rmult_le_compat_l; [apply Rmax_r|]. apply pow_incr. split; assumption.
Qed.

(** A vector of differentials carrying the functions gs. *)
Definition v_ok (n : nat) (k : N) (y : dvec X) (gs : list (list R -> R)) : Prop :=
  v_as X y = n /\ v_deg X y = k /\ (k < 65536)%N /\ Forall2 (atleast n k) (v_elt X y) gs.

Lemma zeroed_ok n k a gs : Forall2 (atleast n k) a gs ->
  Forall2 (atleast n k) (map (fun d => d_set_value X d (x_nul X)) a) (map (fun g h => g h - g (origin n)) gs).
Proof.
  induction 1 as [|x g a gs (l & L & G) F IH]; simpl; constructor; [|exact IH]. exists l. split; [exact L|].
  eapply good_ext; [|exact (good_set_value n l x g _ _ (h_nul _ _ E) G)]. intros h _. simpl. ring.
Qed.
Lemma compose_good n k kx x y gs F : wf x -> d_as X x = length gs -> d_deg X x = kx -> (1 <= kx)%N -> jet x F -> v_ok n k y gs ->
  exists r, fst (d_compose X x y) = Ret r /\ good n (N.min kx k) r (fun h => F (disp n gs h)).
Proof.
  intros W A D K1 (p & Sp & O) (Va & Vd & K & V). pose proof (zeroed_ok _ _ _ _ V) as Vz.
  assert (L : length (v_elt X y) = length gs) by (eapply Forall2_len; exact V).
  unfold d_compose, d_evaluate. cbn [v_elt zeroed]. rewrite map_length, L, A, Nat.eqb_refl. cbn [negb]. rewrite D.
  replace (kx <? 1)%N with false by (symmetry; apply N.ltb_ge; exact K1). unfold v_zero. cbn [v_as v_deg zeroed]. rewrite Va, Vd. cbn [d_constant d_as d_deg].
  eexists. split; [reflexivity|].
  set (one := d_constant X n k (x_nat X 1)).
  pose proof (good_constant X holds n k _ _ K (h_nat _ _ E 1)) as G1. pose proof (good_constant X holds n k _ _ K (h_nul _ _ E)) as G0.
  destruct W as (_ & Z & _ & _). rewrite A in Z.
  pose proof (evaluate_fold n k one _ _ G1 Vz (d_exp X x) p _ _ Sp ltac:(rewrite map_length; exact Z) G0) as G.
  pose proof (good_lower n k (N.min kx k) _ _ G ltac:(lia)) as GL. destruct GL as (Wr & Ar & Dr & q & Sq & Oq).
  split; [exact Wr|]. split; [exact Ar|]. split; [exact Dr|]. exists q. split; [exact Sq|]. rewrite Ar, Dr in *.
  rewrite A, D in O. pose proof (big_compose_many n k _ gs _ _ V O) as OC.
  eapply O_ext; [|exact (O_add _ _ _ _ (O_weaken n (S (N.to_nat kx)) (S (N.to_nat (N.min kx k))) _ ltac:(lia) OC) Oq)]. intros h _. cbv beta.
  rewrite map_map. unfold disp. ring.
Qed.
Lemma outcomes_all {A B} (f : A -> outcome B) (P : A -> B -> Prop) l : (forall x, In x l -> exists y, f x = Ret y /\ P x y) ->
  exists r, outcomes (map f l) = Ret r /\ Forall2 P l r.
Proof.
  induction l as [|x l IH]; intros H; [exists []; split; [reflexivity | constructor]|].
  destruct (H x (or_introl eq_refl)) as (y & Q & Py). destruct IH as (r & Qr & F); [intros z I; apply H; now right|].
  exists (y :: r). simpl. rewrite Q, Qr. split; [reflexivity | now constructor].
Qed.
(** The vector field or outer function: components of degree kx. *)
Definition outer (m : nat) (kx : N) (x : diff X) (F : list R -> R) : Prop := wf x /\ d_as X x = m /\ d_deg X x = kx /\ jet x F.
Lemma Forall2_outcomes {A B C} (P : A -> C -> Prop) (Q : B -> C -> Prop) (f : A -> outcome B) l m :
  (forall x y, P x y -> exists z, f x = Ret z /\ Q z y) -> Forall2 P l m -> exists r, outcomes (map f l) = Ret r /\ Forall2 Q r m.
Proof.
  intros H. induction 1 as [|x y l m Pxy F (r & Qr & Fr)]; [exists []; split; [reflexivity | constructor]|].
  destruct (H x y Pxy) as (z & Qz & Pz). exists (z :: r). simpl. rewrite Qz, Qr. split; [reflexivity | now constructor].
Qed.
Lemma v_compose_good n k kx x y gs Fs : (1 <= kx)%N -> Forall2 (outer (length gs) kx) (v_elt X x) Fs -> v_ok n k y gs ->
  exists r, v_compose X x y = Ret (mkVec X n k r) /\ Forall2 (fun d F => good n (N.min kx k) d (fun h => F (disp n gs h))) r Fs.
Proof.
  intros K1 O V. unfold v_compose.
  destruct (Forall2_outcomes _ (fun d F => good n (N.min kx k) d (fun h => F (disp n gs h))) (fun xi => fst (d_compose X xi y)) _ _
     (fun xi F (H : outer (length gs) kx xi F) => match H with conj W (conj A (conj D J)) => compose_good n k kx xi y gs F W A D K1 J V end) O) as (r & -> & Fr).
  exists r. destruct V as (-> & -> & _). split; [reflexivity | exact Fr].
Qed.
(** The inner vector afterwards. *)
Lemma restored_ok n k y gs : v_ok n k y gs -> v_ok n k (restored X y (zeroed X y)) gs.
Proof.
  intros (A & D & K & V). unfold v_ok, restored, zeroed. cbn [v_as v_deg v_elt]. split; [exact A|]. split; [exact D|]. split; [exact K|].
  induction V as [|x g a gs (l & L & G) F IH]; simpl; constructor; [|exact IH]. exists l. split; [exact L|].
  pose proof (good_set_value n l x g _ _ (h_nul _ _ E) G) as G1. pose proof (good_set_value n l _ _ _ _ (good_value X holds E _ _ _ _ G) G1) as G2.
  eapply good_ext; [|exact G2]. intros h _. cbv beta. ring.
Qed.
End Vec.
