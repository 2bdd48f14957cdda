(** Sums and products of differentials. *)
From Coq Require Import NArith List Bool Reals Lra Lia Permutation Sorted.
From Verif Require Import LRU_Model Poly_Model Poly_Spec Poly_Proofs Diff_Model Diff_Spec Diff_O_Proofs.
Import ListNotations.
Local Open Scope R_scope.
Notation rmonom := (monom 1 Rmult).
Ltac mlia := first [lia | unfold mi in *; first [lia | simpl in *; lia]].

Lemma monom_plus a : forall b h, length a = length h -> length b = length h -> rmonom (plus a b) h = rmonom a h * rmonom b h.
Proof.
  induction a as [|x a IH]; intros [|y b] [|z h] La Lb; cbn [plus monom length] in *; try discriminate La; try discriminate Lb; [ring|].
  rewrite IH by lia. rewrite (power_pow z (N.to_nat (x + y))), (power_pow z (N.to_nat x)), (power_pow z (N.to_nat y)), N2Nat.inj_add, pow_add. ring.
Qed.
Lemma madd_plus a : forall b, length a = length b -> (total a + total b < 65536)%N -> madd a b = plus a b.
Proof.
  induction a as [|x a IH]; intros [|y b] L T; cbn [madd plus length] in *; try discriminate L; [reflexivity|].
  rewrite !total_cons in T. f_equal; [apply w16_small; lia | apply IH; lia].
Qed.
Lemma graded_total a b : (total a < 65536)%N -> (total b < 65536)%N -> graded_less a b = true -> (total a <= total b)%N.
Proof.
  intros A B. unfold graded_less. rewrite !degree_small by assumption.
  destruct (N.eqb_spec (total a) (total b)) as [->|_]; [lia|]. intros H. apply N.ltb_lt in H. lia.
Qed.
Lemma total_zeros0 n : total (zeros n) = 0%N.
Proof. induction n; simpl; auto. Qed.
Lemma monom_zeros1 n h : rmonom (zeros n) h = 1.
Proof. revert h; induction n as [|n IH]; intros [|x h]; simpl; try reflexivity. rewrite IH; ring. Qed.
Lemma length_zeros n : length (zeros n) = n.
Proof. apply repeat_length. Qed.

Section Ring.
Context (X : scalar) (holds : X -> R -> Prop) (E : encloses X holds).
Notation shadow := (@shadow X holds).
Notation terms := (list (mi * X)).

Lemma shadow_nil : shadow [] [].
Proof. constructor. Qed.
Lemma shadow_cons a c r e p : holds c r -> shadow e p -> shadow ((a, c) :: e) ((a, r) :: p).
Proof. intros H S. constructor; [split; [reflexivity | exact H] | exact S]. Qed.
Lemma shadow_app e1 p1 e2 p2 : shadow e1 p1 -> shadow e2 p2 -> shadow (e1 ++ e2) (p1 ++ p2).
Proof. apply Forall2_app. Qed.
Lemma shadow_inv a c e p : shadow ((a, c) :: e) p -> exists r p', p = (a, r) :: p' /\ holds c r /\ shadow e p'.
Proof.
  intros H. inversion H as [|m [b r] l p' [F H1] H2 E1 E2]; subst. simpl in *. subst b. now exists r, p'.
Qed.
Lemma shadow_split e1 e2 p : shadow (e1 ++ e2) p -> exists p1 p2, p = p1 ++ p2 /\ shadow e1 p1 /\ shadow e2 p2.
Proof. intros H. apply Forall2_app_inv_l in H as (p1 & p2 & A & B & C). exists p1, p2. auto. Qed.
Lemma shadow_forall (P : mi -> Prop) e p : shadow e p -> List.Forall (fun m => P (fst m)) e -> List.Forall (fun m => P (fst m)) p.
Proof.
  induction 1 as [|m m' e p [F _] _ IH]; intros H; [constructor|].
  apply Forall_cons_iff in H as [A B]. constructor; [rewrite <- F; exact A | auto].
Qed.
Lemma shadow_sized n e p : shadow e p -> sized n e -> List.Forall (fun m => length (fst m) = n) p.
Proof. apply (shadow_forall (fun a => length a = n)). Qed.
Lemma shadow_perm e e' p : shadow e p -> Permutation e e' -> exists p', shadow e' p' /\ Permutation p p'.
Proof.
  intros S P. destruct (Permutation_Forall2 P S) as (p' & A & B). exists p'. split; assumption.
Qed.

(** *** Cleaning up *)
Lemma combine_from_shadow e : forall p a c r, shadow e p -> holds c r ->
  exists p', shadow (combine_from (x_add X) a c e) p' /\ forall h, rpoly p' h = r * rmonom a h + rpoly p h.
Proof.
  induction e as [|[b d] e IH]; intros p a c r S H.
  - inversion S; subst. exists [(a, r)]. split; [apply shadow_cons; [exact H | constructor]|]. reflexivity.
  - apply shadow_inv in S as (s & p' & -> & Hs & S). simpl combine_from. destruct (mi_eqb b a) eqn:Q.
    + apply mi_eqb_eq in Q as ->. destruct (IH p' a (x_add X c d) (r + s) S) as (q & Sq & V); [now apply (h_add _ _ E)|].
      exists q. split; [exact Sq|]. intros h. rewrite V, rpoly_cons. ring.
    + destruct (IH p' b d s S Hs) as (q & Sq & V). exists ((a, r) :: q). split; [now apply shadow_cons|].
      intros h. now rewrite rpoly_cons, V, rpoly_cons.
Qed.
Lemma combine_shadow e p : shadow e p -> exists p', shadow (combine_terms (x_add X) e) p' /\ forall h, rpoly p' h = rpoly p h.
Proof.
  destruct e as [|[a c] e]; intros S.
  - inversion S; subst. exists []. split; [constructor | reflexivity].
  - apply shadow_inv in S as (r & p' & -> & H & S). exact (combine_from_shadow e p' a c r S H).
Qed.
Lemma remove_shadow e p : shadow e p -> exists p', shadow (remove_zeros (x_is0 X) e) p' /\ forall h, rpoly p' h = rpoly p h.
Proof.
  revert p; induction e as [|[a c] e IH]; intros p S.
  - inversion S; subst. exists []. split; [constructor | reflexivity].
  - apply shadow_inv in S as (r & p' & -> & H & S). destruct (IH _ S) as (q & Sq & V).
    unfold remove_zeros; cbn [filter snd]; fold (remove_zeros (x_is0 X) e). destruct (x_is0 X c) eqn:Z; cbn [negb].
    + exists q. split; [exact Sq|]. intros h. rewrite V, rpoly_cons, (h_is0 _ _ E c r Z H). ring.
    + exists ((a, r) :: q). split; [now apply shadow_cons|]. intros h. now rewrite !rpoly_cons, V.
Qed.
Lemma cleanup_shadow n e p : sized n e -> shadow e p -> exists p', shadow (cleanup X e) p' /\ forall h, rpoly p' h = rpoly p h.
Proof.
  intros Z S. destruct (h_sort _ _ E n e Z) as [P _]. destruct (shadow_perm _ _ _ S P) as (p1 & S1 & P1).
  destruct (combine_shadow _ _ S1) as (p2 & S2 & V2). destruct (remove_shadow _ _ S2) as (p3 & S3 & V3).
  exists p3. split; [exact S3|]. intros h. now rewrite V3, V2, (rpoly_perm _ _ h P1).
Qed.
Lemma sorted_filter {A} (less : mi -> mi -> bool) (f : mi * A -> bool) e : sorted less e -> sorted less (filter f e).
Proof.
  induction 1 as [|m e S IH F]; simpl; [constructor|]. destruct (f m); [|exact IH]. constructor; [exact IH|].
  apply List.Forall_forall. intros x I. apply filter_In in I as [I _]. rewrite List.Forall_forall in F. auto.
Qed.
Lemma cleanup_wf n k e : sized n e -> List.Forall (fun m => (total (fst m) <= k)%N) e ->
  sized n (cleanup X e) /\ sorted graded_less (cleanup X e) /\ List.Forall (fun m => (total (fst m) <= k)%N) (cleanup X e).
Proof.
  intros Z T. pose proof (h_sort _ _ E n e Z) as SR. destruct SR as [P SS].
  assert (Z' : sized n (x_sort X e)). { unfold sized in *. rewrite List.Forall_forall in *. intros m I. apply Z. eapply Permutation_in; [apply Permutation_sym, P | exact I]. }
  assert (T' : List.Forall (fun m => (total (fst m) <= k)%N) (x_sort X e)).
  { rewrite List.Forall_forall in *. intros m I. apply T. eapply Permutation_in; [apply Permutation_sym, P | exact I]. }
  pose proof (combine_sorted (radd := x_add X) n graded_less (graded_order n) e _ Z (conj P SS)) as SC.
  pose proof (combine_sized (radd := x_add X) n _ Z') as ZC.
  assert (TC : List.Forall (fun m => (total (fst m) <= k)%N) (combine_terms (x_add X) (x_sort X e))).
  { destruct (x_sort X e) as [|[a c] l] eqn:Q; [constructor|]. simpl. rewrite List.Forall_forall in *.
    intros [b d] I. apply combine_in in I as [->|[d' I]].
    - exact (T' (a, c) (or_introl eq_refl)).
    - exact (T' (b, d') (or_intror I)). }
  unfold cleanup, remove_zeros. split; [|split].
  - unfold sized in *. rewrite List.Forall_forall in *. intros m I. apply filter_In in I as [I _]. auto.
  - apply sorted_filter, SC.
  - rewrite List.Forall_forall in *. intros m I. apply filter_In in I as [I _]. auto.
Qed.

(** *** Cutting *)
Definition small (e : terms) : Prop := List.Forall (fun m => (total (fst m) < 65536)%N) e.
Lemma sorted_tail_total a (c : X) e : sorted graded_less ((a, c) :: e) -> small ((a, c) :: e) ->
  List.Forall (fun m => (total a <= total (fst m))%N) e.
Proof.
  intros S T. apply sorted_inv in S as [_ S]. apply Forall_cons_iff in T as [Ta T].
  unfold small in T. rewrite List.Forall_forall in *. intros [b d] I. apply graded_total; [exact Ta | exact (T _ I) | exact (S b d I)].
Qed.
Lemma cut_split k e : sorted graded_less e -> small e ->
  exists e2, e = cut X k e ++ e2 /\ List.Forall (fun m => (k < total (fst m))%N) e2 /\ List.Forall (fun m => (total (fst m) <= k)%N) (cut X k e).
Proof.
  induction e as [|[a c] e IH]; intros S T; [exists []; repeat split; constructor|].
  pose proof (sorted_tail_total _ _ _ S T) as TT. pose proof S as S'. apply sorted_inv in S' as [S' _].
  pose proof T as T'. apply Forall_cons_iff in T' as [Ta T']. simpl in Ta. cbn [cut]. rewrite degree_small by exact Ta.
  destruct (N.ltb_spec k (total a)) as [L|L].
  - exists ((a, c) :: e). split; [reflexivity|]. split; [|constructor]. constructor; [exact L|].
    revert TT. apply List.Forall_impl. intros m H. lia.
  - destruct (IH S' T') as (e2 & A & B & C). exists e2. split; [simpl; f_equal; exact A|]. split; [exact B|].
    constructor; [exact L | exact C].
Qed.
Lemma cut_in k e m : In m (cut X k e) -> In m e.
Proof.
  induction e as [|[a c] e IH]; simpl; [tauto|]. destruct (k <? degree a)%N; simpl; [tauto|]. intros [H|H]; auto.
Qed.
Lemma cut_sorted k e : sorted graded_less e -> sorted graded_less (cut X k e).
Proof.
  induction e as [|[a c] e IH]; intros S; [constructor|]. apply sorted_inv in S as [S S']. cbn [cut].
  destruct (k <? degree a)%N; [constructor|]. apply sorted_cons; [auto|]. intros b d I. apply cut_in in I. eauto.
Qed.
Lemma cut_sized n k e : sized n e -> sized n (cut X k e).
Proof. unfold sized. rewrite !List.Forall_forall. intros H m I. apply H. eapply cut_in, I. Qed.
Lemma cut_shadow n k e p : sized n e -> sorted graded_less e -> small e -> shadow e p ->
  exists p', shadow (cut X k e) p' /\ big_O n (S (N.to_nat k)) (fun h => rpoly p h - rpoly p' h).
Proof.
  intros Z S T H. destruct (cut_split k e S T) as (e2 & A & B & _). rewrite A in H.
  apply shadow_split in H as (p1 & p2 & -> & H1 & H2). exists p1. split; [exact H1|].
  eapply O_ext; [|apply (O_rpoly n (Datatypes.S (N.to_nat k)) p2)].
  - intros h _. cbv beta. rewrite rpoly_app. ring.
  - assert (B' : List.Forall (fun m => length (fst m) = n /\ (k < total (fst m))%N) e2).
    { unfold sized in Z. rewrite A in Z. rewrite List.Forall_forall in *. intros m I. split; [apply Z, in_or_app; now right | now apply B]. }
    apply (shadow_forall (fun a => length a = n /\ (k < total a)%N) _ _ H2) in B'. revert B'. apply List.Forall_impl. intros m [L K]. split; [exact L | unfold mi in *; lia].
Qed.

(** *** Sums *)
Lemma merge_nil_l f g k e2 : d_merge X f g k [] e2 = cut X k (map (fun m => (fst m, g (snd m))) e2).
Proof. destruct e2; reflexivity. Qed.
Lemma merge_nil_r f g k e1 : d_merge X f g k e1 [] = cut X k e1.
Proof. destruct e1 as [|[a c] e1]; reflexivity. Qed.
Lemma merge_cons f g k a c e1 b d e2 : d_merge X f g k ((a, c) :: e1) ((b, d) :: e2) =
  if mi_eqb a b then (a, f c d) :: d_merge X f g k e1 e2
  else if graded_less a b then (a, c) :: d_merge X f g k e1 ((b, d) :: e2)
  else (b, g d) :: d_merge X f g k ((a, c) :: e1) e2.
Proof. reflexivity. Qed.
Definition images (g : X -> X) (e : terms) : terms := map (fun m => (fst m, g (snd m))) e.
Lemma images_in g e b d : In (b, d) (images g e) -> exists d', In (b, d') e.
Proof. unfold images. rewrite in_map_iff. intros ([a c] & Q & I). injection Q as <- <-. now exists c. Qed.
Lemma images_sorted g e : sorted graded_less e -> sorted graded_less (images g e).
Proof.
  induction e as [|[a c] e IH]; intros S; [constructor|]. apply sorted_inv in S as [S S'].
  apply sorted_cons; [auto|]. intros b d I. apply images_in in I as [d' I]. eauto.
Qed.
Lemma images_forall (P : mi -> Prop) g e : List.Forall (fun m => P (fst m)) e -> List.Forall (fun m => P (fst m)) (images g e).
Proof. induction 1; simpl; constructor; auto. Qed.
Lemma images_shadow g sg e p : (forall c r, holds c r -> holds (g c) (sg * r)) -> shadow e p ->
  exists p', shadow (images g e) p' /\ forall h, rpoly p' h = sg * rpoly p h.
Proof.
  intros G. revert p; induction e as [|[a c] e IH]; intros p S.
  - inversion S; subst. exists []. split; [constructor|]. intros h. rewrite rpoly_nil. ring.
  - apply shadow_inv in S as (r & p' & -> & H & S). destruct (IH _ S) as (q & Sq & V).
    exists ((a, sg * r) :: q). split; [apply shadow_cons; auto|]. intros h. rewrite !rpoly_cons, V. ring.
Qed.

Lemma merge_shadow n k f g sg e1 : (forall c d r s, holds c r -> holds d s -> holds (f c d) (r + sg * s)) ->
  (forall c r, holds c r -> holds (g c) (sg * r)) ->
  sized n e1 -> sorted graded_less e1 -> small e1 -> forall p1, shadow e1 p1 ->
  forall e2 p2, sized n e2 -> sorted graded_less e2 -> small e2 -> shadow e2 p2 ->
  exists p, shadow (d_merge X f g k e1 e2) p /\ big_O n (S (N.to_nat k)) (fun h => rpoly p1 h + sg * rpoly p2 h - rpoly p h).
Proof.
  intros F G. induction e1 as [|[a c] e1 IH1]; intros Z1 S1 T1 p1 H1 e2; induction e2 as [|[b d] e2 IH2]; intros p2 Z2 S2 T2 H2.
  - inversion H1; inversion H2; subst. exists []. split; [constructor|]. eapply O_ext; [|apply O_zero]. intros h _. cbv beta. rewrite rpoly_nil. simpl. ring.
  - inversion H1; subst. rewrite merge_nil_l. destruct (images_shadow g sg _ _ G H2) as (q & Sq & V).
    destruct (cut_shadow n k (images g ((b, d) :: e2)) q) as (q' & Sq' & O); [apply (images_forall (fun a => length a = n)), Z2 | apply images_sorted, S2 | apply (images_forall (fun a => (total a < 65536)%N)), T2 | exact Sq |].
    exists q'. split; [exact Sq'|]. eapply O_ext; [|exact O]. intros h _. cbv beta. rewrite V, rpoly_nil. ring.
  - inversion H2; subst. rewrite merge_nil_r. destruct (cut_shadow n k _ p1 Z1 S1 T1 H1) as (q' & Sq' & O).
    exists q'. split; [exact Sq'|]. eapply O_ext; [|exact O]. intros h _. cbv beta. rewrite rpoly_nil. ring.
  - rewrite merge_cons.
    pose proof S1 as S1'. apply sorted_inv in S1' as [S1' _]. pose proof S2 as S2'. apply sorted_inv in S2' as [S2' _].
    pose proof Z1 as Z1'. apply Forall_cons_iff in Z1' as [_ Z1']. pose proof Z2 as Z2'. apply Forall_cons_iff in Z2' as [_ Z2'].
    pose proof T1 as T1'. apply Forall_cons_iff in T1' as [_ T1']. pose proof T2 as T2'. apply Forall_cons_iff in T2' as [_ T2'].
    pose proof H1 as H1'. apply shadow_inv in H1' as (r & q1 & -> & Hr & H1').
    pose proof H2 as H2'. apply shadow_inv in H2' as (s & q2 & -> & Hs & H2').
    destruct (mi_eqb a b) eqn:Q; [|destruct (graded_less a b) eqn:L].
    + apply mi_eqb_eq in Q as <-. destruct (IH1 Z1' S1' T1' q1 H1' e2 q2 Z2' S2' T2' H2') as (p & Sp & O).
      exists ((a, r + sg * s) :: p). split; [apply shadow_cons; auto|]. eapply O_ext; [|exact O]. intros h _. cbv beta. rewrite !rpoly_cons. ring.
    + destruct (IH1 Z1' S1' T1' q1 H1' _ _ Z2 S2 T2 H2) as (p & Sp & O).
      exists ((a, r) :: p). split; [apply shadow_cons; auto|]. eapply O_ext; [|exact O]. intros h _. cbv beta. rewrite !rpoly_cons. ring.
    + destruct (IH2 q2 Z2' S2' T2' H2') as (p & Sp & O).
      exists ((b, sg * s) :: p). split; [apply shadow_cons; auto|]. eapply O_ext; [|exact O]. intros h _. cbv beta. rewrite !rpoly_cons. ring.
Qed.
Lemma merge_in f g k e1 : forall e2 b d, In (b, d) (d_merge X f g k e1 e2) -> (exists d', In (b, d') e1) \/ (exists d', In (b, d') e2).
Proof.
  induction e1 as [|[a c] e1 IH1]; intros e2; induction e2 as [|[a' c'] e2 IH2]; intros b d.
  - simpl. tauto.
  - rewrite merge_nil_l. intros I. apply cut_in in I. right. exact (images_in g _ b d I).
  - rewrite merge_nil_r. intros I. apply cut_in in I. left. now exists d.
  - rewrite merge_cons. destruct (mi_eqb a a'); [|destruct (graded_less a a')]; intros [Q|I].
    + injection Q as <- <-. left. exists c. now left.
    + destruct (IH1 _ _ _ I) as [[x H]|[x H]]; [left | right]; exists x; now right.
    + injection Q as <- <-. left. exists c. now left.
    + destruct (IH1 _ _ _ I) as [[x H]|[x H]]; [left; exists x; now right | right; exists x; exact H].
    + injection Q as <- <-. right. exists c'. now left.
    + destruct (IH2 _ _ I) as [[x H]|[x H]]; [left; exists x; exact H | right; exists x; now right].
Qed.
Lemma merge_sorted n f g k e1 : sized n e1 -> sorted graded_less e1 -> forall e2, sized n e2 -> sorted graded_less e2 ->
  sorted graded_less (d_merge X f g k e1 e2).
Proof.
  pose proof (graded_order n) as GO.
  induction e1 as [|[a c] e1 IH1]; intros Z1 S1 e2; induction e2 as [|[b d] e2 IH2]; intros Z2 S2.
  - constructor.
  - rewrite merge_nil_l. apply cut_sorted; exact (images_sorted g _ S2).
  - rewrite merge_nil_r. apply cut_sorted, S1.
  - rewrite merge_cons.
    pose proof S1 as S1'. apply sorted_inv in S1' as [S1' L1]. pose proof S2 as S2'. apply sorted_inv in S2' as [S2' L2].
    pose proof Z1 as Z1'. apply Forall_cons_iff in Z1' as [za Z1']. pose proof Z2 as Z2'. apply Forall_cons_iff in Z2' as [zb Z2'].
    simpl in za, zb.
    assert (In1 : forall x y, In (x, y) e1 -> length x = n). { unfold sized in Z1'. rewrite List.Forall_forall in Z1'. intros x y I. exact (Z1' _ I). }
    assert (In2 : forall x y, In (x, y) e2 -> length x = n). { unfold sized in Z2'. rewrite List.Forall_forall in Z2'. intros x y I. exact (Z2' _ I). }
    destruct (mi_eqb a b) eqn:Q; [|destruct (graded_less a b) eqn:L].
    + apply mi_eqb_eq in Q as <-. apply sorted_cons; [now apply IH1|]. intros x y I. destruct (merge_in _ _ _ _ _ _ _ I) as [[w H]|[w H]]; eauto.
    + apply sorted_cons; [now apply IH1|]. intros x y I. destruct (merge_in _ _ _ _ _ _ _ I) as [[w H]|[w [H|H]]]; [eauto | injection H as <- <-; exact L |].
      apply (less_trans n graded_less GO a b x za zb (In2 _ _ H) L (L2 _ _ H)).
    + apply mi_eqb_neq in Q. assert (L' : graded_less b a = true) by (apply (less_total n graded_less GO a b); auto).
      apply sorted_cons; [now apply IH2|]. intros x y I. destruct (merge_in _ _ _ _ _ _ _ I) as [[w [H|H]]|[w H]]; [injection H as <- <-; exact L' | | eauto].
      apply (less_trans n graded_less GO b a x zb za (In1 _ _ H) L' (L1 _ _ H)).
Qed.
Definition upto (k : N) (e : terms) : Prop := List.Forall (fun m => (total (fst m) <= k)%N) e.
Lemma merge_upto n f g k e1 : sized n e1 -> sorted graded_less e1 -> small e1 -> forall e2, sized n e2 -> sorted graded_less e2 -> small e2 ->
  upto k e1 \/ upto k e2 -> upto k (d_merge X f g k e1 e2).
Proof.
  pose proof (graded_order n) as GO.
  induction e1 as [|[a c] e1 IH1]; intros Z1 S1 T1 e2; induction e2 as [|[b d] e2 IH2]; intros Z2 S2 T2 U.
  - constructor.
  - rewrite merge_nil_l. destruct (cut_split k (images g ((b, d) :: e2)) (images_sorted g _ S2) (images_forall (fun a => (total a < 65536)%N) g _ T2)) as (e3 & _ & _ & C). exact C.
  - rewrite merge_nil_r. destruct (cut_split k _ S1 T1) as (e3 & _ & _ & C). exact C.
  - rewrite merge_cons.
    pose proof S1 as S1'. apply sorted_inv in S1' as [S1' _]. pose proof S2 as S2'. apply sorted_inv in S2' as [S2' _].
    pose proof Z1 as Z1'. apply Forall_cons_iff in Z1' as [za Z1']. pose proof Z2 as Z2'. apply Forall_cons_iff in Z2' as [zb Z2'].
    pose proof T1 as T1'. apply Forall_cons_iff in T1' as [ta T1']. pose proof T2 as T2'. apply Forall_cons_iff in T2' as [tb T2'].
    simpl in za, zb, ta, tb.
    assert (U1 : upto k ((a, c) :: e1) -> (total a <= k)%N /\ upto k e1) by (intros H; apply Forall_cons_iff in H; exact H).
    assert (U2 : upto k ((b, d) :: e2) -> (total b <= k)%N /\ upto k e2) by (intros H; apply Forall_cons_iff in H; exact H).
    destruct (mi_eqb a b) eqn:Q; [|destruct (graded_less a b) eqn:L].
    + apply mi_eqb_eq in Q as <-. constructor; [simpl; tauto | apply IH1; try assumption; tauto].
    + pose proof (graded_total _ _ ta tb L). constructor; [simpl; destruct U as [U|U]; [apply U1 in U | apply U2 in U]; lia | apply IH1; try assumption; tauto].
    + apply mi_eqb_neq in Q. assert (L' : graded_less b a = true) by (apply (less_total n graded_less GO a b); auto).
      pose proof (graded_total _ _ tb ta L'). constructor; [simpl; destruct U as [U|U]; [apply U1 in U | apply U2 in U]; lia | apply IH2; try assumption; tauto].
Qed.
Lemma merge_sized n f g k e1 e2 : sized n e1 -> sized n e2 -> sized n (d_merge X f g k e1 e2).
Proof.
  unfold sized. rewrite !List.Forall_forall. intros A B [b d] I. destruct (merge_in _ _ _ _ _ _ _ I) as [[x H]|[x H]]; [exact (A _ H) | exact (B _ H)].
Qed.

(** *** Products *)
Lemma row_shadow n k a c r e : length a = n -> (k < 65536)%N -> (total a <= k)%N -> holds c r -> sized n e -> sorted graded_less e -> small e ->
  forall p, shadow e p -> exists q, shadow (mul_row X k a c e) q /\
    big_O n (Datatypes.S (N.to_nat k)) (fun h => r * rmonom a h * rpoly p h - rpoly q h).
Proof.
  intros La K Ta Hc. induction e as [|[b d] e IH]; intros Z S T p H.
  - inversion H; subst. exists []. split; [constructor|]. eapply O_ext; [|apply O_zero]. intros h _; cbv beta; rewrite rpoly_nil; simpl; ring.
  - pose proof H as H'. apply shadow_inv in H' as (s & p' & -> & Hs & H').
    pose proof Z as Z'. apply Forall_cons_iff in Z' as [zb Z']. pose proof T as T'. apply Forall_cons_iff in T' as [tb T']. simpl in zb, tb.
    pose proof S as S'. apply sorted_inv in S' as [S' _]. cbn [mul_row]. rewrite !degree_small by mlia.
    destruct (N.ltb_spec k (total a + total b)) as [L|L].
    + exists []. split; [constructor|].
      eapply O_ext; [|apply (O_weaken n (N.to_nat (total a) + (Datatypes.S (N.to_nat k) - N.to_nat (total a))) (Datatypes.S (N.to_nat k))); [|apply (O_mul n (N.to_nat (total a)) (Datatypes.S (N.to_nat k) - N.to_nat (total a)) (fun h => r * rmonom a h) (rpoly ((b, s) :: p')))]]; [|mlia| |].
      * intros h _. cbv beta. rewrite rpoly_nil. ring.
      * apply O_scale, O_monom, La.
      * apply O_rpoly. pose proof (sorted_tail_total _ _ _ S T) as TT.
        assert (B : List.Forall (fun m => length (fst m) = n /\ (Datatypes.S (N.to_nat k) - N.to_nat (total a) <= N.to_nat (total (fst m)))%nat) ((b, d) :: e)).
        { constructor; [cbn [fst]; split; [exact zb | mlia]|]. unfold sized in Z'. rewrite List.Forall_forall in *. intros m I. split; [exact (Z' m I)|].
          specialize (TT m I). simpl in TT. mlia. }
        exact (shadow_forall (fun a0 => length a0 = n /\ (Datatypes.S (N.to_nat k) - N.to_nat (total a) <= N.to_nat (total a0))%nat) _ _ H B).
    + destruct (IH Z' S' T' p' H') as (q & Sq & O). exists ((madd a b, r * s) :: q). split; [apply shadow_cons; [now apply (h_mul _ _ E) | exact Sq]|].
      eapply O_ext; [|exact O]. intros h Lh. cbv beta. rewrite !rpoly_cons, madd_plus by mlia. rewrite monom_plus by mlia. ring.
Qed.
Lemma row_wf n k a c e : length a = n -> (k < 65536)%N -> (total a <= k)%N -> sized n e -> small e ->
  sized n (mul_row X k a c e) /\ upto k (mul_row X k a c e).
Proof.
  intros La K Ta. induction e as [|[b d] e IH]; intros Z T; [split; constructor|].
  apply Forall_cons_iff in Z as [zb Z]. apply Forall_cons_iff in T as [tb T]. simpl in zb, tb.
  destruct (IH Z T) as [A B]. cbn [mul_row]. rewrite !degree_small by mlia.
  destruct (N.ltb_spec k (total a + total b)) as [L|L]; [split; constructor|].
  rewrite madd_plus by mlia. split; constructor; try assumption; simpl.
  - rewrite plus_length; congruence.
  - rewrite total_plus by congruence. mlia.
Qed.
Lemma rows_shadow n k e1 e2 p2 : (k < 65536)%N -> sized n e2 -> sorted graded_less e2 -> small e2 -> shadow e2 p2 ->
  sized n e1 -> sorted graded_less e1 -> small e1 -> forall p1, shadow e1 p1 ->
  exists q, shadow (mul_rows X k e1 e2) q /\ big_O n (Datatypes.S (N.to_nat k)) (fun h => rpoly p1 h * rpoly p2 h - rpoly q h).
Proof.
  intros K Z2 S2 T2 H2. induction e1 as [|[a c] e1 IH]; intros Z S T p H.
  - inversion H; subst. exists []. split; [constructor|]. eapply O_ext; [|apply O_zero]. intros h _; cbv beta; rewrite rpoly_nil; simpl; ring.
  - pose proof H as H'. apply shadow_inv in H' as (r & p' & -> & Hr & H').
    pose proof Z as Z'. apply Forall_cons_iff in Z' as [za Z']. pose proof T as T'. apply Forall_cons_iff in T' as [ta T']. simpl in za, ta.
    pose proof S as S'. apply sorted_inv in S' as [S' _]. cbn [mul_rows]. rewrite !degree_small by mlia.
    destruct (N.ltb_spec k (total a)) as [L|L].
    + exists []. split; [constructor|].
      eapply O_ext; [|apply (O_weaken n (Datatypes.S (N.to_nat k) + 0) (Datatypes.S (N.to_nat k))); [|apply (O_mul n (Datatypes.S (N.to_nat k)) 0 (rpoly ((a, r) :: p')) (rpoly p2))]]; [|mlia| |].
      * intros h _. cbv beta. rewrite rpoly_nil. ring.
      * apply O_rpoly. pose proof (sorted_tail_total _ _ _ S T) as TT.
        assert (B : List.Forall (fun m => length (fst m) = n /\ (Datatypes.S (N.to_nat k) <= N.to_nat (total (fst m)))%nat) ((a, c) :: e1)).
        { constructor; [simpl; split; [exact za | mlia]|]. unfold sized in Z'. rewrite List.Forall_forall in *. intros m I. split; [exact (Z' m I)|].
          specialize (TT m I). simpl in TT. mlia. }
        exact (shadow_forall (fun a0 => length a0 = n /\ (Datatypes.S (N.to_nat k) <= N.to_nat (total a0))%nat) _ _ H B).
      * apply O_rpoly0. eapply shadow_sized; eassumption.
    + destruct (IH Z' S' T' p' H') as (q & Sq & O). destruct (row_shadow n k a c r e2 za K L Hr Z2 S2 T2 p2 H2) as (q' & Sq' & O').
      exists (q' ++ q). split; [now apply shadow_app|].
      eapply O_ext; [|exact (O_add n _ _ _ O' O)]. intros h Lh. cbv beta. rewrite rpoly_app, rpoly_cons. ring.
Qed.
Lemma rows_wf n k e1 e2 : (k < 65536)%N -> sized n e2 -> small e2 -> sized n e1 -> small e1 ->
  sized n (mul_rows X k e1 e2) /\ upto k (mul_rows X k e1 e2).
Proof.
  intros K Z2 T2. induction e1 as [|[a c] e1 IH]; intros Z T; [split; constructor|].
  apply Forall_cons_iff in Z as [za Z]. apply Forall_cons_iff in T as [ta T]. simpl in za, ta. destruct (IH Z T) as [A B].
  cbn [mul_rows]. rewrite degree_small by mlia. destruct (N.ltb_spec k (total a)) as [L|L]; [split; constructor|].
  destruct (row_wf n k a c e2 za K L Z2 T2) as [C D]. split; apply Forall_app; split; assumption.
Qed.

(** ** Differentials *)
Notation wf := (@wf X).
Notation jet := (@jet X holds).
Lemma wf_small d : wf d -> small (d_exp X d).
Proof.
  intros (K & _ & _ & T). unfold small. revert T. apply List.Forall_impl. intros m H. mlia.
Qed.
Lemma wf_make n k e : (k < 65536)%N -> sized n e -> sorted graded_less e -> upto k e -> wf (mkDiff X n k e).
Proof. intros; repeat split; assumption. Qed.

Lemma jet_ext d f g : (forall h, length h = d_as X d -> f h = g h) -> jet d f -> jet d g.
Proof.
  intros Q (p & S & O). exists p. split; [exact S|]. eapply O_ext; [|exact O]. intros h L. simpl. now rewrite Q.
Qed.
Lemma jet_make n k e f p : shadow e p -> big_O n (Datatypes.S (N.to_nat k)) (fun h => f h - rpoly p h) -> jet (mkDiff X n k e) f.
Proof. intros S O. exists p. split; assumption. Qed.

Lemma d_add_wf x y : wf x -> wf y -> d_as X x = d_as X y -> wf (d_add X x y).
Proof.
  intros Wx Wy Q. pose proof (wf_small _ Wx) as Tx. pose proof (wf_small _ Wy) as Ty.
  destruct Wx as (K & Z & S & U), Wy as (K' & Z' & S' & U'). rewrite <- Q in Z'. apply wf_make.
  - mlia. - now apply merge_sized. - eapply merge_sorted; eassumption.
  - eapply merge_upto; try eassumption. destruct (N.min_spec (d_deg X x) (d_deg X y)) as [[_ ->]|[_ ->]]; [now left | now right].
Qed.
Lemma d_sub_wf x y : wf x -> wf y -> d_as X x = d_as X y -> wf (d_sub X x y).
Proof.
  intros Wx Wy Q. pose proof (wf_small _ Wx) as Tx. pose proof (wf_small _ Wy) as Ty.
  destruct Wx as (K & Z & S & U), Wy as (K' & Z' & S' & U'). rewrite <- Q in Z'. apply wf_make.
  - mlia. - now apply merge_sized. - eapply merge_sorted; eassumption.
  - eapply merge_upto; try eassumption. destruct (N.min_spec (d_deg X x) (d_deg X y)) as [[_ ->]|[_ ->]]; [now left | now right].
Qed.
Lemma min_weaken n k l f : big_O n (Datatypes.S (N.to_nat k)) f -> (l <= k)%N -> big_O n (S (N.to_nat l)) f.
Proof. intros O L. eapply O_weaken; [|exact O]. mlia. Qed.
Lemma merge_jet x y f g fx gx sg : wf x -> wf y -> d_as X x = d_as X y ->
  (forall c d r s, holds c r -> holds d s -> holds (fx c d) (r + sg * s)) -> (forall c r, holds c r -> holds (gx c) (sg * r)) ->
  jet x f -> jet y g ->
  jet (mkDiff X (d_as X x) (N.min (d_deg X x) (d_deg X y)) (d_merge X fx gx (N.min (d_deg X x) (d_deg X y)) (d_exp X x) (d_exp X y)))
      (fun h => f h + sg * g h).
Proof.
  intros Wx Wy Q F G (p & Sp & Op) (q & Sq & Oq). pose proof (wf_small _ Wx) as Tx. pose proof (wf_small _ Wy) as Ty.
  destruct Wx as (K & Z & S & U), Wy as (K' & Z' & S' & U'). rewrite <- Q in Z', Oq.
  destruct (merge_shadow _ (N.min (d_deg X x) (d_deg X y)) fx gx sg _ F G Z S Tx p Sp _ q Z' S' Ty Sq) as (r & Sr & Or).
  eapply jet_make; [exact Sr|].
  eapply O_ext; [|exact (O_add _ _ _ _ (O_add _ _ _ _ (min_weaken _ _ _ _ Op (N.le_min_l _ (d_deg X y))) (O_scale _ _ sg _ (min_weaken _ _ _ _ Oq (N.le_min_r (d_deg X x) _)))) Or)].
  intros h _. cbv beta. ring.
Qed.
Lemma d_add_jet x y f g : wf x -> wf y -> d_as X x = d_as X y -> jet x f -> jet y g -> jet (d_add X x y) (fun h => f h + g h).
Proof.
  intros Wx Wy Q F G. eapply jet_ext; [|apply (merge_jet x y f g (x_add X) (fun c => c) 1 Wx Wy Q)]; try assumption.
  - intros h _. cbv beta. ring.
  - intros c d r s A B. rewrite Rmult_1_l. now apply (h_add _ _ E).
  - intros c r A. now rewrite Rmult_1_l.
Qed.
Lemma d_sub_jet x y f g : wf x -> wf y -> d_as X x = d_as X y -> jet x f -> jet y g -> jet (d_sub X x y) (fun h => f h - g h).
Proof.
  intros Wx Wy Q F G. eapply jet_ext; [|apply (merge_jet x y f g (x_sub X) (x_neg X) (-1) Wx Wy Q)]; try assumption.
  - intros h _. cbv beta. ring.
  - intros c d r s A B. replace (r + -1 * s) with (r - s) by ring. now apply (h_sub _ _ E).
  - intros c r A. replace (-1 * r) with (- r) by ring. now apply (h_neg _ _ E).
Qed.
Lemma d_mul_wf x y : wf x -> wf y -> d_as X x = d_as X y -> wf (d_mul X x y).
Proof.
  intros Wx Wy Q. pose proof (wf_small _ Wx) as Tx. pose proof (wf_small _ Wy) as Ty.
  destruct Wx as (K & Z & S & U), Wy as (K' & Z' & S' & U'). rewrite <- Q in Z'.
  destruct (rows_wf _ (N.min (d_deg X x) (d_deg X y)) _ _ ltac:(lia) Z' Ty Z Tx) as [A B].
  destruct (cleanup_wf _ _ _ A B) as (C & D & F). apply wf_make; [lia | exact C | exact D | exact F].
Qed.
Lemma d_mul_jet x y f g : wf x -> wf y -> d_as X x = d_as X y -> jet x f -> jet y g -> jet (d_mul X x y) (fun h => f h * g h).
Proof.
  intros Wx Wy Q (p & Sp & Op) (q & Sq & Oq). pose proof (wf_small _ Wx) as Tx. pose proof (wf_small _ Wy) as Ty.
  destruct Wx as (K & Z & S & U), Wy as (K' & Z' & S' & U'). rewrite <- Q in Z', Oq.
  destruct (rows_shadow _ (N.min (d_deg X x) (d_deg X y)) _ _ q ltac:(lia) Z' S' Ty Sq Z S Tx p Sp) as (r & Sr & Or).
  destruct (cleanup_shadow _ _ _ (proj1 (rows_wf _ (N.min (d_deg X x) (d_deg X y)) _ _ ltac:(lia) Z' Ty Z Tx)) Sr) as (r' & Sr' & V). eapply jet_make; [exact Sr'|].
  pose proof (O_bounded _ _ f p (shadow_sized _ _ _ Sp Z) Op) as Bf. pose proof (O_rpoly0 (d_as X x) q (shadow_sized _ _ _ Sq Z')) as Bq.
  eapply O_ext; [|exact (O_add _ _ _ _ (O_add _ _ _ _ (O_mul _ 0 _ _ _ Bf (min_weaken _ _ _ _ Oq (N.le_min_r (d_deg X x) _)))
     (O_mul _ 0 _ _ _ Bq (min_weaken _ _ _ _ Op (N.le_min_l _ (d_deg X y))))) Or)].
  intros h _. cbv beta. rewrite V. ring.
Qed.
Lemma d_neg_wf x : wf x -> wf (d_neg X x).
Proof.
  intros (K & Z & S & U). apply wf_make; [exact K | exact (images_forall (fun a => length a = d_as X x) _ _ Z) | exact (images_sorted (x_neg X) _ S) | exact (images_forall (fun a => (total a <= d_deg X x)%N) _ _ U)].
Qed.
Lemma d_neg_jet x f : jet x f -> jet (d_neg X x) (fun h => - f h).
Proof.
  intros (p & Sp & Op). destruct (images_shadow (x_neg X) (-1) _ _ ltac:(intros c r H; replace (-1 * r) with (- r) by ring; now apply (h_neg _ _ E)) Sp) as (q & Sq & V).
  eapply jet_make; [exact Sq|]. eapply O_ext; [|exact (O_neg _ _ _ Op)]. intros h _. cbv beta. rewrite V. ring.
Qed.
Lemma d_mulc_wf x c : wf x -> wf (d_mulc X x c).
Proof.
  intros (K & Z & S & U). apply wf_make; [exact K | | |]; destruct (x_is0 X c); try constructor.
  - exact (images_forall (fun a => length a = d_as X x) (fun v => x_mul X v c) _ Z). - exact (images_sorted (fun v => x_mul X v c) _ S).
  - exact (images_forall (fun a => (total a <= d_deg X x)%N) (fun v => x_mul X v c) _ U).
Qed.
Lemma d_mulc_jet x f c r : wf x -> holds c r -> jet x f -> jet (d_mulc X x c) (fun h => f h * r).
Proof.
  intros (K & Z & S & U) H (p & Sp & Op). unfold d_mulc. destruct (x_is0 X c) eqn:Q.
  - rewrite (h_is0 _ _ E c r Q H). eapply jet_make; [constructor|]. eapply O_ext; [|apply O_zero]. intros h _. cbv beta. rewrite rpoly_nil. simpl. ring.
  - destruct (images_shadow (fun v => x_mul X v c) r _ _ ltac:(intros v s A; rewrite Rmult_comm; now apply (h_mul _ _ E)) Sp) as (q & Sq & V).
    eapply jet_make; [exact Sq|]. eapply O_ext; [|exact (O_scale _ _ r _ Op)]. intros h _. cbv beta. rewrite V. ring.
Qed.
Lemma zeros_least n a : length a = n -> (total a < 65536)%N -> a <> zeros n -> graded_less (zeros n) a = true.
Proof.
  intros L T N. unfold graded_less. rewrite !degree_small by (rewrite ?total_zeros0; lia). rewrite total_zeros0.
  destruct (N.eqb_spec 0 (total a)) as [Q|Q]; [|apply N.ltb_lt; lia].
  exfalso. apply N. symmetry in Q. apply Poly_Proofs.total_zero in Q. rewrite Q, L. reflexivity.
Qed.
Lemma d_addc_wf x c : wf x -> wf (d_addc X x c).
Proof.
  intros W. pose proof (wf_small _ W) as T. destruct W as (K & Z & S & U). unfold d_addc. apply wf_make; [exact K | | |].
  - destruct (d_exp X x) as [|[a d] e]; [constructor; [apply length_zeros | constructor]|]. destruct (mi_eqb a (zeros (d_as X x))).
    + apply Forall_cons_iff in Z as [A B]. constructor; assumption.
    + constructor; [apply length_zeros | exact Z].
  - destruct (d_exp X x) as [|[a d] e]; [repeat constructor|]. destruct (mi_eqb a (zeros (d_as X x))) eqn:Q.
    + apply sorted_inv in S as [S S']. apply sorted_cons; assumption.
    + apply mi_eqb_neq in Q. pose proof Z as Z'. apply Forall_cons_iff in Z' as [za Z']. pose proof T as T'. apply Forall_cons_iff in T' as [ta T']. simpl in za, ta.
      pose proof (zeros_least _ a za ta Q) as L. apply sorted_cons; [exact S|]. intros b d' [I|I]; [injection I as <- <-; exact L|].
      apply sorted_inv in S as [_ S']. unfold sized in Z'. rewrite List.Forall_forall in Z'. pose proof (Z' _ I) as zb. simpl in zb.
      apply (less_trans _ graded_less (graded_order _) _ a b (length_zeros _) za zb L (S' _ _ I)).
  - destruct (d_exp X x) as [|[a d] e]; [constructor; [simpl; rewrite total_zeros0; lia | constructor]|]. destruct (mi_eqb a (zeros (d_as X x))).
    + apply Forall_cons_iff in U as [A B]. constructor; assumption.
    + constructor; [simpl; rewrite total_zeros0; lia | exact U].
Qed.
Lemma d_addc_jet x f c r : holds c r -> jet x f -> jet (d_addc X x c) (fun h => f h + r).
Proof.
  intros H (p & Sp & Op). unfold d_addc. destruct (d_exp X x) as [|[a d] e] eqn:Q.
  - inversion Sp; subst. eapply jet_make; [apply shadow_cons; [exact H | constructor]|]. eapply O_ext; [|exact Op].
    intros h _. cbv beta. rewrite rpoly_cons, monom_zeros1. ring.
  - destruct (mi_eqb a (zeros (d_as X x))) eqn:Za.
    + apply mi_eqb_eq in Za as ->. apply shadow_inv in Sp as (s & p' & -> & Hs & S).
      eapply jet_make; [apply shadow_cons; [apply (h_add _ _ E); eassumption | exact S]|]. eapply O_ext; [|exact Op].
      intros h _. cbv beta. rewrite !rpoly_cons, monom_zeros1. ring.
    + eapply jet_make; [apply shadow_cons; [exact H | exact Sp]|]. eapply O_ext; [|exact Op].
      intros h _. cbv beta. rewrite rpoly_cons, monom_zeros1. ring.
Qed.
Lemma d_constant_wf n k c : (k < 65536)%N -> wf (d_constant X n k c).
Proof.
  intros K. apply wf_make; [exact K | constructor; [apply length_zeros | constructor] | repeat constructor | constructor; [simpl; rewrite total_zeros0; lia | constructor]].
Qed.
Lemma d_constant_jet n k c r : holds c r -> jet (d_constant X n k c) (fun _ => r).
Proof.
  intros H. eapply jet_make; [apply shadow_cons; [exact H | constructor]|]. eapply O_ext; [|apply O_zero].
  intros h _. cbv beta. rewrite rpoly_cons, rpoly_nil, monom_zeros1. ring.
Qed.
End Ring.
