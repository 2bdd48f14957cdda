(** * Existence of the product of multivariate Chebyshev polynomials *)

From Coq Require Import List Arith NArith Bool Sorted Lia.
From Verif Require Import Poly_Model Cheb_Model MCheb_Model MCheb_Proofs MProd_Model.
Import ListNotations.

Lemma eq_sym_up k : forall a b, equal_up_to a b k = true -> equal_up_to b a k = true.
Proof. induction k; intros [|i a] [|j b] H; cbn [equal_up_to] in *; auto; try discriminate. rewrite N.eqb_sym. destruct (N.eqb i j); auto. Qed.
Lemma lex_mid k : forall s t u, lexicographic_less s t = true -> lexicographic_less t u = true -> equal_up_to s u k = true -> equal_up_to t s k = true.
Proof.
  unfold lexicographic_less. induction k; intros [|x s] [|y t] [|z u] A B C; cbn [equal_up_to first_diff] in *; auto; try discriminate.
  destruct (N.eqb_spec x z) as [->|]; [|discriminate]. rewrite (N.eqb_sym y z) in *. destruct (N.eqb_spec z y) as [->|N1].
  - eapply IHk; eauto.
  - apply N.ltb_lt in A. apply N.ltb_lt in B. lia.
Qed.
Lemma lex_nth k : forall s t, lexicographic_less s t = true -> equal_up_to s t k = true -> (nth k s 0 <= nth k t 0)%N.
Proof.
  unfold lexicographic_less. induction k; intros [|x s] [|y t] A C; cbn [equal_up_to first_diff nth] in *; try discriminate.
  - destruct (N.eqb_spec x y) as [->|]; [lia|]. apply N.ltb_lt in A. lia.
  - destruct (N.eqb_spec x y) as [->|]; [|discriminate]. apply IHk; auto.
Qed.

Section Exists.
Context {X M : Type} (O : ops X M) (same0 : X -> bool) (n : nat).
Definition lex_sorted (l : mterms X) : Prop := StronglySorted (fun s t : mi * X => lexicographic_less (fst s) (fst t) = true) l.
Definition deg (k : nat) (t : mi * X) : nat := N.to_nat (nth k (fst t) 0%N).

Lemma last_ge a k : forall l i, lex_sorted l -> (forall t, In t l -> equal_up_to (fst t) a k = true -> i <= deg k t) -> i <= last_degree a k l i.
Proof.
  induction l as [|[s c] l IH]; intros i S H; cbn [last_degree]; auto. destruct (equal_up_to s a k) eqn:Es; auto.
  inversion_clear S as [|? ? S' F]. transitivity (N.to_nat (nth k s 0%N)); [apply (H (s, c)); [left|]; auto|]. apply IH; auto.
  intros t I Et. rewrite Forall_forall in F. specialize (F t I). cbn [fst] in F. unfold deg.
  pose proof (lex_nth k _ _ F (equal_trans k _ _ _ Es (eq_sym_up _ _ _ Et))). lia.
Qed.
Lemma last_bound a k : forall l i t, lex_sorted l -> In t l -> equal_up_to (fst t) a k = true ->
  (match l with [] => True | s :: _ => equal_up_to (fst s) a k = true end) -> deg k t <= last_degree a k l i.
Proof.
  induction l as [|[s c] l IH]; intros i t S I Et Hs; [contradiction|]. cbn [last_degree fst] in *. rewrite Hs. inversion_clear S as [|? ? S' F].
  destruct I as [<-|I].
  - unfold deg at 1. cbn [fst]. apply last_ge; auto. intros u Iu Eu. rewrite Forall_forall in F. specialize (F u Iu). cbn [fst] in F.
    pose proof (lex_nth k _ _ F (equal_trans k _ _ _ Hs (eq_sym_up _ _ _ Eu))). unfold deg. lia.
  - apply IH; auto. destruct l as [|u l]; auto. rewrite Forall_forall in F. destruct I as [->|I]; auto.
    inversion_clear S' as [|? ? S'' F']. rewrite Forall_forall in F'. pose proof (F u (or_introl eq_refl)) as A. pose proof (F' t I) as B. cbn [fst] in A.
    pose proof (lex_mid k s (fst u) (fst t) A B (equal_trans k _ _ _ Hs (eq_sym_up _ _ _ Et))) as Q. apply (equal_trans k _ _ _ Q Hs).
Qed.
(** A proper tail of a list. *)
Definition tail_of (q l : mterms X) : Prop := exists p, p <> [] /\ l = p ++ q.
Lemma tail_len q l : tail_of q l -> length q < length l.
Proof. intros (p & N & ->). rewrite app_length. destruct p; [contradiction|]. cbn [length]. lia. Qed.
Lemma tail_sorted q l : tail_of q l -> lex_sorted l -> lex_sorted q.
Proof. intros (p & _ & ->). induction p as [|t p IH]; cbn [app]; auto. intros S. inversion_clear S. auto. Qed.
Lemma tail_trans p q l : tail_of p q -> tail_of q l -> tail_of p l.
Proof. intros (a & A & ->) (b & B & ->). exists (b ++ a). split; [destruct b; [contradiction|discriminate]|apply app_assoc]. Qed.
Lemma tail_in t q l : tail_of q l -> In t q -> In t l.
Proof. intros (p & _ & ->) I. apply in_or_app. auto. Qed.
Lemma m_upd_some p b : forall i, i < length b -> exists r, m_upd O b i p = Some r /\ length r = length b.
Proof.
  induction b as [|q b IH]; intros [|i] L; cbn [length m_upd] in *; try lia; [eexists; split; reflexivity|].
  destruct (IH i ltac:(lia)) as (r & -> & Lr). eexists. split; [reflexivity|]. cbn [length]. lia.
Qed.
(** [q] is [l] or a tail of it. *)
Definition within (q l : mterms X) : Prop := q = l \/ tail_of q l.
Lemma within_in t q l : within q l -> In t q -> In t l.
Proof. intros [->|H]; auto. apply tail_in. auto. Qed.
Lemma within_sorted q l : within q l -> lex_sorted l -> lex_sorted q.
Proof. intros [->|H]; auto. apply tail_sorted. auto. Qed.
Lemma within_tail p q l : tail_of p q -> within q l -> tail_of p l.
Proof. intros A [->|B]; auto. eapply tail_trans; eauto. Qed.

Lemma mul_exists m : forall k, k + m = n -> forall l1 l2, l1 <> [] -> l2 <> [] -> lex_sorted l1 -> lex_sorted l2 ->
  Forall (fun t : mi * X => length (fst t : list N) = n) l1 -> Forall (fun t : mi * X => length (fst t : list N) = n) l2 ->
  exists r q1 q2, mul_from O same0 n m k l1 l2 = Some (r, q1, q2) /\ tail_of q1 l1 /\ tail_of q2 l2.
Proof.
  induction m as [|m IH]; intros k K l1 l2 N1 N2 S1 S2 L1 L2; destruct l1 as [|[a1 w1] t1]; try contradiction; destruct l2 as [|[a2 w2] t2]; try contradiction; cbn [mul_from].
  - do 3 eexists. split; [reflexivity|]. split; [exists [(a1, w1)]|exists [(a2, w2)]]; split; auto; discriminate.
  - set (l1 := (a1, w1) :: t1) in *. set (l2 := (a2, w2) :: t2) in *.
    match goal with |- context [match (?o (length l1) _ _ _ _) with _ => _ end] => set (outer := o) end.
    match goal with outer := context [match ?i (length l2) _ _ _ _ with _ => _ end] |- _ => set (inner := i) in outer end.
    set (imax := last_degree a1 k l1 0 + last_degree a2 k l2 0).
    assert (equal_up_to a1 a1 k = true) as R1 by (apply equal_refl; inversion_clear L1 as [|? ? A _]; cbn [fst] in A; lia).
    assert (equal_up_to a2 a2 k = true) as R2 by (apply equal_refl; inversion_clear L2 as [|? ? A _]; cbn [fst] in A; lia).
    assert (forall f2 from1 curr1 curr2 b, within from1 l1 -> within curr2 l2 -> length curr2 <= f2 -> length b = imax + 1 ->
      match from1 with [] => False | t :: _ => equal_up_to (fst t) a1 k = true end ->
      exists b' p1 p2, inner f2 from1 curr1 curr2 b = Some (b', p1, p2) /\ length b' = imax + 1 /\
        (p2 = curr2 \/ tail_of p2 curr2) /\
        (match curr2 with [] => p1 = curr1 | t :: _ => if equal_up_to (fst t) a2 k then tail_of p1 from1 /\ tail_of p2 curr2 else p1 = curr1 end)) as IN.
    { induction f2 as [|f2 IHf]; intros from1 curr1 curr2 b W1 W2 Lf Lb Hd.
      - destruct curr2; cbn [length] in Lf; [|lia]. exists b, curr1, []. repeat split; auto.
      - destruct curr2 as [|[d2 v2] curr2]; [exists b, curr1, []; repeat split; auto|]. cbn [inner]. fold inner. cbn [fst].
        destruct (equal_up_to d2 a2 k) eqn:Eq.
        2:{ do 3 eexists. split; [reflexivity|]. auto. }
        destruct from1 as [|[d1 v1] from1]; [contradiction|].
        assert (Forall (fun t : mi * X => length (fst t : list N) = n) ((d1, v1) :: from1)) as La
          by (rewrite Forall_forall in *; intros t I; apply L1; eapply within_in; eauto).
        assert (Forall (fun t : mi * X => length (fst t : list N) = n) ((d2, v2) :: curr2)) as Lc
          by (rewrite Forall_forall in *; intros t I; apply L2; eapply within_in; eauto).
        destruct (IH (S k) ltac:(lia) ((d1, v1) :: from1) ((d2, v2) :: curr2) ltac:(discriminate) ltac:(discriminate)
          (within_sorted _ _ W1 S1) (within_sorted _ _ W2 S2) La Lc) as (p & x1 & x2 & -> & T1 & T2).
        assert (N.to_nat (nth k d1 0%N) <= last_degree a1 k l1 0) as B1
          by (apply (last_bound a1 k l1 0 (d1, v1)); auto; eapply within_in; eauto; left; auto).
        assert (N.to_nat (nth k d2 0%N) <= last_degree a2 k l2 0) as B2
          by (apply (last_bound a2 k l2 0 (d2, v2)); auto; eapply within_in; eauto; left; auto).
        destruct (m_upd_some p b (distance (N.to_nat (nth k d1 0%N)) (N.to_nat (nth k d2 0%N)))) as (b1 & -> & Lb1); [unfold distance, imax in *; lia|].
        destruct (m_upd_some p b1 (N.to_nat (nth k d1 0%N) + N.to_nat (nth k d2 0%N))) as (b2 & -> & Lb2); [unfold imax in *; lia|].
        destruct (IHf ((d1, v1) :: from1) x1 x2 b2 W1) as (b' & p1 & p2 & -> & Lb' & Q1 & Q2); auto.
        { right. eapply within_tail; eauto. }
        { pose proof (tail_len _ _ T2). lia. }
        { lia. }
        assert (tail_of p2 ((d2, v2) :: curr2)) as T2' by (destruct Q1 as [->|Q1]; auto; eapply tail_trans; eauto).
        do 3 eexists. split; [reflexivity|]. split; [exact Lb'|]. split; [auto|]. split; [|exact T2'].
        destruct x2 as [|t x2]; [subst p1; exact T1|]. destruct (equal_up_to (fst t) a2 k); [destruct Q2; auto|subst p1; exact T1]. }
    assert (forall f1 from1 curr1 curr2 b, within from1 l1 -> length from1 <= f1 -> length b = imax + 1 -> (from1 = l1 \/ tail_of curr2 l2) ->
      exists b' p1 p2, outer f1 from1 curr1 curr2 b = Some (b', p1, p2) /\ (p1 = from1 \/ tail_of p1 from1) /\ (from1 = l1 -> tail_of p1 l1) /\ tail_of p2 l2) as OUT.
    { induction f1 as [|f1 IHf]; intros from1 curr1 curr2 b W1 Lf Lb T.
      - destruct from1; cbn [length] in Lf; [|lia]. exists b, [], curr2. destruct T as [T|T]; [discriminate T|]. repeat split; auto. discriminate.
      - destruct from1 as [|[d1 v1] from1].
        { exists b, [], curr2. destruct T as [T|T]; [discriminate T|]. repeat split; auto. discriminate. }
        cbn [outer]. fold outer. destruct (equal_up_to d1 a1 k) eqn:Eq.
        2:{ exists b, ((d1, v1) :: from1), curr2. split; [reflexivity|]. split; [auto|].
            assert ((d1, v1) :: from1 <> l1) as Nl by (intros Q; injection Q as Q _ _; subst d1; rewrite R1 in Eq; discriminate).
            split; [contradiction|]. destruct T; [contradiction|auto]. }
        destruct (IN (length l2) ((d1, v1) :: from1) curr1 l2 b W1 (or_introl eq_refl) (le_n _) Lb Eq) as (b1 & x1 & x2 & -> & Lb1 & _ & Q).
        unfold l2 in Q at 1. cbn [fst] in Q. rewrite R2 in Q. destruct Q as [T1 T2].
        destruct (IHf x1 x1 x2 b1) as (b' & p1 & p2 & -> & P1 & _ & P2); auto.
        { right. eapply within_tail; eauto. }
        { pose proof (tail_len _ _ T1). lia. }
        assert (tail_of p1 ((d1, v1) :: from1)) as T' by (destruct P1 as [->|P1]; auto; eapply tail_trans; eauto).
        do 3 eexists. split; [reflexivity|]. split; [auto|]. split; [intros <-; exact T'|exact P2]. }
    destruct (OUT (length l1) l1 l1 l2 (repeat [] (imax + 1)) (or_introl eq_refl) (le_n _) (repeat_length _ _) (or_introl eq_refl)) as (b & p1 & p2 & Eo & _ & P1 & P2).
    rewrite Eo. do 3 eexists. split; [reflexivity|]. auto.
Qed.
Lemma m_mul_exists p q : p <> [] -> q <> [] -> lex_sorted p -> lex_sorted q ->
  Forall (fun t : mi * X => length (fst t : list N) = n) p -> Forall (fun t : mi * X => length (fst t : list N) = n) q ->
  exists r, m_mul O same0 n p q = Some r.
Proof.
  intros Np Nq Sp Sq Lp Lq. unfold m_mul. destruct (mul_exists n 0 eq_refl p q Np Nq Sp Sq Lp Lq) as (r & q1 & q2 & -> & _). eauto.
Qed.
Lemma lex_irrefl a : lexicographic_less a a = false.
Proof. unfold lexicographic_less. induction a; cbn [first_diff]; auto. rewrite N.eqb_refl. auto. Qed.
Lemma sorted_distinct p : lex_sorted p -> NoDup (map fst p).
Proof.
  induction 1 as [|t p S IH F]; cbn [map]; constructor; auto. intros I. apply in_map_iff in I as (u & Eu & I). rewrite Forall_forall in F.
  specialize (F u I). cbn beta in F. rewrite Eu, lex_irrefl in F. discriminate.
Qed.
End Exists.
