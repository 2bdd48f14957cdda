(** * Properties C33, C34, C35, C52: multi-indices, expansions, evaluation *)

From Coq Require Import ZArith NArith List Bool Arith Sorted Permutation Lia Ring.
From Verif Require Import LRU_Model Poly_Model Poly_Spec Poly_Proofs.
Import ListNotations.

(** ** C33 *)
(** The orders are strict and total on the indices of each size, even when a
    degree overflows. *)
Theorem C33_total_orders : forall n, strict_total_order n graded_less /\ strict_total_order n lexicographic_less /\
  strict_total_order n reverse_lexicographic_less.
Proof. split; [apply graded_order|]. split; [apply lexicographic_order|apply reverse_order]. Qed.
Print Assumptions C33_total_orders.

(** What each order is, in terms of entries and the mathematical degree. *)
Theorem C33_meaning : forall a b, length a = length b ->
  (lexicographic_less a b = true <-> exists p x y q r, a = p ++ x :: q /\ b = p ++ y :: r /\ (x < y)%N) /\
  (reverse_lexicographic_less a b = true <-> exists p x y q r, a = q ++ x :: p /\ b = r ++ y :: p /\ (x > y)%N) /\
  ((total a < 65536)%N -> (total b < 65536)%N ->
   (graded_less a b = true <-> (total a < total b)%N \/
      (total a = total b /\ exists p x y q r, a = p ++ x :: q /\ b = p ++ y :: r /\ (x > y)%N))).
Proof.
  assert (forall (less : N -> N -> bool) (P : N -> N -> Prop), (forall x y, less x y = true <-> P x y) -> (forall x, ~ P x x) ->
          forall a b, length a = length b ->
          (first_diff less a b = true <-> exists p x y q r, a = p ++ x :: q /\ b = p ++ y :: r /\ P x y)) as FD.
  { intros less P LP Irr. induction a as [|x a IH]; intros [|y b] L; try discriminate.
    - split; [discriminate|]. intros ([|] & ? & ? & ? & ? & E & _); discriminate.
    - cbn [first_diff]. cbn in L. destruct (N.eqb_spec x y) as [->|NE].
      + rewrite IH by lia. split.
        * intros (p & u & v & q & r & -> & -> & H). exists (y :: p), u, v, q, r. auto.
        * intros ([|w p] & u & v & q & r & E & F & H); cbn in E, F; injection E as; injection F as; subst.
          -- exfalso. eapply Irr; eauto.
          -- exists p, u, v, q, r. auto.
      + rewrite LP. split.
        * intros H. exists [], x, y, a, b. auto.
        * intros ([|w p] & u & v & q & r & E & F & H); cbn in E, F; injection E as; injection F as; subst; auto; congruence. }
  intros a b L.
  assert (forall x y, gtb x y = true <-> (x > y)%N) as G by (intros; unfold gtb; rewrite N.ltb_lt; lia).
  split; [apply FD; auto; [intros; apply N.ltb_lt|intros; lia]|]. split.
  - unfold reverse_lexicographic_less. rewrite (FD gtb (fun x y => (x > y)%N)) by (auto; intros; rewrite ?rev_length; lia). split.
    + intros (p & x & y & q & r & E & F & H). exists (rev p), x, y, (rev q), (rev r).
      split; [|split]; auto.
      * rewrite <- (rev_involutive a), E, rev_app_distr. cbn. rewrite <- app_assoc. auto.
      * rewrite <- (rev_involutive b), F, rev_app_distr. cbn. rewrite <- app_assoc. auto.
    + intros (p & x & y & q & r & -> & -> & H). exists (rev p), x, y, (rev q), (rev r).
      rewrite !rev_app_distr. cbn. rewrite <- !app_assoc. auto.
  - intros Ta Tb. unfold graded_less. rewrite !degree_small by auto.
    destruct (N.eqb_spec (total a) (total b)) as [E|E].
    + rewrite (FD gtb (fun x y => (x > y)%N)) by (auto; intros; lia). split; [auto|]. intros [K|K]; [lia|tauto].
    + rewrite N.ltb_lt. split; auto. intros [K|K]; tauto.
Qed.
Print Assumptions C33_meaning.

(** Adding the same index on both sides, when no entry overflows. *)
Theorem C33_addition : forall a b c, length a = length c -> length b = length c ->
  Forall (fun x => (x < 65536)%N) (plus a c) -> Forall (fun x => (x < 65536)%N) (plus b c) ->
  exists ac bc, mi_add a c = Ret ac /\ mi_add b c = Ret bc /\
  lexicographic_less ac bc = lexicographic_less a b /\
  reverse_lexicographic_less ac bc = reverse_lexicographic_less a b /\
  ((total ac < 65536)%N -> (total bc < 65536)%N -> graded_less ac bc = graded_less a b).
Proof.
  intros a b c La Lb Fa Fb. exists (plus a c), (plus b c).
  rewrite !mi_add_small by auto. split; auto. split; auto.
  split; [apply lexicographic_plus; auto|]. split; [apply reverse_plus; auto|]. intros. apply graded_plus; auto.
Qed.
Print Assumptions C33_addition.

Example C33_addition_case :
  graded_less [2; 1; 0]%N [1; 1; 2]%N = true /\
  mi_add [2; 1; 0]%N [0; 5; 7]%N = Ret [2; 6; 7]%N /\ mi_add [1; 1; 2]%N [0; 5; 7]%N = Ret [1; 6; 9]%N /\
  graded_less [2; 6; 7]%N [1; 6; 9]%N = true /\ reverse_lexicographic_less [2; 6; 7]%N [1; 6; 9]%N = false.
Proof. repeat split. Qed.

(** Subtraction undoes addition, and is refused below zero. *)
Theorem C33_subtraction : forall a b, length a = length b -> mi_sub (plus a b) b = Ret a /\
  (forall r, mi_sub a b = Ret r -> a = plus r b).
Proof.
  intros a b L. split; [apply mi_sub_plus; auto|]. revert b L.
  induction a as [|x a IH]; intros [|y b] L r; cbn in *; try discriminate.
  - intros [= <-]. auto.
  - destruct (N.ltb_spec x y); [discriminate|]. specialize (IH b ltac:(lia)).
    destruct (mi_sub a b) as [r'| |]; try discriminate. intros [= <-]. cbn. rewrite <- IH by auto. f_equal. lia.
Qed.
Print Assumptions C33_subtraction.

(** When the degree reaches 2^16 it wraps: the graded order is then neither by
    degree nor compatible with addition, although every entry is in range. *)
Theorem C33_overflow_refuted : exists a b c ac bc, is_mi 2 a /\ is_mi 2 b /\ is_mi 2 c /\ is_mi 2 ac /\ is_mi 2 bc /\
  mi_add a c = Ret ac /\ mi_add b c = Ret bc /\ graded_less a b = true /\ (total ac < total bc)%N /\ graded_less ac bc = false.
Proof.
  exists [0; 1]%N, [0; 2]%N, [65534; 0]%N, [65534; 1]%N, [65534; 2]%N.
  unfold is_mi. repeat split; repeat (constructor; try lia).
Qed.
Print Assumptions C33_overflow_refuted.

(** ** C52 *)
(** The increment steps to the next index in the graded order. *)
Theorem C52_next_partial : forall n a r, length a = n -> (total a + 1 < 65536)%N -> mi_next a = Ret r ->
  length r = n /\ total r = total a /\ graded_less a r = true /\
  (forall c, length c = n -> (total c < 65536)%N -> graded_less a c = true -> c = r \/ graded_less r c = true).
Proof.
  intros n a r L T E. unfold mi_next in E. destruct (mi_step a) as [[r' [|]]| |] eqn:S; try discriminate.
  injection E as <-. destruct (mi_step_next n a r' false L T S) as (A & B & C & D & F).
  split; auto. split; auto. destruct C as [C|C]; auto. apply D in C. discriminate.
Qed.
Print Assumptions C52_next_partial.

(** The same for the value left in the n cells, whether or not the increment
    also touches the cell after them. *)
Theorem C52_next_value : forall n a r o, length a = n -> (total a + 1 < 65536)%N -> mi_step a = Ret (r, o) ->
  length r = n /\ graded_less a r = true /\
  (forall c, length c = n -> (total c < 65536)%N -> graded_less a c = true -> c = r \/ graded_less r c = true).
Proof. intros n a r o L T E. destruct (mi_step_next n a r o L T E) as (A & B & C & D & F). auto. Qed.
Print Assumptions C52_next_value.

(** It touches that cell exactly when the degree increases. *)
Theorem C52_out_of_bounds : forall n a, length a = n -> n <> 0%nat -> (total a + 1 < 65536)%N ->
  (mi_next a = UB <-> exists k d, a = repeat 0%N k ++ [d]) /\ mi_next a <> AssertFail.
Proof.
  intros n a L N0 T. assert (a <> []) as NE by (intros ->; cbn in L; congruence). unfold mi_next.
  destruct (mi_step_shape a NE) as [(k & li & -> & ->)|(pre & q & k & li & Q & -> & ->)].
  - split; [|discriminate]. split; auto. intros _. exists k, li. auto.
  - split; [|discriminate]. split; [discriminate|]. intros (k' & d & E). exfalso.
    assert (In q (repeat 0%N k' ++ [d])) as I by (rewrite <- E; apply in_or_app; right; left; auto).
    apply Q. assert (length (pre ++ q :: zeros k ++ [li]) = length (repeat 0%N k' ++ [d])) as LE by congruence.
    replace (pre ++ q :: zeros k ++ [li]) with ((pre ++ q :: zeros k) ++ [li]) in E by (rewrite <- app_assoc; auto).
    apply app_inj_tail in E. destruct E as [E _].
    assert (In q (repeat 0%N k')) as I' by (rewrite <- E; apply in_or_app; right; left; auto).
    eapply repeat_spec; eauto.
Qed.
Print Assumptions C52_out_of_bounds.

Theorem C52_refuted : exists a, is_mi 2 a /\ mi_next a = UB.
Proof. exists [0; 3]%N. unfold is_mi. repeat split; repeat (constructor; try lia). Qed.
Print Assumptions C52_refuted.

Example C52_next_case : mi_next [2; 3; 0; 0; 4]%N = Ret [2; 2; 5; 0; 0]%N.
Proof. reflexivity. Qed.

(** ** C34 and C35, over any commutative ring *)
Section Ring.
Context {R : Type} {rO rI : R} {radd rmul rsub : R -> R -> R} {ropp : R -> R}
        (Rth : ring_theory rO rI radd rmul rsub ropp (@eq R)).
Add Ring Rring : Rth.
Notation "x + y" := (radd x y).
Notation "x * y" := (rmul x y).
Notation "x - y" := (rsub x y).
Notation poly := (poly rO rI radd rmul).
Notation monom := (monom rI rmul).
Notation poly1 := (poly1 rO rI radd rmul).
Notation coef := (coef rO radd).

(** Sorting, combining, removing zeros and adding terms. *)
Theorem C34_poly : forall (e : list (mi * R)) x,
  (forall less e', sort_result less e e' -> poly e' x = poly e x) /\
  poly (combine_terms radd e) x = poly e x /\
  (forall is0, (forall c, is0 c = true -> c = rO) -> poly (remove_zeros is0 e) x = poly e x) /\
  (forall a c, poly (e_append e a c) x = poly e x + c * monom a x) /\
  (forall a c, poly (e_prepend e a c) x = poly e x + c * monom a x) /\
  (forall a c, poly (e_set e a c) x = poly e x + (c - e_get rO e a) * monom a x).
Proof.
  intros e x. split; [intros less e' [P _]; apply (poly_perm Rth); apply Permutation_sym; auto|].
  split; [apply (poly_combine Rth)|]. split; [intros; apply (poly_remove_zeros Rth); auto|].
  split; [intros; unfold e_append; rewrite (poly_app Rth); cbn; ring|].
  split; [intros; cbn; ring|]. intros. apply (poly_set Rth).
Qed.

(** The same for the coefficients. *)
Theorem C34_coef : forall (e : list (mi * R)) b,
  (forall less e', sort_result less e e' -> coef e' b = coef e b) /\
  coef (combine_terms radd e) b = coef e b /\
  (forall is0, (forall c, is0 c = true -> c = rO) -> coef (remove_zeros is0 e) b = coef e b) /\
  (NoDup (map fst e) -> e_get rO e b = coef e b) /\
  (forall a c, e_get rO (e_set e a c) b = if list_eq_dec N.eq_dec a b then c else e_get rO e b).
Proof.
  intros e b. split; [intros less e' [P _]; apply (coef_perm Rth); apply Permutation_sym; auto|].
  split; [apply (coef_combine Rth)|]. split; [intros; apply (coef_remove_zeros Rth); auto|].
  split; [intros; symmetry; apply (coef_get Rth); auto|].
  intros. destruct list_eq_dec as [<-|NE]; [apply get_set|apply get_set_other; auto].
Qed.

(** Combining a sorted expansion leaves strictly increasing, so distinct,
    indices; removing zeros leaves none. *)
Theorem C34_combine_sorted : forall n less, strict_total_order n less -> forall e e' : list (mi * R),
  sized n e -> sort_result less e e' ->
  sized n (combine_terms radd e') /\ sorted less (combine_terms radd e') /\ NoDup (map fst (combine_terms radd e')).
Proof.
  intros n less O e e' Z S.
  assert (sized n (combine_terms radd e')) as Z'.
  { apply combine_sized. destruct S as [P _]. unfold sized in *. eapply Permutation_Forall; eauto. }
  assert (sorted less (combine_terms radd e')) as S' by exact (combine_sorted n less O e e' Z S).
  split; auto. split; auto. eapply sorted_nodup; eauto.
Qed.
Theorem C34_remove_zeros : forall is0 (e : list (mi * R)) a c, In (a, c) (remove_zeros is0 e) <-> In (a, c) e /\ is0 c = false.
Proof. intros. unfold remove_zeros. rewrite filter_In. cbn. rewrite negb_true_iff. tauto. Qed.

(** Embedding into more variables ignores the new ones. *)
Theorem C34_embed : forall n (e : list (mi * R)) u x v, sized n e -> length x = n ->
  poly (e_embed (length u) (length v) e) (u ++ x ++ v) = poly e x.
Proof. intros. eapply (poly_embed Rth); eauto. Qed.

(** Sorted expansions: lookup, update and insertion, for any strict total order. *)
Theorem C34_sorted_operations : forall n less, strict_total_order n less -> forall (e : list (mi * R)) a,
  sized n e -> sorted less e -> length a = n ->
  s_get rO less e a = coef e a /\
  (forall c, sized n (s_set less e a c) /\ sorted less (s_set less e a c) /\
     forall b, coef (s_set less e a c) b = if list_eq_dec N.eq_dec a b then c else coef e b) /\
  (forall c, s_insert less e a c = if in_dec (list_eq_dec N.eq_dec) a (map fst e) then None else Some (s_set less e a c)).
Proof.
  intros n less O e a Z S La. split; [apply (s_get_coef Rth n less O); auto|].
  split; [intros; apply (s_set_ok Rth n less O); auto|].
  intros c. pose proof (s_insert_set less e a c) as K. pose proof (s_insert_none n less O e a c Z S La) as M.
  assert ((exists d, In (a, d) e) <-> In a (map fst e)) as I.
  { rewrite in_map_iff. split; [intros [d I]; exists (a, d); auto|intros ([a' d] & E & I); cbn in E; subst; eauto]. }
  rewrite I in M. destruct in_dec as [H|H].
  - apply M; auto.
  - destruct (s_insert less e a c); [congruence|]. exfalso. apply H, M. auto.
Qed.
Theorem C34_check : forall n less, strict_total_order n less -> forall e : list (mi * R), sized n e ->
  (s_check less e = true <-> sorted less e).
Proof. intros. eapply s_check_sorted; eauto. Qed.
(** The comparison of sorted expansions terminates and decides whether all
    coefficients agree; absent terms count as zero. *)
Theorem C34_equality : forall n less, strict_total_order n less -> forall req, (forall c d : R, req c d = true <-> c = d) ->
  forall e1 e2 : list (mi * R), sized n e1 -> sized n e2 -> sorted less e1 -> sorted less e2 ->
  exists b, (forall fuel, (length e1 + length e2 < fuel)%nat -> s_equal rO less req fuel e1 e2 = Some b) /\
            (b = true <-> forall a, coef e1 a = coef e2 a).
Proof.
  intros n less O req Q e1 e2 Z1 Z2 S1 S2.
  destruct (s_equal_ok Rth n less O req Q (S (length e1 + length e2)) e1 e2 Z1 Z2 S1 S2 (Nat.lt_succ_diag_r _)) as (b & E & H).
  exists b. split; auto. intros fuel F. destruct (s_equal_ok Rth n less O req Q fuel e1 e2 Z1 Z2 S1 S2 F) as (b' & E' & H').
  rewrite E'. f_equal. apply eq_true_iff_eq. rewrite H, H'. reflexivity.
Qed.

(** ** C35 *)
(** For terms with n exponents and an argument of at least n components:
    the value of the polynomial when the terms are strictly increasing in the
    reverse lexicographic order, a failed assertion otherwise. *)
Theorem C35_horner : forall n (e : list (mi * R)) x, (n <= length x)%nat -> sized n e ->
  (sorted reverse_lexicographic_less e -> horner_evaluate rO radd rmul n e x = Ret (poly e x)) /\
  (~ sorted reverse_lexicographic_less e -> horner_evaluate rO radd rmul n e x = AssertFail).
Proof. intros n e x L Z. destruct (horner_ok Rth n e x L Z) as [[A B]|[A B]]; tauto. Qed.
(** Evaluation by powers needs no order and allows repeated indices. *)
Theorem C35_power : forall (e : list (mi * R)) x, power_evaluate rO rI radd rmul e x = poly e x.
Proof. intros. apply (power_evaluate_ok Rth). Qed.
(** The two agree after sorting and combining. *)
Theorem C35_agree : forall n (e e' : list (mi * R)) x, (n <= length x)%nat -> sized n e ->
  sort_result reverse_lexicographic_less e e' ->
  horner_evaluate rO radd rmul n (combine_terms radd e') x = Ret (power_evaluate rO rI radd rmul e x).
Proof.
  intros n e e' x L Z S. destruct (C34_combine_sorted n _ (reverse_order n) e e' Z S) as (Z' & S' & _).
  rewrite (proj1 (C35_horner n _ x L Z') S'). f_equal. rewrite C35_power.
  destruct (C34_poly e' x) as (_ & -> & _). destruct (C34_poly e x) as (K & _). apply (K _ _ S).
Qed.

(** The univariate version leaves out the factor x^a for the lowest exponent
    a.  It is right when a constant term is present. *)
Theorem C35_univariate_partial : forall (e : list (N * R)) x, decreasing e ->
  exists v, horner1_evaluate rO radd rmul e x = Ret v /\
  v * power rI rmul x (N.to_nat (lowest e)) = poly1 e x /\ (lowest e = 0%N -> v = poly1 e x).
Proof.
  intros e x D. assert (exists v, horner1_evaluate rO radd rmul e x = Ret v) as [v E].
  { destruct e as [|[a c] e]; cbn; eauto. apply horner1_loop_ret; auto. }
  exists v. pose proof (horner1_ok Rth x e v E) as H. split; auto. split; auto.
  intros Z. rewrite Z in H. cbn in H. rewrite <- H. ring.
Qed.
(** Terms that do not decrease are refused. *)
Theorem C35_univariate_refused : forall (e : list (N * R)) x v, horner1_evaluate rO radd rmul e x = Ret v -> decreasing e.
Proof.
  assert (forall (e : list (N * R)) x a r v, horner1_loop radd rmul x a r e = Ret v -> decreasing ((a, r) :: e)) as K.
  { induction e as [|[na c] e IH]; intros x a r v; cbn [horner1_loop].
    - intros _. constructor; constructor.
    - destruct (N.leb_spec a na); [discriminate|]. intros E. apply IH in E.
      inversion_clear E. constructor; [constructor; auto|]. constructor; auto.
      eapply Forall_impl; [|exact H1]. cbn. intros [b d]. cbn. lia. }
  intros [|[a c] e] x v E; [constructor|]. eapply K; eauto.
Qed.
End Ring.
Print Assumptions C34_poly. Print Assumptions C34_coef. Print Assumptions C34_combine_sorted. Print Assumptions C34_remove_zeros.
Print Assumptions C34_embed. Print Assumptions C34_sorted_operations. Print Assumptions C34_check. Print Assumptions C34_equality.
Print Assumptions C35_horner. Print Assumptions C35_power. Print Assumptions C35_agree.
Print Assumptions C35_univariate_partial. Print Assumptions C35_univariate_refused.

(** x at x=2 evaluates to 1. *)
Theorem C35_univariate_refuted : exists (e : list (N * Z)) x, decreasing e /\
  horner1_evaluate 0%Z Z.add Z.mul e x = Ret 1%Z /\ poly1 0%Z 1%Z Z.add Z.mul e x = 2%Z.
Proof. exists [(1%N, 1%Z)], 2%Z. split; [constructor; constructor|]. split; reflexivity. Qed.
Print Assumptions C35_univariate_refuted.

(** Cases over the integers: 3x^2y^2 + 5xy^2 - y^2 + 2x^4y + 7x + 1. *)
Definition ex_e : list (mi * Z) :=
  [([2;2]%N, 3); ([1;2]%N, 5); ([0;2]%N, -1); ([4;1]%N, 2); ([1;0]%N, 7); ([0;0]%N, 1)]%Z.
Example C35_horner_case : sorted reverse_lexicographic_less ex_e /\ sized 2 ex_e /\
  horner_evaluate 0%Z Z.add Z.mul 2 ex_e [2; 3]%Z = Ret (3*4*9 + 5*2*9 - 9 + 2*16*3 + 7*2 + 1)%Z.
Proof. split; [repeat constructor|]. split; [repeat constructor|]. reflexivity. Qed.
Example C34_case : combine_terms Z.add [([0;1]%N, 2); ([0;1]%N, -2); ([1;0]%N, 4); ([1;0]%N, 3)]%Z = [([0;1]%N, 0); ([1;0]%N, 7)]%Z /\
  s_equal 0%Z graded_less Z.eqb 4 [([0;1]%N, 0%Z); ([2;0]%N, 7%Z)] [([2;0]%N, 7%Z)] = Some true /\
  s_get 0%Z graded_less [([1;0]%N, 4%Z); ([0;1]%N, 5%Z)] [0;1]%N = 5%Z.
Proof. repeat split. Qed.
Example C34_sort_case : sort_result graded_less [([0;1]%N, 2); ([1;0]%N, 3); ([0;1]%N, 5)]%Z [([1;0]%N, 3); ([0;1]%N, 2); ([0;1]%N, 5)]%Z.
Proof. split; [apply perm_swap|repeat constructor]. Qed.
