(** * Proofs about multi-indices, expansions and Horner evaluation *)

From Coq Require Import NArith List Bool Arith Sorted Permutation Lia Ring.
From Verif Require Import LRU_Model Poly_Model Poly_Spec.
Import ListNotations.

(** ** Orders *)
Lemma mi_eqb_eq a : forall b, mi_eqb a b = true <-> a = b.
Proof.
  induction a as [|x a IH]; intros [|y b]; cbn; try (split; intros; congruence).
  destruct (N.eqb_spec x y).
  - rewrite IH. split; intros; congruence.
  - split; intros; congruence.
Qed.
Lemma mi_eqb_neq a b : mi_eqb a b = false <-> a <> b.
Proof. rewrite <- mi_eqb_eq. destruct (mi_eqb a b); split; congruence. Qed.
Lemma mi_eqb_refl a : mi_eqb a a = true.
Proof. apply mi_eqb_eq; auto. Qed.

Definition lt_order (less : N -> N -> bool) : Prop :=
  (forall x, less x x = false) /\ (forall x y z, less x y = true -> less y z = true -> less x z = true) /\
  (forall x y, x = y \/ less x y = true \/ less y x = true).
Lemma ltb_order : lt_order N.ltb.
Proof.
  repeat split; intros.
  - apply N.ltb_irrefl.
  - rewrite N.ltb_lt in *. lia.
  - rewrite !N.ltb_lt. lia.
Qed.
Lemma gtb_order : lt_order gtb.
Proof.
  unfold gtb. repeat split; intros.
  - apply N.ltb_irrefl.
  - rewrite N.ltb_lt in *. lia.
  - rewrite !N.ltb_lt. lia.
Qed.

Section FD.
Context (less : N -> N -> bool) (O : lt_order less).
Lemma fd_irrefl a : first_diff less a a = false.
Proof. induction a as [|x a IH]; cbn; auto. rewrite N.eqb_refl. auto. Qed.
Lemma fd_trans a : forall b c, length a = length b -> length b = length c ->
  first_diff less a b = true -> first_diff less b c = true -> first_diff less a c = true.
Proof.
  destruct O as (Oi & Ot & _).
  induction a as [|x a IH]; intros [|y b] [|z c] H1 H2; cbn in *; try discriminate.
  destruct (N.eqb_spec x y), (N.eqb_spec y z), (N.eqb_spec x z); subst; intros A B; eauto; try congruence.
  specialize (Ot _ _ _ A B). rewrite Oi in Ot. discriminate.
Qed.
Lemma fd_total a : forall b, length a = length b -> a = b \/ first_diff less a b = true \/ first_diff less b a = true.
Proof.
  destruct O as (_ & _ & Oc).
  induction a as [|x a IH]; intros [|y b] H; cbn in *; try discriminate; auto.
  rewrite (N.eqb_sym y x). destruct (N.eqb_spec x y) as [->|NE].
  - destruct (IH b ltac:(lia)) as [->|[K|K]]; auto.
  - destruct (Oc x y) as [E|[K|K]]; auto.
Qed.
Lemma fd_order n : strict_total_order n (first_diff less).
Proof.
  split; [|split]; intros.
  - apply fd_irrefl.
  - apply fd_trans with b; auto; congruence.
  - apply fd_total. congruence.
Qed.
End FD.

Lemma lexicographic_order n : strict_total_order n lexicographic_less.
Proof. apply fd_order, ltb_order. Qed.
Lemma reverse_order n : strict_total_order n reverse_lexicographic_less.
Proof.
  destruct (fd_order gtb gtb_order n) as (Ri & Rt & Rc). unfold reverse_lexicographic_less.
  split; [|split]; intros.
  - apply Ri. rewrite rev_length; auto.
  - apply Rt with (rev b); rewrite ?rev_length; auto.
  - destruct (Rc (rev a) (rev b)) as [E|[K|K]]; rewrite ?rev_length; auto.
    left. rewrite <- (rev_involutive a), E, rev_involutive. auto.
Qed.
Lemma graded_order n : strict_total_order n graded_less.
Proof.
  destruct (fd_order gtb gtb_order n) as (Ri & Rt & Rc). unfold graded_less.
  split; [|split]; intros.
  - rewrite N.eqb_refl. auto.
  - revert H2 H3. destruct (N.eqb_spec (degree a) (degree b)) as [E|E], (N.eqb_spec (degree b) (degree c)) as [F|F],
      (N.eqb_spec (degree a) (degree c)) as [G|G]; intros A B; rewrite ?N.ltb_lt in *; try lia; eauto.
  - rewrite (N.eqb_sym (degree b)). destruct (N.eqb_spec (degree a) (degree b)) as [E|E]; auto.
    rewrite !N.ltb_lt. lia.
Qed.

(** Addition *)
Lemma w16_small x : (x < 65536)%N -> w16 x = x.
Proof. apply N.mod_small. Qed.
Lemma mi_add_small a : forall b, length a = length b -> Forall (fun x => (x < 65536)%N) (plus a b) -> mi_add a b = Ret (plus a b).
Proof.
  induction a as [|x a IH]; intros [|y b] L F; cbn in *; try discriminate; auto.
  inversion_clear F. rewrite IH by (auto; lia). rewrite w16_small; auto.
Qed.
Lemma mi_sub_plus a : forall b, length a = length b -> mi_sub (plus a b) b = Ret a.
Proof.
  induction a as [|x a IH]; intros [|y b] L; cbn in *; try discriminate; auto.
  destruct (N.ltb_spec (x + y) y); [lia|]. rewrite IH by lia. do 2 f_equal. lia.
Qed.
Lemma plus_length a : forall b, length a = length b -> length (plus a b) = length a.
Proof. induction a as [|x a IH]; intros [|y b] L; cbn in *; try discriminate; auto. Qed.
Lemma plus_app a b : forall a' b', length a = length a' -> plus (a ++ b) (a' ++ b') = plus a a' ++ plus b b'.
Proof. induction a as [|x a IH]; intros [|y a'] b' L; cbn in *; try discriminate; auto. rewrite IH; auto. Qed.
Lemma plus_rev a : forall b, length a = length b -> rev (plus a b) = plus (rev a) (rev b).
Proof.
  induction a as [|x a IH]; intros [|y b] L; cbn in *; try discriminate; auto.
  rewrite IH, plus_app by (rewrite ?rev_length; lia). reflexivity.
Qed.
Lemma fd_plus less : (forall x y z, less (x + z)%N (y + z)%N = less x y) ->
  forall a b c, length a = length c -> length b = length c -> first_diff less (plus a c) (plus b c) = first_diff less a b.
Proof.
  intros T. induction a as [|x a IH]; intros [|y b] [|z c] L M; cbn in *; try discriminate; auto.
  destruct (N.eqb_spec (x + z) (y + z)), (N.eqb_spec x y); try lia; auto.
Qed.
Lemma gtb_plus x y z : gtb (x + z) (y + z) = gtb x y.
Proof. unfold gtb. destruct (N.ltb_spec (y + z) (x + z)), (N.ltb_spec y x); auto; lia. Qed.
Lemma ltb_plus x y z : ((x + z) <? (y + z))%N = (x <? y)%N.
Proof. apply (gtb_plus y x z). Qed.

Lemma fold_degree a : forall d, (d < 65536)%N -> fold_left (fun d x => w16 (d + x)) a d = ((d + total a) mod 65536)%N.
Proof.
  induction a as [|x a IH]; intros d H; cbn [fold_left total fold_right].
  - rewrite N.add_0_r, N.mod_small; auto.
  - rewrite IH by (apply N.mod_lt; lia). unfold w16, total. rewrite N.add_mod_idemp_l by lia. f_equal. lia.
Qed.
Lemma degree_total a : degree a = (total a mod 65536)%N.
Proof. unfold degree. rewrite fold_degree by lia. f_equal. Qed.
Lemma degree_small a : (total a < 65536)%N -> degree a = total a.
Proof. intros. rewrite degree_total. apply N.mod_small; auto. Qed.
Lemma total_plus a : forall b, length a = length b -> total (plus a b) = (total a + total b)%N.
Proof.
  unfold total. induction a as [|x a IH]; intros [|y b] L; cbn in *; try discriminate; auto. rewrite IH by lia. lia.
Qed.
Lemma total_le a : Forall (fun x => (x <= total a)%N) a.
Proof.
  induction a as [|x a IH]; constructor; unfold total in *; cbn [fold_right].
  - lia.
  - eapply Forall_impl; [|exact IH]. cbn. intros. lia.
Qed.
Lemma small_entries a : (total a < 65536)%N -> Forall (fun x => (x < 65536)%N) a.
Proof. intros H. eapply Forall_impl; [|apply total_le]. cbn. intros. lia. Qed.

Lemma total_app a b : total (a ++ b) = (total a + total b)%N.
Proof. unfold total. induction a; cbn; auto. rewrite IHa. lia. Qed.

Lemma graded_plus a b c : length a = length c -> length b = length c ->
  (total (plus a c) < 65536)%N -> (total (plus b c) < 65536)%N ->
  graded_less (plus a c) (plus b c) = graded_less a b.
Proof.
  intros La Lb Ta Tb. unfold graded_less. rewrite (degree_small _ Ta), (degree_small _ Tb).
  rewrite total_plus in * by auto. rewrite !total_plus by auto.
  rewrite !degree_small by lia.
  rewrite fd_plus by auto using gtb_plus. rewrite ltb_plus.
  destruct (N.eqb_spec (total a + total c) (total b + total c)), (N.eqb_spec (total a) (total b)); auto; lia.
Qed.
Lemma reverse_plus a b c : length a = length c -> length b = length c ->
  reverse_lexicographic_less (plus a c) (plus b c) = reverse_lexicographic_less a b.
Proof.
  intros La Lb. unfold reverse_lexicographic_less. rewrite !plus_rev by auto.
  apply fd_plus; rewrite ?rev_length; auto using gtb_plus.
Qed.
Lemma lexicographic_plus a b c : length a = length c -> length b = length c ->
  lexicographic_less (plus a c) (plus b c) = lexicographic_less a b.
Proof. intros. apply fd_plus; auto using ltb_plus. Qed.

(** ** The increment *)
Definition zeros (k : nat) : mi := repeat 0%N k.
Lemma zeros_snoc k : zeros k ++ [0%N] = 0%N :: zeros k.
Proof. symmetry. apply (repeat_cons k 0%N). Qed.
Lemma rev_zeros k : rev (zeros k) = zeros k.
Proof. induction k; cbn; auto. unfold zeros in IHk. rewrite IHk. apply zeros_snoc. Qed.
Lemma bump_shape li rest :
  (exists k, rest = zeros k /\ bump li rest = (zeros k ++ [w16 (li + 1)], true)) \/
  (exists k q pre, q <> 0%N /\ rest = zeros k ++ q :: pre /\ bump li rest = (zeros k ++ w16 (li + 1) :: (q - 1)%N :: pre, false)).
Proof.
  induction rest as [|q rest IH]; cbn [bump].
  - left. exists 0. auto.
  - destruct (N.eqb_spec q 0) as [->|Q].
    + destruct IH as [(k & -> & E)|(k & q & pre & Q & -> & E)]; rewrite E.
      * left. exists (S k). auto.
      * right. exists (S k), q, pre. auto.
    + right. exists 0, q, rest. auto.
Qed.
Lemma mi_step_shape a : a <> [] ->
  (exists k li, a = zeros k ++ [li] /\ mi_step a = Ret (w16 (li + 1) :: zeros k, true)) \/
  (exists pre q k li, q <> 0%N /\ a = pre ++ q :: zeros k ++ [li] /\
     mi_step a = Ret (pre ++ (q - 1)%N :: w16 (li + 1) :: zeros k, false)).
Proof.
  intros NE. unfold mi_step. destruct (rev a) as [|li rest] eqn:E.
  - exfalso. apply NE. rewrite <- (rev_involutive a), E. auto.
  - assert (a = rev rest ++ [li]) as -> by (rewrite <- (rev_involutive a), E; auto).
    destruct (bump_shape li rest) as [(k & -> & ->)|(k & q & pre & Q & -> & ->)].
    + left. exists k, li. rewrite rev_app_distr. cbn [rev app]. rewrite !rev_zeros. auto.
    + right. exists (rev pre), q, k, li. split; auto. rewrite !rev_app_distr. cbn [rev].
      rewrite !rev_zeros. rewrite <- !app_assoc. cbn [app]. auto.
Qed.

Lemma total_zeros k : total (zeros k) = 0%N.
Proof. unfold total, zeros. induction k; cbn; auto. Qed.
Lemma total_cons x a : total (x :: a) = (x + total a)%N.
Proof. reflexivity. Qed.
Lemma total_zero a : total a = 0%N -> a = zeros (length a).
Proof.
  induction a as [|x a IH]; auto. rewrite total_cons. intros. cbn. unfold zeros in IH. rewrite <- IH by lia. f_equal. lia.
Qed.
Lemma fd_app less p : forall a b, first_diff less (p ++ a) (p ++ b) = first_diff less a b.
Proof. induction p; intros; cbn; auto. rewrite N.eqb_refl. auto. Qed.
(** (d,0,...,0) is the first index of its degree. *)
Lemma first_of_degree k d c : length c = S k -> total c = d -> c = d :: zeros k \/ first_diff gtb (d :: zeros k) c = true.
Proof.
  intros L T. destruct c as [|y c]; [discriminate|]. rewrite total_cons in T. cbn [first_diff].
  destruct (N.eqb_spec d y) as [->|NE].
  - left. f_equal. assert (total c = 0%N) as Z by lia. apply total_zero in Z. rewrite Z. cbn in L. do 2 f_equal. lia.
  - right. unfold gtb. apply N.ltb_lt. lia.
Qed.
(** (0,...,0,d) is the last. *)
Lemma last_of_degree k d : forall c, length c = S k -> total c = d -> first_diff gtb (zeros k ++ [d]) c = false.
Proof.
  induction k as [|k IH]; intros [|y c] L T; try discriminate; cbn [zeros repeat app first_diff].
  - destruct c; [|discriminate]. cbn in T. destruct (N.eqb_spec d y); auto. lia.
  - destruct (N.eqb_spec 0 y) as [<-|NE].
    + apply IH; auto.
    + unfold gtb. apply N.ltb_ge. lia.
Qed.
Lemma step_between pre : forall q k li c, q <> 0%N -> length c = length (pre ++ q :: zeros k ++ [li]) ->
  total c = total (pre ++ q :: zeros k ++ [li]) -> first_diff gtb (pre ++ q :: zeros k ++ [li]) c = true ->
  c = pre ++ (q - 1)%N :: (li + 1)%N :: zeros k \/ first_diff gtb (pre ++ (q - 1)%N :: (li + 1)%N :: zeros k) c = true.
Proof.
  induction pre as [|p pre IH]; intros q k li [|y c] Q L T H; try discriminate; cbn [app] in *.
  - cbn [first_diff] in H. rewrite !total_cons, total_app, total_zeros, total_cons in T. cbn [total fold_right] in T.
    cbn [length] in L. injection L as L. rewrite app_length in L. unfold zeros in L. rewrite repeat_length in L. cbn in L.
    destruct (N.eqb_spec q y) as [->|NE].
    + fold (zeros k) in H. rewrite last_of_degree in H; [discriminate|lia|lia].
    + unfold gtb in H. apply N.ltb_lt in H. destruct (N.eq_dec y (q - 1)) as [->|NY].
      * destruct (first_of_degree k (li + 1)%N c ltac:(lia) ltac:(lia)) as [->|F]; auto.
        right. cbn [first_diff]. rewrite N.eqb_refl. exact F.
      * right. cbn [first_diff]. destruct (N.eqb_spec (q - 1) y); [lia|]. unfold gtb. apply N.ltb_lt. lia.
  - cbn [first_diff] in *. rewrite !total_cons in T. cbn in L. destruct (N.eqb_spec p y) as [->|NE].
    + destruct (IH q k li c Q ltac:(lia) ltac:(lia) H) as [->|F]; auto.
    + auto.
Qed.
(** The increment gives the next index in the graded order. *)
Lemma mi_step_next n a r o : length a = n -> (total a + 1 < 65536)%N -> mi_step a = Ret (r, o) ->
  length r = n /\ graded_less a r = true /\
  (total r = total a \/ total r = total a + 1)%N /\
  (o = true <-> total r = total a + 1)%N /\
  (forall c, length c = n -> (total c < 65536)%N -> graded_less a c = true -> c = r \/ graded_less r c = true).
Proof.
  intros L T E. assert (a <> []) as NE by (intros ->; discriminate).
  destruct (mi_step_shape a NE) as [(k & li & -> & S)|(pre & q & k & li & Q & -> & S)]; rewrite S in E; injection E as <- <-.
  - rewrite total_app, total_zeros in T. rewrite total_cons in T. cbn [total fold_right] in T.
    rewrite w16_small by lia. rewrite app_length in L. unfold zeros in L. rewrite repeat_length in L. cbn in L.
    assert (total (zeros k ++ [li]) = li) as Ta by (rewrite total_app, total_zeros, total_cons; cbn; lia).
    assert (total ((li + 1)%N :: zeros k) = (li + 1)%N) as Tr by (rewrite total_cons, total_zeros; lia).
    split; [cbn; unfold zeros; rewrite repeat_length; lia|].
    split. { unfold graded_less. rewrite !degree_small by (rewrite ?Ta, ?Tr; lia). rewrite Ta, Tr.
             destruct (N.eqb_spec li (li + 1)); [lia|]. apply N.ltb_lt. lia. }
    split; [rewrite Ta, Tr; auto|]. split; [rewrite Ta, Tr; split; auto|].
    intros c Lc Tc G. unfold graded_less in *. rewrite !degree_small in * by (rewrite ?Ta, ?Tr; lia). rewrite Ta, Tr in *.
    destruct (N.eqb_spec li (total c)) as [E|E].
    + rewrite last_of_degree in G by lia. discriminate.
    + apply N.ltb_lt in G. destruct (N.eqb_spec (li + 1) (total c)) as [E'|E'].
      * apply first_of_degree; auto. lia.
      * right. apply N.ltb_lt. lia.
  - assert (total (pre ++ q :: zeros k ++ [li]) = (total pre + q + li)%N) as Ta.
    { rewrite total_app, total_cons, total_app, total_zeros, total_cons. cbn. lia. }
    rewrite w16_small by lia.
    assert (total (pre ++ (q - 1)%N :: (li + 1)%N :: zeros k) = (total pre + q + li)%N) as Tr.
    { rewrite total_app, !total_cons, total_zeros. lia. }
    rewrite !app_length in L. cbn in L. rewrite app_length in L. unfold zeros in L. rewrite repeat_length in L. cbn in L.
    split; [rewrite app_length; cbn; unfold zeros; rewrite repeat_length; lia|].
    split. { unfold graded_less. rewrite !degree_small by lia. rewrite Ta, Tr, N.eqb_refl.
             rewrite fd_app. cbn [first_diff]. destruct (N.eqb_spec q (q - 1)); [lia|]. unfold gtb. apply N.ltb_lt. lia. }
    split; [rewrite Ta, Tr; auto|]. split; [rewrite Ta, Tr; split; [discriminate|lia]|].
    intros c Lc Tc G. unfold graded_less in *. rewrite !degree_small in * by lia. rewrite Ta, Tr in *.
    destruct (N.eqb_spec (total pre + q + li) (total c)) as [E|E].
    + apply step_between; auto; [|lia]. rewrite app_length; cbn; rewrite app_length; unfold zeros; rewrite repeat_length; cbn. lia.
    + auto.
Qed.

(** ** Polynomials *)
Section Ring.
Context {R : Type} {rO rI : R} {radd rmul rsub : R -> R -> R} {ropp : R -> R}
        (Rth : ring_theory rO rI radd rmul rsub ropp (@eq R)).
Add Ring Rring : Rth.
Notation "x + y" := (radd x y).
Notation "x * y" := (rmul x y).
Notation "x - y" := (rsub x y).
Notation poly := (poly rO rI radd rmul).
Notation monom := (monom rI rmul).
Notation power := (power rI rmul).
Notation coef := (coef rO radd).
Notation expansion := (expansion (R:=R)).

Lemma mul_n_power t x n : mul_n rmul t x n = t * power x (N.to_nat n).
Proof.
  unfold mul_n. rewrite N2Nat.inj_iter. induction (N.to_nat n) as [|k IH]; cbn [Nat.iter nat_rect Poly_Spec.power] in *.
  - ring.
  - unfold Nat.iter in *. cbn [nat_rect]. rewrite IH. ring.
Qed.
Lemma power_add x m n : power x (m + n) = power x m * power x n.
Proof. induction m; cbn. - ring. - rewrite IHm. ring. Qed.

Lemma poly_app e1 e2 x : poly (e1 ++ e2) x = poly e1 x + poly e2 x.
Proof. induction e1 as [|[a c] e1 IH]; cbn. - ring. - rewrite IH. ring. Qed.
Lemma poly_perm e1 e2 x : Permutation e1 e2 -> poly e1 x = poly e2 x.
Proof. induction 1 as [|[a c] l l' _ IH|[a c] [b d] l|]; cbn; try ring; try congruence. Qed.
Lemma coef_perm e1 e2 a : Permutation e1 e2 -> coef e1 a = coef e2 a.
Proof.
  induction 1 as [|[b c] l l' _ IH|[b c] [b' d] l|]; cbn; try congruence.
  - destruct list_eq_dec; congruence.
  - destruct list_eq_dec, list_eq_dec; auto. ring.
Qed.
Lemma coef_app e1 e2 a : coef (e1 ++ e2) a = coef e1 a + coef e2 a.
Proof. induction e1 as [|[b c] e1 IH]; cbn. - ring. - destruct list_eq_dec; rewrite IH; ring. Qed.

Lemma poly_combine_from e x : forall a c, poly (combine_from radd a c e) x = c * monom a x + poly e x.
Proof.
  induction e as [|[b d] e IH]; intros a c; cbn [combine_from].
  - reflexivity.
  - destruct (mi_eqb b a) eqn:E.
    + apply mi_eqb_eq in E. subst b. rewrite IH. cbn [Poly_Spec.poly]. ring.
    + cbn [Poly_Spec.poly]. rewrite IH. ring.
Qed.
Lemma poly_combine e x : poly (combine_terms radd e) x = poly e x.
Proof. destruct e as [|[a c] e]; auto. apply poly_combine_from. Qed.
Lemma coef_combine_from e b : forall a c, coef (combine_from radd a c e) b = coef ((a, c) :: e) b.
Proof.
  induction e as [|[a' d] e IH]; intros a c; cbn [combine_from]; auto.
  destruct (mi_eqb a' a) eqn:E.
  - apply mi_eqb_eq in E. subst a'. rewrite IH. cbn [Poly_Spec.coef]. destruct list_eq_dec; ring.
  - cbn [Poly_Spec.coef]. rewrite IH. cbn [Poly_Spec.coef]. auto.
Qed.
Lemma coef_combine e b : coef (combine_terms radd e) b = coef e b.
Proof. destruct e as [|[a c] e]; auto. apply coef_combine_from. Qed.

Lemma poly_remove_zeros is0 e x : (forall c, is0 c = true -> c = rO) -> poly (remove_zeros is0 e) x = poly e x.
Proof.
  intros Z. induction e as [|[a c] e IH]; auto. unfold remove_zeros in *. cbn [filter snd].
  destruct (is0 c) eqn:E; cbn [negb Poly_Spec.poly]; rewrite IH; auto. rewrite (Z _ E). ring.
Qed.
Lemma coef_remove_zeros is0 e b : (forall c, is0 c = true -> c = rO) -> coef (remove_zeros is0 e) b = coef e b.
Proof.
  intros Z. induction e as [|[a c] e IH]; auto. unfold remove_zeros in *. cbn [filter snd].
  destruct (is0 c) eqn:E; cbn [negb Poly_Spec.coef]; rewrite IH; auto. rewrite (Z _ E). destruct list_eq_dec; auto. ring.
Qed.
Lemma remove_zeros_nonzero is0 (e : expansion) a c : In (a, c) (remove_zeros is0 e) -> is0 c = false.
Proof. unfold remove_zeros. rewrite filter_In. cbn. intros [_ H]. destruct (is0 c); auto; discriminate. Qed.

Lemma get_set e a c : e_get rO (e_set e a c) a = c.
Proof.
  induction e as [|[b d] e IH]; cbn.
  - rewrite mi_eqb_refl. auto.
  - destruct (mi_eqb b a) eqn:E; cbn; rewrite E; auto.
Qed.
Lemma get_set_other e a b c : a <> b -> e_get rO (e_set e a c) b = e_get rO e b.
Proof.
  intros NE. induction e as [|[b' d] e IH]; cbn.
  - apply mi_eqb_neq in NE. rewrite NE. auto.
  - destruct (mi_eqb b' a) eqn:E; cbn.
    + apply mi_eqb_eq in E. subst b'. apply mi_eqb_neq in NE. rewrite NE. auto.
    + destruct (mi_eqb b' b); auto.
Qed.
Lemma poly_set e a c x : poly (e_set e a c) x = poly e x + (c - e_get rO e a) * monom a x.
Proof.
  induction e as [|[b d] e IH]; cbn.
  - ring.
  - destruct (mi_eqb b a) eqn:E; cbn.
    + apply mi_eqb_eq in E. subst b. ring.
    + rewrite IH. ring.
Qed.
Lemma coef_get (e : expansion) a : NoDup (map fst e) -> coef e a = e_get rO e a.
Proof.
  induction e as [|[b c] e IH]; cbn; auto. intros N. inversion_clear N.
  destruct (list_eq_dec N.eq_dec b a) as [->|NE].
  - rewrite mi_eqb_refl. assert (coef e a = rO) as ->; [|ring].
    clear IH H0. induction e as [|[b d] e IH]; cbn; auto. cbn in H. destruct list_eq_dec; [tauto|]. apply IH. tauto.
  - apply mi_eqb_neq in NE. rewrite NE. auto.
Qed.

Lemma monom_app a : forall b x y, length a = length x -> monom (a ++ b) (x ++ y) = monom a x * monom b y.
Proof.
  induction a as [|n a IH]; intros b [|z x] y L; cbn in *; try discriminate.
  - ring.
  - rewrite IH by lia. ring.
Qed.
Lemma monom_zeros k : forall x, monom (repeat 0%N k) x = rI.
Proof. induction k as [|k IH]; intros [|y x]; cbn; auto. rewrite IH. ring. Qed.
Lemma poly_embed n e u x v : sized n e -> length x = n ->
  poly (e_embed (length u) (length v) e) (u ++ x ++ v) = poly e x.
Proof.
  intros S L. induction e as [|[a c] e IH]; auto. cbn. inversion_clear S. cbn in H.
  rewrite monom_app by apply repeat_length. rewrite monom_app by congruence. rewrite !monom_zeros.
  rewrite <- (IH H0). unfold e_embed. ring.
Qed.

(** *** Sorted expansions *)
Section Sorted.
Context (n : nat) (less : mi -> mi -> bool) (O : strict_total_order n less).
Notation sorted := (sorted (R:=R) less).
Notation sized := (sized (R:=R) n).

Lemma less_irrefl a : length a = n -> less a a = false. Proof. apply O. Qed.
Lemma less_trans a b c : length a = n -> length b = n -> length c = n -> less a b = true -> less b c = true -> less a c = true.
Proof. apply O. Qed.
Lemma less_total a b : length a = n -> length b = n -> a <> b -> less a b = false -> less b a = true.
Proof. intros La Lb NE H. destruct O as (_ & _ & T). destruct (T a b La Lb) as [E|[K|K]]; congruence. Qed.
Lemma less_neq a b : length a = n -> less a b = true -> a <> b.
Proof. intros L H ->. rewrite less_irrefl in H; congruence. Qed.
Lemma less_asym a b : length a = n -> length b = n -> less a b = true -> less b a = false.
Proof.
  intros La Lb H. destruct (less b a) eqn:E; auto. rewrite <- (less_irrefl a La). symmetry. apply (less_trans a b a); auto.
Qed.

Lemma sorted_inv a c e : sorted ((a, c) :: e) -> sorted e /\ (forall b d, In (b, d) e -> less a b = true).
Proof.
  intros S. inversion_clear S. split; auto. intros b d I. rewrite Forall_forall in H0. apply (H0 (b, d)); auto.
Qed.
Lemma sorted_cons a c e : sorted e -> (forall b d, In (b, d) e -> less a b = true) -> sorted ((a, c) :: e).
Proof. intros S H. constructor; auto. apply Forall_forall. intros [b d] I. apply (H b d I). Qed.
Lemma sized_inv a c e : sized ((a, c) :: e) -> length a = n /\ sized e.
Proof. intros S. inversion_clear S. auto. Qed.
Lemma sized_in a c e : sized e -> In (a, c) e -> length a = n.
Proof. intros S I. unfold sized, Poly_Spec.sized in S. rewrite Forall_forall in S. apply (S (a, c) I). Qed.
Lemma sorted_nodup e : sized e -> sorted e -> NoDup (map fst e).
Proof.
  induction e as [|[a c] e IH]; cbn; intros Z S; [constructor|].
  destruct (sized_inv _ _ _ Z) as [La Ze], (sorted_inv _ _ _ S) as [Se H]. constructor; auto.
  rewrite in_map_iff. intros ([b d] & E & I). cbn in E. subst b. apply H in I. rewrite less_irrefl in I; auto. discriminate.
Qed.
Lemma coef_absent (e : expansion) a : (forall b d, In (b, d) e -> b <> a) -> coef e a = rO.
Proof.
  induction e as [|[b d] e IH]; cbn; auto. intros H.
  destruct list_eq_dec; [exfalso; eapply H; eauto|]. apply IH. intros. eapply H; eauto.
Qed.
Lemma s_get_coef e a : sized e -> sorted e -> length a = n -> s_get rO less e a = coef e a.
Proof.
  induction e as [|[b c] e IH]; cbn; auto. intros Z S La.
  destruct (sized_inv _ _ _ Z) as [Lb Ze], (sorted_inv _ _ _ S) as [Se H].
  destruct (less b a) eqn:E.
  - destruct list_eq_dec; [exfalso; eapply less_neq; eauto|]. auto.
  - destruct (mi_eqb b a) eqn:Q.
    + apply mi_eqb_eq in Q. subst b. destruct list_eq_dec; [|congruence].
      rewrite coef_absent; [ring|]. intros b d I Q. subst. apply H in I. congruence.
    + apply mi_eqb_neq in Q. destruct list_eq_dec; [congruence|]. symmetry. apply coef_absent.
      intros b' d I ->. apply H in I. congruence.
Qed.
Lemma s_set_in (e : expansion) a c b d : In (b, d) (s_set less e a c) -> (b = a) \/ In (b, d) e.
Proof.
  induction e as [|[b' d'] e IH]; cbn.
  - intros [[= <- <-]|[]]. auto.
  - destruct (less b' a).
    + intros [[= <- <-]|I]; auto. destruct (IH I); auto.
    + destruct (mi_eqb b' a) eqn:Q.
      * apply mi_eqb_eq in Q. intros [[= <- <-]|I]; auto.
      * intros [[= <- <-]|I]; auto.
Qed.
Lemma s_set_ok (e : expansion) a c : sized e -> sorted e -> length a = n ->
  sized (s_set less e a c) /\ sorted (s_set less e a c) /\
  (forall b, coef (s_set less e a c) b = if list_eq_dec N.eq_dec a b then c else coef e b).
Proof.
  induction e as [|[b d] e IH]; cbn [s_set]; intros Z S La.
  - split; [constructor; auto; constructor|]. split; [apply sorted_cons; [constructor|intros ? ? []]|].
    intros b. cbn. destruct list_eq_dec; auto. ring.
  - destruct (sized_inv _ _ _ Z) as [Lb Ze], (sorted_inv _ _ _ S) as [Se H].
    destruct (less b a) eqn:E.
    + destruct (IH Ze Se La) as (A & B & C). split; [constructor; auto|]. split.
      * apply sorted_cons; auto. intros b' d' I. apply s_set_in in I. destruct I as [->|I]; eauto.
      * intros b'. cbn [Poly_Spec.coef]. rewrite C. destruct (list_eq_dec N.eq_dec b b'), (list_eq_dec N.eq_dec a b'); auto.
        subst b b'. rewrite less_irrefl in E; congruence.
    + destruct (mi_eqb b a) eqn:Q.
      * apply mi_eqb_eq in Q. subst b. split; [constructor; auto|]. split; [apply sorted_cons; auto|].
        intros b. cbn [Poly_Spec.coef]. destruct list_eq_dec; auto.
        subst b. rewrite coef_absent; [ring|]. intros b' d' I ->. apply H in I. congruence.
      * apply mi_eqb_neq in Q. assert (less a b = true) as K by (apply less_total; auto).
        split; [constructor; auto|]. split.
        { apply sorted_cons; auto. intros b' d' [[= <- <-]|I]; auto.
          apply (less_trans a b b'); auto; [eapply sized_in; eauto|eapply H; eauto]. }
        intros b'. change (coef ((a, c) :: (b, d) :: e) b') with (if list_eq_dec N.eq_dec a b' then c + coef ((b, d) :: e) b' else coef ((b, d) :: e) b').
        destruct (list_eq_dec N.eq_dec a b') as [<-|]; auto.
        rewrite (coef_absent ((b, d) :: e)); [ring|]. intros b' d' [[= <- <-]|I]; [auto|]. intros ->.
        apply H in I. congruence.
Qed.
Lemma s_insert_set (e : expansion) a c : match s_insert less e a c with
  | Some r => r = s_set less e a c
  | None => True end.
Proof.
  induction e as [|[b d] e IH]; cbn; auto. destruct (less b a).
  - destruct (s_insert less e a c); auto. congruence.
  - destruct (mi_eqb b a); auto.
Qed.
Lemma s_insert_none (e : expansion) a c : sized e -> sorted e -> length a = n ->
  (s_insert less e a c = None <-> exists d, In (a, d) e).
Proof.
  induction e as [|[b d] e IH]; cbn [s_insert]; intros Z S La.
  - split; [discriminate|intros [? []]].
  - destruct (sized_inv _ _ _ Z) as [Lb Ze], (sorted_inv _ _ _ S) as [Se H].
    destruct (less b a) eqn:E.
    + specialize (IH Ze Se La). destruct (s_insert less e a c).
      * split; [discriminate|]. intros [d' [[= -> ->]|I]].
        -- rewrite less_irrefl in E; congruence.
        -- destruct IH as [_ IH]. discriminate IH. eauto.
      * split; auto. intros _. destruct IH as [IH _]. destruct (IH eq_refl) as [d' I]. exists d'. right; auto.
    + destruct (mi_eqb b a) eqn:Q.
      * apply mi_eqb_eq in Q. subst b. split; auto. intros _. exists d. left; auto.
      * apply mi_eqb_neq in Q. split; [discriminate|]. intros [d' [[= -> ->]|I]]; [congruence|].
        apply H in I. congruence.
Qed.
Lemma s_check_sorted (e : expansion) : sized e -> (s_check less e = true <-> sorted e).
Proof.
  induction e as [|[a c] e IH]; cbn [s_check]; intros Z.
  - split; auto. intros _. constructor.
  - destruct (sized_inv _ _ _ Z) as [La Ze]. specialize (IH Ze). destruct e as [|[b d] e].
    + split; auto. intros _. apply sorted_cons; [constructor|intros ? ? []].
    + destruct (less a b) eqn:E.
      * rewrite IH. split.
        -- intros S. apply sorted_cons; auto. destruct (sorted_inv _ _ _ S) as [_ H].
           intros b' d' [[= <- <-]|I]; auto. apply (less_trans a b b'); auto.
           ++ apply (sized_inv _ _ _ Ze). ++ eapply sized_in; [apply (sized_inv _ _ _ Ze)|eauto]. ++ eapply H; eauto.
        -- intros S. apply (sorted_inv _ _ _ S).
      * split; [discriminate|]. intros S. destruct (sorted_inv _ _ _ S) as [_ H].
        specialize (H b d (or_introl eq_refl)). congruence.
Qed.

(** After sorting and combining, the indices are strictly increasing. *)
Lemma combine_from_head a (c : R) e : exists c' e', combine_from radd a c e = (a, c') :: e' /\
  (forall b d, In (b, d) e' -> exists d', In (b, d') e /\ b <> a \/ exists d', In (b, d') e).
Proof.
  revert a c. induction e as [|[b d] e IH]; intros a c; cbn [combine_from].
  - exists c, []. split; auto. intros ? ? [].
  - destruct (mi_eqb b a) eqn:E.
    + destruct (IH a (c + d)) as (c' & e' & -> & H). exists c', e'. split; auto. intros b' d' I.
      destruct (H _ _ I) as [x [[K _]|[x' K]]]; exists x; right; eexists; right; eauto.
    + exists c, (combine_from radd b d e). split; auto. intros b' d' I.
      destruct (IH b d) as (c' & e' & E' & H). rewrite E' in I. destruct I as [[= <- <-]|I].
      * exists d. right. exists d. left; auto.
      * destruct (H _ _ I) as [x [[K _]|[x' K]]]; exists x; right; eexists; right; eauto.
Qed.
Lemma combine_in a (c : R) e b d : In (b, d) (combine_from radd a c e) -> b = a \/ exists d', In (b, d') e.
Proof.
  destruct (combine_from_head a c e) as (c' & e' & -> & H). intros [[= <- <-]|I]; auto. right.
  destruct (H _ _ I) as [x [[K _]|[x' K]]]; eauto.
Qed.
Lemma combine_from_sorted e : forall a c, sized ((a, c) :: e) ->
  StronglySorted (fun m m' => less (fst m') (fst m) = false) ((a, c) :: e) -> sorted (combine_from radd a c e).
Proof.
  induction e as [|[b d] e IH]; intros a c Z S; cbn [combine_from].
  - apply sorted_cons; [constructor|intros ? ? []].
  - destruct (sized_inv _ _ _ Z) as [La Ze]. destruct (sized_inv _ _ _ Ze) as [Lb Ze'].
    destruct (StronglySorted_inv S) as [S' F]. destruct (StronglySorted_inv S') as [S'' F'].
    assert (Fb := Forall_inv F). assert (F'' := Forall_inv_tail F).
    destruct (mi_eqb b a) eqn:E.
    + apply mi_eqb_eq in E. subst b. apply IH; constructor; auto.
    + apply mi_eqb_neq in E. cbn in Fb.
      assert (less a b = true) as K by (apply less_total; auto).
      apply sorted_cons; [apply IH; auto|]. intros b' d' I. apply combine_in in I. destruct I as [->|[d'' I]]; auto.
      rewrite Forall_forall in F'. specialize (F' _ I). cbn in F'.
      assert (length b' = n) as Lb' by (eapply sized_in; eauto).
      destruct (list_eq_dec N.eq_dec b b') as [<-|NE]; auto. apply (less_trans a b b'); auto.
      apply less_total; auto.
Qed.
Lemma combine_sorted e e' : sized e -> sort_result less e e' -> sorted (combine_terms radd e').
Proof.
  intros Z [P S]. assert (sized e') as Z' by (unfold sized, Poly_Spec.sized in *; eapply Permutation_Forall; eauto).
  destruct e' as [|[a c] e']; [constructor|]. apply combine_from_sorted; auto.
Qed.
Lemma combine_sized e : sized e -> sized (combine_terms radd e).
Proof.
  intros Z. unfold sized, Poly_Spec.sized in *. rewrite Forall_forall in *. destruct e as [|[a c] e]; [intros ? []|].
  intros [b d] I. apply combine_in in I. destruct I as [->|[d' I]].
  - apply (Z (a, c)). left; auto.
  - apply (Z (b, d')). right; auto.
Qed.

(** Equality of sorted expansions compares coefficients. *)
Lemma s_equal_ok req (Q : forall c d, req c d = true <-> c = d) fuel : forall e1 e2 : list (mi * R), sized e1 -> sized e2 -> sorted e1 -> sorted e2 ->
  length e1 + length e2 < fuel -> exists b, s_equal rO less req fuel e1 e2 = Some b /\
  (b = true <-> forall a, coef e1 a = coef e2 a).
Proof.
  induction fuel as [|f IH]; intros e1 e2 Z1 Z2 S1 S2 L; [lia|]. cbn [s_equal].
  destruct e1 as [|[a c] e1], e2 as [|[b d] e2].
  - exists true. split; auto. split; auto.
  - destruct (sized_inv _ _ _ Z2) as [Lb Z2'], (sorted_inv _ _ _ S2) as [S2' H2].
    destruct (IH [] e2) as (r & -> & E); auto; [cbn in *; lia|]. cbn [option_map]. eexists. split; eauto.
    rewrite andb_true_iff, Q, E. cbn [Poly_Spec.coef]. split.
    + intros [<- K] x. destruct list_eq_dec; auto. rewrite <- K. cbn. ring.
    + intros K. assert (coef e2 b = rO) as A by (apply coef_absent; intros b' d' I ->; apply H2 in I; rewrite less_irrefl in I; congruence).
      split.
      * specialize (K b). destruct list_eq_dec; [|congruence]. rewrite A in K. rewrite K. ring.
      * intros x. specialize (K x). destruct list_eq_dec; auto. subst x. rewrite A. auto.
  - destruct (sized_inv _ _ _ Z1) as [La Z1'], (sorted_inv _ _ _ S1) as [S1' H1].
    destruct (IH e1 []) as (r & -> & E); auto; [cbn in *; lia|]. cbn [option_map]. eexists. split; eauto.
    rewrite andb_true_iff, Q, E. cbn [Poly_Spec.coef]. split.
    + intros [-> K] x. destruct list_eq_dec; auto. rewrite K. cbn. ring.
    + intros K. assert (coef e1 a = rO) as A by (apply coef_absent; intros b' d' I ->; apply H1 in I; rewrite less_irrefl in I; congruence).
      split.
      * specialize (K a). destruct list_eq_dec; [|congruence]. rewrite A in K. rewrite <- K. ring.
      * intros x. specialize (K x). destruct list_eq_dec; auto. subst x. auto.
  - destruct (sized_inv _ _ _ Z1) as [La Z1'], (sorted_inv _ _ _ S1) as [S1' H1].
    destruct (sized_inv _ _ _ Z2) as [Lb Z2'], (sorted_inv _ _ _ S2) as [S2' H2].
    assert (coef e1 a = rO) as A1 by (apply coef_absent; intros b' d' I ->; apply H1 in I; rewrite less_irrefl in I; congruence).
    assert (coef e2 b = rO) as A2 by (apply coef_absent; intros b' d' I ->; apply H2 in I; rewrite less_irrefl in I; congruence).
    destruct (mi_eqb a b) eqn:EQ.
    + apply mi_eqb_eq in EQ. subst b. destruct (IH e1 e2) as (r & -> & E); auto; [cbn in *; lia|]. cbn [option_map]. eexists. split; eauto.
      rewrite andb_true_iff, Q, E. cbn [Poly_Spec.coef]. split.
      * intros [-> K] x. destruct list_eq_dec; auto. rewrite K. auto.
      * intros K. split.
        -- specialize (K a). destruct list_eq_dec; [|congruence]. rewrite A1, A2 in K.
           replace c with (c + rO) by ring. rewrite K. ring.
        -- intros x. specialize (K x). destruct list_eq_dec; auto. subst x. congruence.
    + apply mi_eqb_neq in EQ. destruct (less a b) eqn:LT.
      * destruct (IH e1 ((b, d) :: e2)) as (r & Hr & E); auto; [cbn in *; lia|].
        refine (ex_intro _ (andb (req c rO) r) (conj (f_equal (option_map (andb (req c rO))) Hr) _)).
        assert (coef ((b, d) :: e2) a = rO) as A.
        { apply coef_absent. intros b' d' [[= <- <-]|I]; auto. intros ->. apply H2 in I. rewrite less_asym in I; auto. discriminate. }
        rewrite andb_true_iff, Q, E. change (coef ((a, c) :: e1)) with (fun x => if list_eq_dec N.eq_dec a x then c + coef e1 x else coef e1 x). cbv beta. split.
        -- intros [-> K] x. destruct list_eq_dec; auto. rewrite K. apply (Radd_0_l Rth).
        -- intros K. split.
           ++ specialize (K a). destruct list_eq_dec; [|congruence]. rewrite A1, A in K. rewrite <- K. ring.
           ++ intros x. specialize (K x). destruct list_eq_dec; auto. subst x. congruence.
      * assert (less b a = true) as GT by (apply less_total; auto). rewrite GT.
        destruct (IH ((a, c) :: e1) e2) as (r & Hr & E); auto; [cbn in *; lia|].
        refine (ex_intro _ (andb (req rO d) r) (conj (f_equal (option_map (andb (req rO d))) Hr) _)).
        assert (coef ((a, c) :: e1) b = rO) as A.
        { apply coef_absent. intros b' d' [[= <- <-]|I]; auto. intros ->. apply H1 in I. rewrite less_asym in I; auto. discriminate. }
        rewrite andb_true_iff, Q, E. change (coef ((b, d) :: e2)) with (fun x => if list_eq_dec N.eq_dec b x then d + coef e2 x else coef e2 x). cbv beta. split.
        -- intros [<- K] x. destruct list_eq_dec; auto. rewrite K. symmetry. apply (Radd_0_l Rth).
        -- intros K. split.
           ++ specialize (K b). destruct list_eq_dec; [|congruence]. rewrite A2, A in K. rewrite K. ring.
           ++ intros x. specialize (K x). destruct list_eq_dec; auto. subst x. congruence.
Qed.
End Sorted.

(** *** Horner evaluation *)
Section Horner.
Context (n : nat) (x : list R).
Notation loop1 := (loop1 rO rmul x).
Notation loop2 := (loop2 rO radd rmul x).
Notation loop3 := (loop3 rO radd rmul x).

Lemma loop3_app a r i m m' t : loop3 a r i (m + m') t = loop3 a r (i + m) m' (loop3 a r i m t).
Proof. unfold Poly_Model.loop3. rewrite seq_app, fold_left_app. auto. Qed.
Lemma loop1_app a i m m' t : loop1 a i (m + m') t = loop1 a (i + m) m' (loop1 a i m t).
Proof. unfold Poly_Model.loop1. rewrite seq_app, fold_left_app. auto. Qed.
Lemma loop3_S a r i m t : loop3 a r i (S m) t = loop3 a r (S i) m ((t + nth i r rO) * power (nth i x rO) (N.to_nat (nth i a 0%N))).
Proof. rewrite <- mul_n_power. reflexivity. Qed.
Lemma loop1_S a i m t : loop1 a i (S m) t = loop1 a (S i) m (t * power (nth i x rO) (N.to_nat (nth i a 0%N))).
Proof. rewrite <- mul_n_power. reflexivity. Qed.
Lemma loop1_lin a m : forall i t, loop1 a i m t = t * loop1 a i m rI.
Proof.
  induction m as [|m IH]; intros i t.
  - cbn. ring.
  - rewrite !loop1_S. rewrite IH. rewrite (IH _ (rI * _)). ring.
Qed.
Lemma loop3_lin a r m : forall i t u, loop3 a r i m (t + u) = loop3 a r i m t + u * loop1 a i m rI.
Proof.
  induction m as [|m IH]; intros i t u.
  - cbn. ring.
  - rewrite !loop3_S, loop1_S. rewrite (loop1_lin _ _ _ (rI * _)).
    match goal with |- loop3 a r (S i) m ((t + u + ?v) * ?p) = _ => replace ((t + u + v) * p) with ((t + v) * p + u * p) by ring end.
    rewrite IH. ring.
Qed.
Lemma loop3_loop1 a r m : forall i t, (forall l, (i <= l < i + m)%nat -> nth l r rO = rO) -> loop3 a r i m t = loop1 a i m t.
Proof.
  induction m as [|m IH]; intros i t H; auto. rewrite loop3_S, loop1_S, H by lia.
  rewrite IH by (intros; apply H; lia). f_equal. ring.
Qed.
Lemma loop3_ext a a' r r' m : forall i t, (forall l, (i <= l < i + m)%nat -> nth l r rO = nth l r' rO /\ nth l a 0%N = nth l a' 0%N) ->
  loop3 a r i m t = loop3 a' r' i m t.
Proof.
  induction m as [|m IH]; intros i t H; auto. rewrite !loop3_S.
  destruct (H i ltac:(lia)) as [-> ->]. apply IH. intros; apply H; lia.
Qed.
Lemma upd_length (r : list R) i v : length (upd r i v) = length r.
Proof. revert i. induction r; intros [|i]; cbn; auto. Qed.
Lemma nth_upd (r : list R) : forall i l v, (i < length r)%nat -> nth l (upd r i v) rO = if (l =? i)%nat then v else nth l r rO.
Proof.
  induction r as [|w r IH]; intros [|i] [|l] v L; cbn in *; auto; try lia. rewrite IH by lia. auto.
Qed.
Lemma loop2_ok a m : forall i t r, (i + m <= length r)%nat ->
  exists r', loop2 a i m (t, r) = (loop3 a r i m t, r') /\ length r' = length r /\
  forall l, nth l r' rO = if (i <=? l)%nat && (l <? i + m)%nat then rO else nth l r rO.
Proof.
  induction m as [|m IH]; intros i t r L.
  - exists r. split; [reflexivity|]. split; auto. intros l. destruct (Nat.leb_spec i l), (Nat.ltb_spec l (i + 0)); cbn; auto. lia.
  - destruct (IH (S i) ((t + nth i r rO) * power (nth i x rO) (N.to_nat (nth i a 0%N))) (upd r i rO)) as (r' & E & L' & H).
    { rewrite upd_length. lia. }
    exists r'. split; [|split].
    + rewrite loop3_S. rewrite <- (loop3_ext a a (upd r i rO) r), <- E.
      * unfold Poly_Model.loop2. cbn [seq fold_left]. rewrite mul_n_power. reflexivity.
      * intros l Hl. split; auto. rewrite nth_upd by lia. destruct (Nat.eqb_spec l i); auto. lia.
    + rewrite L', upd_length. auto.
    + intros l. rewrite H, nth_upd by lia.
      destruct (Nat.leb_spec (S i) l), (Nat.leb_spec i l), (Nat.ltb_spec l (S i + m)), (Nat.ltb_spec l (i + S m)), (Nat.eqb_spec l i); cbn; auto; lia.
Qed.
End Horner.

Lemma loop1_shift y x b a m : forall i t, loop1 rO rmul (y :: x) (b :: a) (S i) m t = loop1 rO rmul x a i m t.
Proof. induction m as [|m IH]; intros; auto. rewrite !loop1_S. cbn [nth]. apply IH. Qed.
Lemma loop1_monom a : forall x, (length a <= length x)%nat -> loop1 rO rmul x a 0 (length a) rI = monom a x.
Proof.
  induction a as [|b a IH]; intros [|y x] L; auto; cbn [length] in *; [lia|].
  rewrite loop1_S, loop1_shift, loop1_lin, IH by lia. cbn. ring.
Qed.

Lemma find_k_ok a b k : match find_k a b k with
  | Some i => (i < k)%nat /\ nth i a 0%N <> nth i b 0%N /\ (forall l, (i < l < k)%nat -> nth l a 0%N = nth l b 0%N)
  | None => forall l, (l < k)%nat -> nth l a 0%N = nth l b 0%N end.
Proof.
  induction k as [|k IH]; cbn [find_k]; [intros; lia|].
  destruct (N.eqb_spec (nth k a 0%N) (nth k b 0%N)) as [E|E].
  - destruct (find_k a b k) as [i|].
    + destruct IH as (A & B & C). split; [lia|]. split; auto. intros l L. destruct (Nat.eq_dec l k) as [->|]; auto. apply C. lia.
    + intros l L. destruct (Nat.eq_dec l k) as [->|]; auto. apply IH. lia.
  - split; [lia|]. split; auto. intros. lia.
Qed.
Lemma find_k_ext a b a' b' k : (forall l, (l < k)%nat -> nth l a 0%N = nth l a' 0%N /\ nth l b 0%N = nth l b' 0%N) ->
  find_k a b k = find_k a' b' k.
Proof.
  induction k as [|k IH]; intros H; cbn [find_k]; auto. destruct (H k ltac:(lia)) as [-> ->].
  destruct (_ =? _)%N; auto.
Qed.
Lemma find_k_less k : forall a b, length a = k -> length b = k ->
  reverse_lexicographic_less a b = match find_k a b k with Some i => (nth i b 0 <? nth i a 0)%N | None => false end.
Proof.
  induction k as [|k IH]; intros a b La Lb.
  - destruct a, b; try discriminate. reflexivity.
  - destruct (exists_last (l:=a)) as (a' & y & ->); [intros ->; discriminate|].
    destruct (exists_last (l:=b)) as (b' & z & ->); [intros ->; discriminate|].
    rewrite app_length in La, Lb. cbn in La, Lb. cbn [find_k].
    rewrite (app_nth2 a'), (app_nth2 b') by lia. replace (k - length a')%nat with 0%nat by lia. replace (k - length b')%nat with 0%nat by lia.
    cbn [nth]. unfold reverse_lexicographic_less. rewrite !rev_app_distr. cbn [rev app first_diff].
    destruct (N.eqb_spec y z) as [->|NE].
    + rewrite (find_k_ext (a' ++ [z]) (b' ++ [z]) a' b') by (intros; rewrite !app_nth1 by lia; auto).
      assert (length a' = k) as La' by lia. assert (length b' = k) as Lb' by lia.
      specialize (IH a' b' La' Lb'). unfold reverse_lexicographic_less in IH. rewrite IH.
      pose proof (find_k_ok a' b' k) as F. destruct (find_k a' b' k) as [i|]; auto. rewrite !app_nth1 by lia. auto.
    + rewrite (app_nth2 a'), (app_nth2 b') by lia. replace (k - length a')%nat with 0%nat by lia. replace (k - length b')%nat with 0%nat by lia.
      reflexivity.
Qed.

(** What the loop computes: the value of the terms read so far is held in the
    registers and the current term. *)
Lemma horner_loop_ok n x (Lx : (n <= length x)%nat) e : forall a c r j, (j <= n)%nat -> length a = n -> length r = n ->
  sized n e -> (forall l, (l < j)%nat -> nth l r rO = rO) ->
  match horner_loop rO radd rmul n x a c r j e with
  | Ret v => s_check reverse_lexicographic_less ((a, c) :: e) = true /\ v = loop3 rO radd rmul x a r 0 n c + poly e x
  | AssertFail => s_check reverse_lexicographic_less ((a, c) :: e) = false
  | UB => False
  end.
Proof.
  induction e as [|[na nc] e IH]; intros a c r j J La Lr Z Hr; cbn [horner_loop].
  - split; auto. cbn [Poly_Spec.poly]. replace n with (j + (n - j))%nat at 2 by lia. rewrite loop3_app.
    rewrite (loop3_loop1 x a r j 0 c) by (intros; apply Hr; lia). ring_simplify. reflexivity.
  - destruct (sized_inv _ _ _ _ Z) as [Ln Ze].
    change (s_check reverse_lexicographic_less ((a, c) :: (na, nc) :: e)) with
      (if reverse_lexicographic_less a na then s_check reverse_lexicographic_less ((na, nc) :: e) else false).
    rewrite (find_k_less n a na La Ln). pose proof (find_k_ok a na n) as F.
    destruct (find_k a na n) as [k|]; [|reflexivity]. destruct F as (Kn & NE & EQ).
    destruct (N.leb_spec (nth k a 0%N) (nth k na 0%N)) as [LE|LT].
    + destruct (N.ltb_spec (nth k na 0%N) (nth k a 0%N)); [lia|reflexivity].
    + replace (nth k na 0 <? nth k a 0)%N with true by (symmetry; apply N.ltb_lt; auto).
      set (jk := Nat.min j k). assert (jk <= k)%nat as JK by (unfold jk; lia). assert (jk <= j)%nat as JJ by (unfold jk; lia).
      destruct (loop2_ok x a (k - jk) jk (loop1 rO rmul x a 0 jk c) r ltac:(lia)) as (r' & -> & Lr' & Hr').
      assert (nth k r' rO = nth k r rO) as Rk.
      { rewrite Hr'. destruct (Nat.leb_spec jk k), (Nat.ltb_spec k (jk + (k - jk))); cbn; auto. lia. }
      set (T := loop3 rO radd rmul x a r 0 k c).
      assert (loop3 rO radd rmul x a r jk (k - jk) (loop1 rO rmul x a 0 jk c) = T) as ->.
      { unfold T. replace k with (jk + (k - jk))%nat at 2 by lia. rewrite loop3_app.
        rewrite (loop3_loop1 x a r jk 0 c) by (intros; apply Hr; lia). reflexivity. }
      assert ((if (j <=? k)%nat then T + nth k r' rO else T) = T + nth k r rO) as ->.
      { rewrite Rk. destruct (Nat.leb_spec j k); auto. rewrite Hr by lia. ring. }
      rewrite mul_n_power. set (t' := _ * power _ _).
      specialize (IH na nc (upd r' k t') k).
      assert (forall l, nth l (upd r' k t') rO = if (l =? k)%nat then t' else nth l r' rO) as U by (intros; apply nth_upd; lia).
      assert (forall l, (l < k)%nat -> nth l (upd r' k t') rO = rO) as Low.
      { intros l L. rewrite U, Hr'. destruct (Nat.eqb_spec l k); [lia|].
        destruct (Nat.leb_spec jk l), (Nat.ltb_spec l (jk + (k - jk))); cbn; auto; try lia; apply Hr; lia. }
      assert (loop3 rO radd rmul x na (upd r' k t') 0 n nc = loop3 rO radd rmul x a r 0 n c + nc * monom na x) as STEP.
      { replace n with (k + S (n - k - 1))%nat by lia. rewrite !loop3_app. cbn [plus]. rewrite !loop3_S.
        fold T. rewrite (loop3_loop1 x na (upd r' k t') k 0 nc) by (intros; apply Low; lia).
        rewrite (loop3_ext x na a (upd r' k t') r (n - k - 1) (S k)).
        2:{ intros l L. split; [|symmetry; apply EQ; lia]. rewrite U, Hr'. destruct (Nat.eqb_spec l k); [lia|].
            destruct (Nat.leb_spec jk l), (Nat.ltb_spec l (jk + (k - jk))); cbn; auto; lia. }
        rewrite U, Nat.eqb_refl. unfold t'. rewrite (loop1_lin x na k 0 nc).
        set (P := loop1 rO rmul x na 0 k rI).
        match goal with |- loop3 _ _ _ _ _ _ _ _ ?u = loop3 _ _ _ _ _ _ _ _ ?v + _ =>
          replace u with (v + nc * P * power (nth k x rO) (N.to_nat (nth k na 0%N))) end.
        - rewrite loop3_lin. f_equal. rewrite <- loop1_monom by lia. rewrite Ln.
          replace n with (k + S (n - k - 1))%nat at 2 by lia. rewrite loop1_app, loop1_S. cbn [plus].
          rewrite (loop1_lin x na (n - k - 1) (S k) (_ * _)). fold P.
          rewrite <- (loop3_loop1 x a (repeat rO n)) by (intros; apply nth_repeat).
          rewrite <- (loop3_loop1 x na (repeat rO n)) by (intros; apply nth_repeat).
          rewrite (loop3_ext x na a (repeat rO n) (repeat rO n) (n - k - 1) (S k)) by (intros; split; auto; symmetry; apply EQ; lia).
          cbn [Nat.add]. ring.
        - cbn [Nat.add]. rewrite N2Nat.inj_sub.
          assert (power (nth k x rO) (N.to_nat (nth k a 0%N)) =
                  power (nth k x rO) (N.to_nat (nth k a 0%N) - N.to_nat (nth k na 0%N)) * power (nth k x rO) (N.to_nat (nth k na 0%N))) as ->.
          { rewrite <- power_add. f_equal. lia. }
          ring. }
      specialize (IH ltac:(lia) Ln ltac:(rewrite upd_length; lia) Ze Low).
      destruct (horner_loop rO radd rmul n x na nc (upd r' k t') k e) as [v| |]; auto.
      destruct IH as [C ->]. split; auto. rewrite STEP. cbn [Poly_Spec.poly]. ring.
Qed.
Lemma horner_ok n (e : list (mi * R)) x : (n <= length x)%nat -> sized n e ->
  (horner_evaluate rO radd rmul n e x = Ret (poly e x) /\ sorted reverse_lexicographic_less e) \/
  (horner_evaluate rO radd rmul n e x = AssertFail /\ ~ sorted reverse_lexicographic_less e).
Proof.
  intros Lx Z. rewrite <- (s_check_sorted n _ (reverse_order n) e Z). unfold horner_evaluate.
  destruct e as [|[a c] e]; [left; auto|]. destruct (Nat.ltb_spec (length x) n); [lia|].
  destruct (sized_inv _ _ _ _ Z) as [La Ze].
  pose proof (horner_loop_ok n x Lx e a c (repeat rO n) n (le_n n) La (repeat_length _ _) Ze ltac:(intros; apply nth_repeat)) as K.
  destruct (horner_loop _ _ _ _ _ _ _ _ _ _) as [v| |]; [left|right|tauto].
  - destruct K as [K ->]. split; auto. f_equal. cbn [Poly_Spec.poly].
    rewrite loop3_loop1 by (intros; apply nth_repeat). rewrite loop1_lin, <- La, loop1_monom by lia. reflexivity.
  - split; auto. intros C. discriminate (eq_trans (eq_sym C) K).
Qed.
Lemma monomial_ok a : forall x t, monomial rmul t a x = t * monom a x.
Proof.
  induction a as [|n a IH]; intros [|y x] t; cbn; try ring. rewrite IH, mul_n_power. ring.
Qed.
Lemma power_evaluate_ok e x : power_evaluate rO rI radd rmul e x = poly e x.
Proof.
  assert (forall s, fold_left (fun r (m : mi * R) => r + monomial rmul (rO * rO + rI) (fst m) x * snd m) e s = s + poly e x) as K.
  { induction e as [|[a c] e IH]; intros s; cbn [fold_left Poly_Spec.poly fst snd].
    - ring.
    - rewrite IH, monomial_ok. ring. }
  unfold power_evaluate. etransitivity; [apply K|]. ring.
Qed.

(** The univariate loop never multiplies by the lowest power. *)
Notation poly1 := (poly1 rO rI radd rmul).
Fixpoint lowest (e : list (N * R)) : N :=
  match e with [] => 0%N | (a, _) :: e => match e with [] => a | _ => lowest e end end.
Definition decreasing (e : list (N * R)) : Prop := StronglySorted (fun m m' => (fst m' < fst m)%N) e.
Lemma horner1_loop_ok x e : forall a r v, horner1_loop radd rmul x a r e = Ret v ->
  v * power x (N.to_nat (lowest ((a, r) :: e))) = r * power x (N.to_nat a) + poly1 e x.
Proof.
  induction e as [|[na c] e IH]; intros a r v; cbn [horner1_loop].
  - intros [= ->]. cbn. ring.
  - destruct (N.leb_spec a na); [discriminate|]. intros E. apply IH in E.
    change (lowest ((a, r) :: (na, c) :: e)) with (lowest ((na, c) :: e)).
    change (lowest ((na, mul_n rmul r x (a - na) + c) :: e)) with (match e with [] => na | _ => lowest e end) in E.
    change (lowest ((na, c) :: e)) with (match e with [] => na | _ => lowest e end). rewrite E.
    cbn [Poly_Spec.poly1]. rewrite mul_n_power, N2Nat.inj_sub.
    assert (power x (N.to_nat a) = power x (N.to_nat a - N.to_nat na) * power x (N.to_nat na)) as ->
      by (rewrite <- power_add; f_equal; lia).
    ring.
Qed.
Lemma horner1_ok x e v : horner1_evaluate rO radd rmul e x = Ret v ->
  v * power x (N.to_nat (lowest e)) = poly1 e x.
Proof.
  unfold horner1_evaluate. destruct e as [|[a c] e]; intros E.
  - injection E as <-. cbn. ring.
  - rewrite (horner1_loop_ok _ _ _ _ _ E). reflexivity.
Qed.
Lemma horner1_loop_ret x e : forall a r, decreasing ((a, r) :: e) -> exists v, horner1_loop radd rmul x a r e = Ret v.
Proof.
  induction e as [|[na c] e IH]; intros a r D; cbn [horner1_loop]; eauto.
  inversion_clear D. inversion H0; subst. cbn in *. destruct (N.leb_spec a na); [lia|].
  apply IH. inversion_clear H. constructor; auto.
Qed.
End Ring.
