(** * Proofs about multivariate Chebyshev polynomials *)

From Coq Require Import List Arith NArith Bool Reals Lra Lia.
From Verif Require Import Poly_Model Poly_Proofs Cheb_Model Cheb_Spec Cheb_Proofs MCheb_Model MCheb_Spec.
Import ListNotations.
Local Open Scope R_scope.

(** ** Exact arithmetic *)
Lemma mfn_neg c x : mfn (m_neg RO c) x = - mfn c x.
Proof. induction c as [|[k a] c IH]; cbn [m_neg map mfn fst snd]; [ring|]. fold (m_neg RO c). rewrite IH. cbn. ring. Qed.
Lemma mfn_scale c s x : mfn (m_scale RO c s) x = mfn c x * s.
Proof. induction c as [|[k a] c IH]; cbn [m_scale map mfn fst snd]; [ring|]. fold (m_scale RO c s). rewrite IH. cbn. ring. Qed.
Lemma m_add_cons {Y N} (Q : ops Y N) i c p j d q : m_add Q ((i, c) :: p) ((j, d) :: q) =
  if mi_eqb i j then (i, o_add Q c d) :: m_add Q p q
  else if reverse_lexicographic_less i j then (i, c) :: m_add Q p ((j, d) :: q) else (j, d) :: m_add Q ((i, c) :: p) q.
Proof. reflexivity. Qed.
Lemma mfn_add c : forall d x, mfn (m_add RO c d) x = mfn c x + mfn d x.
Proof.
  induction c as [|[i a] c IH]; intros d x.
  - destruct d; cbn [m_add mfn]; ring.
  - induction d as [|[j b] d IHd]; [cbn [m_add mfn]; ring|]. rewrite m_add_cons.
    destruct (mi_eqb i j) eqn:Eij; [apply mi_eqb_eq in Eij as ->; cbn [mfn o_add RO]; rewrite IH; ring|].
    destruct (reverse_lexicographic_less i j); cbn [mfn] in *; [rewrite IH; cbn [mfn]; ring|]. rewrite IHd. ring.
Qed.
Lemma mfn_app c d x : mfn (c ++ d) x = mfn c x + mfn d x.
Proof. induction c as [|[k a] c IH]; cbn [app mfn]; [ring|rewrite IH; ring]. Qed.
Lemma prodT_zero n : forall x, prodT (repeat 0%N n) x = 1.
Proof. induction n; intros [|y x]; cbn [repeat prodT]; auto. rewrite IHn. change (N.to_nat 0) with 0%nat. rewrite T_0. ring. Qed.
Lemma prodT_zero' i : forallb (N.eqb 0) i = true -> forall x, prodT i x = 1.
Proof.
  induction i as [|k i IH]; intros H [|y x]; cbn [prodT forallb] in *; auto. apply andb_true_iff in H as [A B].
  apply N.eqb_eq in A. subst k. rewrite IH by auto. change (N.to_nat 0) with 0%nat. rewrite T_0. ring.
Qed.
Lemma prodT_unit n i k x : (i < n)%nat -> length x = n -> prodT (unit_times n i k) x = T (N.to_nat k) (nth i x 0).
Proof.
  unfold unit_times. intros I L.
  assert (forall (x : list R) s, (s <= i < s + length x)%nat -> prodT (map (fun j => if Nat.eqb i j then k else 0%N) (seq s (length x))) x = T (N.to_nat k) (nth (i - s) x 0)) as H.
  { assert (forall (x : list R) s, (i < s)%nat -> prodT (map (fun j => if Nat.eqb i j then k else 0%N) (seq s (length x))) x = 1) as Z.
    { induction x0 as [|y x0 IH]; intros s Hs; cbn [length seq map prodT]; auto. destruct (Nat.eqb_spec i s); [lia|].
      rewrite IH by lia. change (N.to_nat 0) with 0%nat. rewrite T_0. ring. }
    induction x0 as [|y x0 IH]; intros s Hs; cbn [length] in Hs; [lia|]. cbn [length seq map prodT]. destruct (Nat.eqb_spec i s) as [->|N].
    - rewrite Z by lia. rewrite Nat.sub_diag. cbn [nth]. ring.
    - rewrite IH by lia. change (N.to_nat 0) with 0%nat. rewrite T_0. replace (i - s)%nat with (S (i - S s)) by lia. cbn [nth]. ring. }
  specialize (H x 0%nat). rewrite L in H. rewrite H by lia. rewrite Nat.sub_0_r. auto.
Qed.
Lemma prodT_bound a : forall x, Forall (fun y => -1 <= y <= 1) x -> Rabs (prodT a x) <= 1.
Proof.
  induction a as [|i a IH]; intros [|y x] H; cbn [prodT]; try (rewrite Rabs_R1; lra). inversion_clear H as [|? ? Y F].
  rewrite Rabs_mult. pose proof (T_bound (N.to_nat i) y Y). pose proof (IH x F). pose proof (Rabs_pos (prodT a x)). pose proof (Rabs_pos (T (N.to_nat i) y)). nra.
Qed.

(** ** Enclosures follow the exact arithmetic *)
Section Enc.
Context {X M : Type} (O : ops X M) (mem : X -> R -> Prop) (ub : M -> R -> Prop) (E : encloses_ops O mem ub).
Notation coefs := (mcoefficients mem).

Lemma mcoefs_neg p c : coefs p c -> coefs (m_neg O p) (m_neg RO c).
Proof. induction 1 as [|t u p c [A B] _ IH]; constructor; auto. split; auto. apply (e_neg _ _ _ E). auto. Qed.
Lemma mcoefs_scale p c s a : coefs p c -> mem s a -> coefs (m_scale O p s) (m_scale RO c a).
Proof. intros H S. induction H as [|t u p c [A B] _ IH]; constructor; auto. split; auto. apply (e_mul _ _ _ E); auto. Qed.
Lemma mcoefs_add p c : coefs p c -> forall q d, coefs q d -> coefs (m_add O p q) (m_add RO c d).
Proof.
  intros H. induction H as [|[i y] [i' a] p c [A B] H IH]; intros q d D.
  - destruct D as [|? ? ? ? D1 D2]; constructor; auto.
  - cbn [fst snd] in *. subst i'. induction D as [|[j z] [j' b] q d [A' B'] D IHd].
    + constructor; auto.
    + cbn [fst snd] in *. subst j'. rewrite !m_add_cons. destruct (mi_eqb i j); [|destruct (reverse_lexicographic_less i j)].
      * constructor; [|apply IH; auto]. split; auto. apply (e_add _ _ _ E); auto.
      * constructor; [split; auto|]. apply IH. constructor; auto.
      * constructor; [split; auto|]. apply IHd.
Qed.
Lemma m_add_size (n : nat) p : forall q, Forall (fun t => length (fst t) = n) p -> Forall (fun t => length (fst t) = n) q ->
  Forall (fun t => length (fst t) = n) (m_add O p q).
Proof.
  induction p as [|[i c] p IH]; intros q A B; [destruct q; auto|]. induction q as [|[j d] q IHq]; auto. rewrite m_add_cons.
  inversion_clear A. inversion_clear B as [|? ? B1 B2]. destruct (mi_eqb i j); [|destruct (reverse_lexicographic_less i j)]; constructor; auto.
Qed.
Fixpoint msum_mag (c : list (mi * R)) : R := match c with [] => 0 | (_, a) :: c => Rabs a + msum_mag c end.
Lemma mnorm_mem p c : coefs p c -> forall m s, ub m s -> ub (fold_left (fun r t => o_madd O r (o_mag O (snd t))) p m) (s + msum_mag c).
Proof.
  induction 1 as [|[i y] [i' a] p c [A B] D IH]; intros m s H; cbn [fold_left msum_mag].
  - rewrite Rplus_0_r. auto.
  - cbn [snd] in *. rewrite <- Rplus_assoc. apply IH. apply (e_madd _ _ _ E); auto. apply (e_mag _ _ _ E); auto.
Qed.
Lemma mfn_bound c x : Forall (fun y => -1 <= y <= 1) x -> Rabs (mfn c x) <= msum_mag c.
Proof.
  intros H. induction c as [|[k a] c IH]; cbn [mfn msum_mag]; [rewrite Rabs_R0; lra|]. eapply Rle_trans; [apply Rabs_triang|].
  rewrite Rabs_mult. pose proof (prodT_bound k x H). pose proof (Rabs_pos a). pose proof (Rabs_pos (prodT k x)). nra.
Qed.
Lemma mnorm_ok p c x : coefs p c -> Forall (fun y => -1 <= y <= 1) x -> ub (m_norm O p) (Rabs (mfn c x)).
Proof.
  intros C H. apply (e_less _ _ _ E) with (a := Rabs 0 + msum_mag c).
  - apply mnorm_mem; auto. apply (e_mag _ _ _ E). apply (e_of _ _ _ E 0).
  - rewrite Rabs_R0, Rplus_0_l. apply mfn_bound. auto.
Qed.

(** ** Evaluation *)
Lemma values_mem x a k : mem x a -> mem (fst (values O x k)) (T k a) /\ mem (snd (values O x k)) (T (S k) a).
Proof.
  intros H. induction k as [|k [U V]]; cbn [values].
  - split; [apply (e_of _ _ _ E 1)|]. cbn [snd]. rewrite T_1. auto.
  - destruct (values O x k) as [p q]. cbn [fst snd] in *. split; auto. rewrite T_SS.
    apply (e_sub _ _ _ E); auto. apply (e_mul _ _ _ E); auto. apply (e_mul _ _ _ E); auto. apply (e_of _ _ _ E 2).
Qed.
Lemma equal_refl k : forall a, (k <= length a)%nat -> equal_up_to a a k = true.
Proof. induction k; intros [|i a] L; cbn [equal_up_to length] in *; auto; try lia. rewrite N.eqb_refl. apply IHk. lia. Qed.
Lemma equal_trans k : forall a b c, equal_up_to a b k = true -> equal_up_to b c k = true -> equal_up_to a c k = true.
Proof.
  induction k; intros [|i a] [|j b] [|l c]; cbn [equal_up_to]; auto; try discriminate.
  destruct (N.eqb_spec i j) as [->|]; [|discriminate]. destruct (N.eqb_spec j l); [|discriminate]. eauto.
Qed.
Lemma equal_S k : forall a b, equal_up_to a b (S k) = true -> equal_up_to a b k = true /\ nth_error a k = nth_error b k.
Proof.
  induction k; intros [|i a] [|j b] H; try discriminate; cbn [equal_up_to] in H; destruct (N.eqb_spec i j) as [->|]; try discriminate.
  - split; auto.
  - apply IHk in H as [A B]. split; auto. cbn [equal_up_to]. rewrite N.eqb_refl. auto.
Qed.
(** The sum over the terms of the factors from variable [k] on. *)
Fixpoint psum (k : nat) (c : list (mi * R)) (x : list R) : R :=
  match c with [] => 0 | (a, b) :: c => b * prodT (skipn k a) (skipn k x) + psum k c x end.
Lemma psum_app k c d x : psum k (c ++ d) x = psum k c x + psum k d x.
Proof. induction c as [|[a b] c IH]; cbn [app psum]; [ring|rewrite IH; ring]. Qed.
Lemma psum_0 c x : psum 0 c x = mfn c x.
Proof. induction c as [|[a b] c IH]; cbn [psum mfn skipn]; auto. rewrite IH. auto. Qed.
Lemma skipn_step {A} (l : list A) k y : nth_error l k = Some y -> skipn k l = y :: skipn (S k) l.
Proof. revert l. induction k; intros [|z l] H; cbn in H; try discriminate; [injection H as <-; auto|]. cbn [skipn]. rewrite (IHk l H). auto. Qed.
Lemma psum_step k x y ak c : nth_error x k = Some y -> Forall (fun t => nth_error (fst t) k = Some ak) c ->
  psum k c x = psum (S k) c x * T (N.to_nat ak) y.
Proof.
  intros Hx H. induction H as [|[a b] c A _ IH]; cbn [psum]; [ring|]. cbn [fst] in A. rewrite IH, (skipn_step _ _ _ A), (skipn_step _ _ _ Hx). cbn [prodT]. ring.
Qed.
Lemma psum_last x k y ak a b : S k = length x -> nth_error x k = Some y -> nth_error a k = Some ak -> b * prodT (skipn k a) (skipn k x) = b * T (N.to_nat ak) y.
Proof.
  intros L Hx Ha. rewrite (skipn_step _ _ _ Ha), (skipn_step _ _ _ Hx). cbn [prodT]. rewrite (skipn_all2 x) by lia.
  destruct (skipn (S k) a); cbn [prodT]; ring.
Qed.

(** What a call for the terms [l] of value [c] returns. *)
Definition returned (front : mi) (k : nat) (l : mterms X) (c : list (mi * R)) (s : R) (x : list R) (o : option (X * mterms X)) : Prop :=
  exists r post cpre cpost, o = Some (r, post) /\ c = cpre ++ cpost /\ coefs post cpost /\
    Forall (fun t => equal_up_to front (fst t) k = true) cpre /\
    match cpost with [] => True | t :: _ => equal_up_to front (fst t) k = false end /\
    mem r (s + psum k cpre x).
Lemma eval_last_ok front k xs (y : R) z : S k = length xs -> nth_error xs k = Some y -> mem z y ->
  forall l c, coefs l c -> Forall (fun t => length (fst t) = length xs) c -> forall r s, mem r s ->
  returned front k l c s xs (eval_last O front k z l r).
Proof.
  intros L Hx Z l c C. induction C as [|[a w] [a' b] l c [A B] C IH]; intros F r s R; cbn [eval_last].
  - exists r, [], [], []. repeat split; auto; try constructor. cbn [psum]. rewrite Rplus_0_r. auto.
  - cbn [fst snd] in A, B. subst a'. inversion_clear F as [|? ? Fa F']. cbn [fst] in Fa. destruct (equal_up_to front a k) eqn:Eq.
    + destruct (nth_error a k) as [ak|] eqn:Na; [|apply nth_error_None in Na; lia].
      assert (mem (o_add O r (o_mul O w (value O z ak))) (s + b * T (N.to_nat ak) y)) as R'.
      { apply (e_add _ _ _ E); auto. apply (e_mul _ _ _ E); auto. apply values_mem. auto. }
      destruct (IH F' _ _ R') as (r' & post & cpre & cpost & -> & -> & P1 & P2 & P3 & P4).
      exists r', post, ((a, b) :: cpre), cpost. split; [auto|]. split; [auto|]. split; [auto|]. split; [constructor; auto|]. split; [auto|].
      cbn [psum]. rewrite (psum_last xs k y ak a b L Hx Na). rewrite <- Rplus_assoc. auto.
    + exists r, ((a, w) :: l), [], ((a, b) :: c). split; [auto|]. split; [auto|]. split; [constructor; auto|]. split; [constructor|]. split; [auto|].
      cbn [psum]. rewrite Rplus_0_r. auto.
Qed.

Definition eval_loop_in (m' : nat) (x : list X) (k : nat) (front : mi) (xk : X) :=
  fix loop (fuel : nat) (l : mterms X) (r : X) : option (X * mterms X) :=
         match l with
         | [] => Some (r, [])
         | (a, _) :: _ =>
           if equal_up_to front a k then
             match fuel with
             | 0%nat => None
             | S fuel' =>
               match eval_from O m' x (S k) l, nth_error a k with
               | Some (c, l'), Some ak => loop fuel' l' (o_add O r (o_mul O c (value O xk ak)))
               | _, _ => None
               end
             end
           else Some (r, l)
         end.
Lemma eval_from_S m' x k front w l xk : nth_error x k = Some xk ->
  eval_from O (S m') x k ((front, w) :: l) = eval_loop_in m' x k front xk (length ((front, w) :: l)) ((front, w) :: l) (o_of O 0).
Proof. intros H. cbn [eval_from]. rewrite H. reflexivity. Qed.
Lemma mem_nth x xs k y : Forall2 mem x xs -> nth_error xs k = Some y -> exists z, nth_error x k = Some z /\ mem z y.
Proof. intros H. revert k. induction H; intros [|k] N; cbn in *; try discriminate; eauto. injection N as <-. eauto. Qed.
Lemma F2_length {A B} (P : A -> B -> Prop) l m : Forall2 P l m -> length l = length m.
Proof. induction 1; cbn [length]; auto. Qed.
Lemma coefs_length p c : coefs p c -> length p = length c.
Proof. apply F2_length. Qed.

Lemma eval_from_ok x xs : Forall2 mem x xs -> forall m k, (k + m + 1 = length xs)%nat ->
  forall front w l c, coefs ((front, w) :: l) c -> Forall (fun t => length (fst t) = length xs) c ->
  returned front k ((front, w) :: l) c 0 xs (eval_from O m x k ((front, w) :: l)).
Proof.
  intros HX. induction m as [|m IH]; intros k K front w l c C F;
  (destruct (nth_error xs k) as [y|] eqn:Hy; [|apply nth_error_None in Hy; lia]); destruct (mem_nth _ _ _ _ HX Hy) as (z & Hz & Z).
  - cbn [eval_from]. rewrite Hz. apply eval_last_ok with (y := y); auto; [lia|]. apply (e_of _ _ _ E 0).
  - rewrite (eval_from_S _ _ _ _ _ _ _ Hz).
    assert (forall fuel l c r s, (length l <= fuel)%nat -> coefs l c -> Forall (fun t => length (fst t) = length xs) c -> mem r s ->
      returned front k l c s xs (eval_loop_in m x k front z fuel l r)) as G.
    2:{ apply G; auto. apply (e_of _ _ _ E 0). }
    clear C F c l w. induction fuel as [|fuel IHf]; intros l c r s Lf C F R.
    + destruct C; cbn [length] in Lf; [|lia]. exists r, [], [], []. repeat split; auto; try constructor. cbn [psum]. rewrite Rplus_0_r. auto.
    + destruct C as [|[a v] [a' b] l c [A B] C].
      { exists r, [], [], []. repeat split; auto; try constructor. cbn [psum]. rewrite Rplus_0_r. auto. }
      cbn [fst snd] in A, B. subst a'. cbn [eval_loop_in]. destruct (equal_up_to front a k) eqn:Eq.
      2:{ exists r, ((a, v) :: l), [], ((a, b) :: c). split; [auto|]. split; [auto|]. split; [constructor; auto|]. split; [constructor|]. split; [auto|].
          cbn [psum]. rewrite Rplus_0_r. auto. }
      assert (coefs ((a, v) :: l) ((a, b) :: c)) as C' by (constructor; auto).
      destruct (IH (S k) ltac:(lia) a v l _ C' F) as (r1 & post & cpre & cpost & -> & Ec & P1 & P2 & P3 & P4).
      pose proof F as F0. inversion F as [|? ? Fa F']; subst. cbn [fst] in Fa.
      destruct (nth_error a k) as [ak|] eqn:Na; [|apply nth_error_None in Na; lia].
      rewrite Rplus_0_l in P4.
      assert (Forall (fun t => nth_error (fst t) k = Some ak) cpre) as Fk.
      { eapply Forall_impl; [|exact P2]. cbn beta. intros t H. apply equal_S in H as [_ H]. exact (eq_trans (eq_sym H) Na). }
      assert (mem (o_add O r (o_mul O r1 (value O z ak))) (s + psum k cpre xs)) as R'.
      { rewrite (psum_step k xs y ak cpre Hy Fk). apply (e_add _ _ _ E); auto. apply (e_mul _ _ _ E); auto. apply values_mem. auto. }
      destruct cpre as [|t cpre].
      { exfalso. cbn [app] in Ec. subst cpost. cbn [fst] in P3. rewrite equal_refl in P3 by lia. discriminate. }
      rewrite Ec in F0. apply Forall_app in F0 as [_ Fp].
      assert (length post <= fuel)%nat as Lp.
      { rewrite (coefs_length _ _ P1). apply (f_equal (@length _)) in Ec. cbn [length app] in Ec, Lf. rewrite app_length in Ec. rewrite (coefs_length _ _ C) in Lf. lia. }
      destruct (IHf post cpost _ _ Lp P1 Fp R') as (r2 & post2 & cpre2 & cpost2 & -> & -> & Q1 & Q2 & Q3 & Q4).
      exists r2, post2, ((t :: cpre) ++ cpre2), cpost2. split; [auto|]. split; [rewrite <- app_assoc; auto|]. split; [auto|].
      split; [|split; [auto|]].
      * apply Forall_app. split; [|auto]. eapply Forall_impl; [|exact P2]. cbn beta. intros u H. apply equal_S in H as [H _]. eapply equal_trans; eauto.
      * rewrite psum_app, <- Rplus_assoc. auto.
Qed.
Lemma m_evaluate_ok p c x xs : Forall2 mem x xs -> xs <> [] -> p <> [] -> coefs p c -> Forall (fun t => length (fst t) = length xs) p ->
  exists r, m_evaluate O p x = Some r /\ mem r (mfn c xs).
Proof.
  intros HX Nx Np C F. destruct p as [|[a w] l]; [contradiction|]. unfold m_evaluate.
  assert (Forall (fun t => length (fst t) = length xs) c) as Fc.
  { clear -C F. revert F. generalize dependent ((a, w) :: l). intros p C F. induction C as [|t u p c [A _] _ IH]; [constructor|].
    inversion_clear F as [|? ? F1 F2]. constructor; [exact (eq_trans (f_equal (@length _) (eq_sym A)) F1)|auto]. }
  assert (length xs <> 0)%nat as N0 by (destruct xs; [contradiction|discriminate]).
  destruct (eval_from_ok x xs HX (length x - 1) 0 ltac:(rewrite (F2_length _ _ _ HX); lia) a w l c C Fc) as (r & post & cpre & cpost & -> & Ec & _ & _ & P3 & P4).
  exists r. split; auto. destruct cpost as [|t cpost]; [|discriminate P3]. rewrite app_nil_r in Ec. subst c. rewrite psum_0, Rplus_0_l in P4. auto.
Qed.
End Enc.
