(** * Proofs about Chebyshev polynomials *)

From Coq Require Import List Arith Bool Reals Sorted Lra Lia.
From Verif Require Import Cheb_Model Cheb_Spec.
Import ListNotations.
Local Open Scope R_scope.

(** ** The polynomials T *)
Lemma cheb2_snd k x : snd (cheb2 k x) = T (S k) x.
Proof. unfold T. cbn [cheb2]. destruct (cheb2 k x). reflexivity. Qed.
Lemma T_0 x : T 0 x = 1. Proof. reflexivity. Qed.
Lemma T_1 x : T 1 x = x. Proof. reflexivity. Qed.
Lemma T_SS k x : T (S (S k)) x = 2 * x * T (S k) x - T k x.
Proof.
  rewrite <- (cheb2_snd (S k)), <- (cheb2_snd k). unfold T. cbn [cheb2]. destruct (cheb2 k x). reflexivity.
Qed.
Lemma two_step (P : nat -> Prop) : P 0%nat -> P 1%nat -> (forall n, P n -> P (S n) -> P (S (S n))) -> forall n, P n.
Proof. intros A B C. assert (forall n, P n /\ P (S n)) as H by (induction n as [|n [U V]]; auto). intros n. apply H. Qed.
Lemma T_cos k : forall t, T k (cos t) = cos (INR k * t).
Proof.
  induction k as [| |k A B] using two_step; intros t.
  - rewrite T_0. cbn [INR]. rewrite Rmult_0_l, cos_0. auto.
  - rewrite T_1. cbn [INR]. rewrite Rmult_1_l. auto.
  - rewrite T_SS, A, B. rewrite !S_INR.
    replace ((INR k + 1 + 1) * t) with ((INR k + 1) * t + t) by ring.
    replace (INR k * t) with ((INR k + 1) * t - t) by ring. rewrite cos_plus, cos_minus. ring.
Qed.
Lemma T_bound k x : -1 <= x <= 1 -> Rabs (T k x) <= 1.
Proof. intros H. rewrite <- (cos_acos x H), T_cos. apply Rabs_le. pose proof (COS_bound (INR k * acos x)). lra. Qed.
Lemma T_mul_le j : forall i x, (j <= i)%nat -> 2 * (T i x * T j x) = T (i + j) x + T (i - j) x.
Proof.
  induction j as [| |j A B] using two_step; intros i x L.
  - rewrite Nat.add_0_r, Nat.sub_0_r, T_0. ring.
  - destruct i as [|i]; [lia|]. replace (S i + 1)%nat with (S (S i)) by lia. replace (S i - 1)%nat with i by lia. rewrite T_SS, T_1. ring.
  - specialize (A i x ltac:(lia)). specialize (B i x ltac:(lia)).
    replace (i + S (S j))%nat with (S (S (i + j))) by lia. replace (i + S j)%nat with (S (i + j)) in B by lia.
    remember (i - S (S j))%nat as m eqn:Em. replace (i - S j)%nat with (S m) in B by lia. replace (i - j)%nat with (S (S m)) in A by lia.
    rewrite (T_SS j), (T_SS (i + j)). rewrite (T_SS m) in A.
    replace (2 * (T i x * (2 * x * T (S j) x - T j x))) with (2 * x * (2 * (T i x * T (S j) x)) - 2 * (T i x * T j x)) by ring.
    rewrite A, B. ring.
Qed.
Lemma T_mul i j x : 2 * (T i x * T j x) = T (i + j) x + T (distance i j) x.
Proof.
  unfold distance. destruct (Nat.le_ge_cases j i) as [L|L].
  - replace (i - j + (j - i))%nat with (i - j)%nat by lia. apply T_mul_le; auto.
  - replace (i - j + (j - i))%nat with (j - i)%nat by lia. rewrite (Rmult_comm (T i x)), (Nat.add_comm i). apply T_mul_le; auto.
Qed.

(** ** Exact arithmetic *)
Definition RO : ops R R := mkOps R R INR Ropp (fun a => a / 2) Rplus Rminus Rmult Rabs Rplus.
Lemma fn_neg c x : fn (c_neg RO c) x = - fn c x.
Proof. induction c as [|[k a] c IH]; cbn [c_neg map fn fst snd]; [ring|]. fold (c_neg RO c). rewrite IH. cbn. ring. Qed.
Lemma fn_scale c s x : fn (c_scale RO c s) x = fn c x * s.
Proof. induction c as [|[k a] c IH]; cbn [c_scale map fn fst snd]; [ring|]. fold (c_scale RO c s). rewrite IH. cbn. ring. Qed.
Lemma fn_add c : forall d x, fn (c_add RO c d) x = fn c x + fn d x.
Proof.
  induction c as [|[i a] c IH]; intros d x.
  - destruct d; cbn [c_add fn]; ring.
  - induction d as [|[j b] d IHd]; cbn [c_add]; [cbn [fn]; ring|].
    destruct (Nat.eqb_spec i j) as [->|N]; [cbn [fn o_add RO]; rewrite IH; ring|].
    destruct (Nat.ltb_spec i j); cbn [fn] in *; [rewrite IH; cbn [fn]; ring|].
    change ((fix go (q : terms R) : terms R := match q with
       | [] => (i, a) :: c
       | (j0, d0) :: q' => if Nat.eqb i j0 then (i, o_add RO a d0) :: c_add RO c q' else if Nat.ltb i j0 then (i, a) :: c_add RO c q else (j0, d0) :: go q'
       end) d) with (c_add RO ((i, a) :: c) d). rewrite IHd. ring.
Qed.
Lemma fn_app c d x : fn (c ++ d) x = fn c x + fn d x.
Proof. induction c as [|[k a] c IH]; cbn [app fn]; [ring|rewrite IH; ring]. Qed.

(** The function of a buffer. *)
Fixpoint bufval (n : nat) (b : list R) (x : R) : R :=
  match b with [] => 0 | a :: b => a * T n x + bufval (S n) b x end.
Lemma upd_val b : forall n i v b' x, upd RO b i v = Some b' -> bufval n b' x = bufval n b x + v * T (n + i) x.
Proof.
  induction b as [|a b IH]; intros n [|i] v b' x E; cbn [upd] in E; try discriminate.
  - injection E as <-. cbn [bufval o_add RO]. rewrite Nat.add_0_r. ring.
  - destruct (upd RO b i v) as [r|] eqn:Er; [|discriminate]. injection E as <-. cbn [bufval]. rewrite (IH _ _ _ _ x Er).
    replace (S n + i)%nat with (n + S i)%nat by lia. ring.
Qed.
Lemma buf_zero m : forall n x, bufval n (repeat 0 m) x = 0.
Proof. induction m; intros n x; cbn [repeat bufval]; auto. rewrite IHm. ring. Qed.
Lemma buf_out b : forall n x, fn (combine (seq n (length b)) (map (o_hlf RO) b)) x = bufval n b x / 2.
Proof. induction b as [|a b IH]; intros n x; cbn [length seq map combine fn bufval]; [lra|]. rewrite IH. cbn. lra. Qed.

Lemma fold_none {A B} (f : option A -> B -> option A) : (forall b, f None b = None) -> forall l, fold_left f l None = None.
Proof. intros H. induction l; cbn [fold_left]; auto. rewrite H. auto. Qed.
Lemma mul_row_val i c q : forall b b' x, fold_left (mul_term RO i c) q (Some b) = Some b' ->
  bufval 0 b' x = bufval 0 b x + 2 * (c * T i x * fn q x).
Proof.
  induction q as [|[j d] q IH]; intros b b' x E; cbn [fold_left fn] in *.
  - injection E as <-. ring.
  - unfold mul_term at 2 in E. cbn [fst snd] in E. destruct (upd RO b (distance i j) _) as [b1|] eqn:E1.
    2:{ rewrite fold_none in E; [discriminate|]. reflexivity. }
    destruct (upd RO b1 (i + j) _) as [b2|] eqn:E2.
    2:{ rewrite fold_none in E; [discriminate|]. reflexivity. }
    rewrite (IH _ _ x E), (upd_val _ 0 _ _ _ x E2), (upd_val _ 0 _ _ _ x E1). cbn [o_mul RO]. rewrite !Nat.add_0_l.
    pose proof (T_mul i j x) as H.
    replace (bufval 0 b x + c * d * T (distance i j) x + c * d * T (i + j) x + 2 * (c * T i x * fn q x))
      with (bufval 0 b x + c * d * (T (i + j) x + T (distance i j) x) + 2 * (c * T i x * fn q x)) by ring.
    rewrite <- H. ring.
Qed.
Lemma mul_buffer_val q p : forall b b' x, mul_buffer RO p q b = Some b' -> bufval 0 b' x = bufval 0 b x + 2 * (fn p x * fn q x).
Proof.
  unfold mul_buffer. induction p as [|[i c] p IH]; intros b b' x E; cbn [fold_left fn fst snd] in *.
  - injection E as <-. ring.
  - destruct (fold_left (mul_term RO i c) q (Some b)) as [b1|] eqn:E1.
    + rewrite (IH _ _ x E), (mul_row_val _ _ _ _ _ x E1). ring.
    + rewrite fold_none in E; [discriminate|]. intros t. apply fold_none. reflexivity.
Qed.
Lemma fn_mul p q r x : c_mul RO p q = Some r -> fn r x = fn p x * fn q x.
Proof.
  unfold c_mul. destruct (back p) as [m|], (back q) as [n|]; try discriminate.
  destruct (mul_buffer RO p q _) as [b|] eqn:E; [|discriminate]. intros H. injection H as <-.
  rewrite buf_out, (mul_buffer_val _ _ _ _ x E). cbn [o_of RO INR]. rewrite buf_zero. field.
Qed.

(** Evaluation. *)
Lemma steps_T n : forall k x, steps RO n (x * 2) (T k x) (T (S k) x) = (T (n + k) x, T (S (n + k)) x).
Proof.
  induction n as [|n IH]; intros k x; cbn [steps Nat.add]; auto. cbn [o_sub o_mul RO].
  replace (x * 2 * T (S k) x - T k x) with (T (S (S k)) x) by (rewrite T_SS; ring). rewrite IH.
  replace (n + S k)%nat with (S (n + k)) by lia. auto.
Qed.
Lemma eval_loop_ok l : forall k x r, Forall (fun t => k < fst t)%nat l -> increasing l ->
  forall k', (S k' <= S k)%nat -> eval_loop RO (x * 2) l (S k') (T k' x) (T (S k') x) r = r + fn l x.
Proof.
  induction l as [|[i a] l IH]; intros k x r F S k' L; cbn [eval_loop fn]; [ring|].
  inversion_clear F as [|? ? Fi F']. cbn [fst] in Fi. unfold increasing in S. cbn [map fst] in S. inversion_clear S as [|? ? S' SF].
  rewrite steps_T. replace (i - Datatypes.S k' + k')%nat with (i - 1)%nat by lia. replace (Nat.max (Datatypes.S k') i) with (Datatypes.S (i - 1)) by lia.
  rewrite (IH i); auto; try lia.
  - cbn [o_add o_mul RO]. replace (Datatypes.S (i - 1)) with i by lia. ring.
  - rewrite Forall_forall in *. intros t I. apply SF. apply in_map. auto.
Qed.
Lemma evaluate_exact l x : increasing l -> evaluate RO l x = fn l x.
Proof.
  intros S. unfold evaluate. cbn [o_mul o_of o_add RO INR]. replace (x * 0 + 1) with (T 0 x) by (rewrite T_0; ring).
  replace (x * (1 + 1)) with (x * 2) by ring.
  assert (forall l r, increasing l -> Forall (fun t => 0 < fst t)%nat l -> eval_loop RO (x * 2) l 1 (T 0 x) x r = r + fn l x) as H.
  { intros l' r S' F. pose proof (eval_loop_ok l' 0 x r F S' 0 (le_n _)) as E. rewrite T_1 in E. auto. }
  destruct l as [|[[|i] a] l]; cbn [fn].
  - ring.
  - unfold increasing in S. cbn [map fst] in S. inversion_clear S as [|? ? S' SF]. rewrite H; [rewrite T_0; ring|exact S'|].
    rewrite Forall_forall in *. intros t I. apply SF. apply in_map. auto.
  - rewrite H; [cbn [fn]; ring|exact S|]. unfold increasing in S. cbn [map fst] in S. inversion_clear S as [|? ? S' SF]. constructor; [cbn; lia|].
    rewrite Forall_forall in *. intros t I. specialize (SF (fst t) (in_map fst _ _ I)). lia.
Qed.

(** ** Enclosures follow the exact arithmetic *)
Section Enc.
Context {X M : Type} (O : ops X M) (mem : X -> R -> Prop) (ub : M -> R -> Prop) (E : encloses_ops O mem ub).
Notation coefs := (coefficients mem).

Lemma coefs_fst p c : coefs p c -> map fst p = map fst c.
Proof. induction 1 as [|[i y] [j b] p c [A _] _ IH]; cbn [map fst] in *; congruence. Qed.
Lemma coefs_neg p c : coefs p c -> coefs (c_neg O p) (c_neg RO c).
Proof. induction 1 as [|t u p c [A B] _ IH]; constructor; auto. split; auto. apply (e_neg _ _ _ E). auto. Qed.
Lemma coefs_scale p c s a : coefs p c -> mem s a -> coefs (c_scale O p s) (c_scale RO c a).
Proof. intros H S. induction H as [|t u p c [A B] _ IH]; constructor; auto. split; auto. apply (e_mul _ _ _ E); auto. Qed.
Lemma c_add_cons {Y N} (Q : ops Y N) i c p j d q : c_add Q ((i, c) :: p) ((j, d) :: q) =
  if Nat.eqb i j then (i, o_add Q c d) :: c_add Q p q else if Nat.ltb i j then (i, c) :: c_add Q p ((j, d) :: q) else (j, d) :: c_add Q ((i, c) :: p) q.
Proof. reflexivity. Qed.
Lemma coefs_add p c : coefs p c -> forall q d, coefs q d -> coefs (c_add O p q) (c_add RO c d).
Proof.
  intros H. induction H as [|[i y] [i' a] p c [A B] H IH]; intros q d D.
  - destruct D as [|? ? ? ? D1 D2]; constructor; auto.
  - cbn [fst snd] in *. subst i'. induction D as [|[j z] [j' b] q d [A' B'] D IHd].
    + constructor; auto.
    + cbn [fst snd] in *. subst j'. rewrite !c_add_cons. destruct (Nat.eqb i j); [|destruct (Nat.ltb i j)].
      * constructor; [|apply IH; auto]. split; auto. apply (e_add _ _ _ E); auto.
      * constructor; [split; auto|]. apply IH. constructor; auto.
      * constructor; [split; auto|]. apply IHd.
Qed.
Lemma upd_mem b : forall b' i v a, Forall2 mem b b' -> mem v a ->
  match upd O b i v, upd RO b' i a with Some r, Some r' => Forall2 mem r r' | None, None => True | _, _ => False end.
Proof.
  induction b as [|y b IH]; intros b' i v a H V; inversion H as [|? z ? b2 Y Z]; subst; cbn [upd]; auto. destruct i as [|i].
  - constructor; auto. apply (e_add _ _ _ E); auto.
  - specialize (IH b2 i v a Z V). destruct (upd O b i v), (upd RO b2 i a); auto.
Qed.
Definition both (r : option (list X)) (r' : option (list R)) : Prop :=
  match r, r' with Some r, Some r' => Forall2 mem r r' | None, None => True | _, _ => False end.
Lemma row_mem i y a q d : mem y a -> coefs q d -> forall b b', both b b' ->
  both (fold_left (mul_term O i y) q b) (fold_left (mul_term RO i a) d b').
Proof.
  intros Y D. induction D as [|[j z] [j' c] q d [A B] D IH]; intros b b' H; cbn [fold_left]; auto. cbn [fst snd] in *. subst j'. apply IH.
  unfold mul_term. cbn [fst snd]. destruct b as [b|], b' as [b'|]; cbn [both] in *; auto; try contradiction.
  assert (mem (o_mul O y z) (o_mul RO a c)) as P by (apply (e_mul _ _ _ E); auto).
  pose proof (upd_mem b b' (distance i j) _ _ H P) as U. destruct (upd O b _ _) as [b1|], (upd RO b' _ _) as [b1'|]; cbn [both] in *; auto; try contradiction.
  apply upd_mem; auto.
Qed.
Lemma buffer_mem q d : coefs q d -> forall p c, coefs p c -> forall b b', Forall2 mem b b' -> both (mul_buffer O p q b) (mul_buffer RO c d b').
Proof.
  intros D p c C b b' B. unfold mul_buffer. assert (both (Some b) (Some b')) as H by exact B. clear B. revert H. generalize (Some b) (Some b'). clear b b'.
  induction C as [|[i y] [i' a] p c [A B] C IH]; intros b b' H; cbn [fold_left]; auto. cbn [fst snd] in *. subst i'. apply IH. apply row_mem; auto.
Qed.
Lemma back_fst {Y Z} (p : terms Y) (c : terms Z) : map fst p = map fst c -> back p = back c.
Proof.
  intros H. unfold back. assert (map fst (rev p) = map fst (rev c)) as R by (rewrite !map_rev; congruence).
  destruct (rev p), (rev c); cbn [map] in R; try discriminate; auto. injection R; congruence.
Qed.
Lemma out_mem b b' n : Forall2 mem b b' -> coefs (combine (seq n (length b)) (map (o_hlf O) b)) (combine (seq n (length b')) (map (o_hlf RO) b')).
Proof.
  intros H. revert n. induction H as [|? ? ? ? A B IH]; intros n; cbn [length seq map combine]; constructor; [|apply IH]. split; auto. apply (e_hlf _ _ _ E). auto.
Qed.
Lemma coefs_mul p c q d r : coefs p c -> coefs q d -> c_mul O p q = Some r -> exists s, c_mul RO c d = Some s /\ coefs r s.
Proof.
  intros C D. unfold c_mul. rewrite (back_fst p c (coefs_fst _ _ C)), (back_fst q d (coefs_fst _ _ D)).
  destruct (back c) as [m|], (back d) as [n|]; try discriminate.
  assert (Forall2 mem (repeat (o_of O 0) (m + n + 1)) (repeat (o_of RO 0) (m + n + 1))) as Z.
  { induction (m + n + 1)%nat; cbn [repeat]; constructor; auto. apply (e_of _ _ _ E 0). }
  pose proof (buffer_mem q d D p c C _ _ Z) as B. destruct (mul_buffer O p q _) as [b|]; [|discriminate].
  destruct (mul_buffer RO c d _) as [b'|]; cbn [both] in B; [|contradiction]. intros H. injection H as <-. eexists. split; [reflexivity|].
  apply out_mem. auto.
Qed.

(** The product exists unless a factor has no terms. *)
Lemma upd_some {Y N} (Q : ops Y N) b : forall i v, (i < length b)%nat -> exists r, upd Q b i v = Some r /\ length r = length b.
Proof.
  induction b as [|y b IH]; intros i v L; cbn [length] in L; [lia|]. destruct i as [|i]; cbn [upd]; [eexists; split; reflexivity|].
  destruct (IH i v ltac:(lia)) as (r & -> & Lr). eexists. split; [reflexivity|]. cbn [length]. lia.
Qed.
Lemma row_some {Y N} (Q : ops Y N) i c q n : Forall (fun t => i + fst t < n)%nat q -> forall b, length b = n ->
  exists r, fold_left (mul_term Q i c) q (Some b) = Some r /\ length r = n.
Proof.
  induction 1 as [|[j d] q A _ IH]; intros b L; cbn [fold_left]; [eauto|]. cbn [fst] in A. unfold mul_term at 2. cbn [fst snd].
  destruct (upd_some Q b (distance i j) (o_mul Q c d)) as (b1 & -> & L1); [unfold distance; lia|].
  destruct (upd_some Q b1 (i + j) (o_mul Q c d)) as (b2 & -> & L2); [lia|]. apply IH. lia.
Qed.
Lemma back_max {Y} (p : terms Y) m : increasing p -> back p = Some m -> Forall (fun t => fst t <= m)%nat p.
Proof.
  unfold back, increasing. intros S B. destruct (rev p) as [|[k a] l] eqn:Er; [discriminate|]. injection B as <-. cbn [fst].
  assert (p = rev l ++ [(k, a)]) as -> by (rewrite <- (rev_involutive p), Er; reflexivity).
  clear Er. induction (rev l) as [|t l' IH]; cbn [app map] in *; [constructor; auto|]. inversion_clear S as [|? ? S' SF]. constructor; auto.
  rewrite map_app in SF. apply Forall_app in SF. destruct SF as [_ SF]. inversion_clear SF. cbn [fst] in *. lia.
Qed.
Lemma mul_some {Y N} (Q : ops Y N) p q : increasing p -> increasing q -> p <> [] -> q <> [] -> exists r, c_mul Q p q = Some r /\ increasing r.
Proof.
  intros Sp Sq Np Nq. unfold c_mul.
  assert (exists m, back p = Some m) as [m Em].
  { unfold back. destruct (rev p) eqn:Er; eauto. apply (f_equal (@rev _)) in Er. rewrite rev_involutive in Er. contradiction. }
  assert (exists n, back q = Some n) as [n En].
  { unfold back. destruct (rev q) eqn:Er; eauto. apply (f_equal (@rev _)) in Er. rewrite rev_involutive in Er. contradiction. }
  rewrite Em, En. pose proof (back_max p m Sp Em) as Bp. pose proof (back_max q n Sq En) as Bq.
  assert (exists b, mul_buffer Q p q (repeat (o_of Q 0%nat) (m + n + 1)) = Some b) as [b Eb].
  { unfold mul_buffer. assert (length (repeat (o_of Q 0%nat) (m + n + 1)) = (m + n + 1)%nat) as L by apply repeat_length. revert L.
    generalize (repeat (o_of Q 0%nat) (m + n + 1)). clear Em En Sp Sq Np Nq. induction Bp as [|[i c] p A _ IH]; intros b L; cbn [fold_left]; eauto.
    cbn [fst snd] in *. destruct (row_some Q i c q (m + n + 1)) with (b := b) as (b1 & -> & L1); auto.
    rewrite Forall_forall in *. intros t I. specialize (Bq t I). cbn in Bq. lia. }
  rewrite Eb. eexists. split; [reflexivity|]. unfold increasing. clear. generalize 0%nat. induction b as [|y b IH]; intros n; cbn [length seq map combine fst]; constructor; auto.
  clear IH. assert (forall (l : list Y) k, (n < k)%nat -> Forall (lt n) (map fst (combine (seq k (length l)) (map (o_hlf Q) l)))) as H.
  { induction l; intros k K; cbn [length seq map combine fst]; constructor; auto. }
  apply H. lia.
Qed.
Lemma add_below {Y N} (Q : ops Y N) n p : forall q, Forall (lt n) (map fst p) -> Forall (lt n) (map fst q) -> Forall (lt n) (map fst (c_add Q p q)).
Proof.
  induction p as [|[i c] p IH]; intros q A B; [destruct q; auto|]. induction q as [|[j d] q IHq]; auto. rewrite c_add_cons. cbn [map fst] in A, B.
  inversion_clear A. inversion_clear B as [|? ? B1 B2]. destruct (Nat.eqb i j); [|destruct (Nat.ltb i j)]; cbn [map fst]; constructor; auto.
  apply IH; auto. cbn [map fst]. constructor; auto.
Qed.
Lemma add_increasing {Y N} (Q : ops Y N) p : forall q, increasing p -> increasing q -> increasing (c_add Q p q).
Proof.
  unfold increasing. induction p as [|[i c] p IH]; intros q A B; [destruct q; auto|]. induction q as [|[j d] q IHq]; auto. rewrite c_add_cons.
  pose proof A as A0. pose proof B as B0. cbn [map fst] in A, B. inversion_clear A as [|? ? A1 A2]. inversion_clear B as [|? ? B1 B2].
  destruct (Nat.eqb_spec i j) as [->|N1]; [|destruct (Nat.ltb_spec i j) as [L|L]]; cbn [map fst]; constructor; auto; try (apply add_below; auto); cbn [map fst].
  - constructor; [lia|]. eapply Forall_impl; [|exact B2]. cbn. intros; lia.
  - constructor; [lia|]. eapply Forall_impl; [|exact A2]. cbn. intros; lia.
Qed.

(** Evaluation and norm. *)
Lemma steps_mem n : forall tx p c tx' p' c', mem tx tx' -> mem p p' -> mem c c' ->
  mem (fst (steps O n tx p c)) (fst (steps RO n tx' p' c')) /\ mem (snd (steps O n tx p c)) (snd (steps RO n tx' p' c')).
Proof.
  induction n as [|n IH]; intros; cbn [steps]; auto. apply IH; auto. apply (e_sub _ _ _ E); auto. apply (e_mul _ _ _ E); auto.
Qed.
Lemma loop_mem tx tx' l d : mem tx tx' -> coefs l d -> forall k p c r p' c' r', mem p p' -> mem c c' -> mem r r' ->
  mem (eval_loop O tx l k p c r) (eval_loop RO tx' d k p' c' r').
Proof.
  intros H D. induction D as [|[i y] [i' a] l d [A B] D IH]; intros k p c r p' c' r' P C S; cbn [eval_loop]; auto. cbn [fst snd] in *. subst i'.
  destruct (steps_mem (i - k) tx p c tx' p' c' H P C) as [U V].
  destruct (steps O (i - k) tx p c) as [p1 c1], (steps RO (i - k) tx' p' c') as [p2 c2]. cbn [fst snd] in *. apply IH; auto.
  apply (e_add _ _ _ E); auto. apply (e_mul _ _ _ E); auto.
Qed.
Lemma evaluate_mem l d x a : coefs l d -> mem x a -> mem (evaluate O l x) (evaluate RO d a).
Proof.
  intros D H. unfold evaluate.
  assert (mem (o_mul O x (o_of O 0%nat)) (o_mul RO a (o_of RO 0%nat))) as Z by (apply (e_mul _ _ _ E); auto; apply (e_of _ _ _ E)).
  assert (mem (o_add O (o_mul O x (o_of O 0%nat)) (o_of O 1%nat)) (o_add RO (o_mul RO a (o_of RO 0%nat)) (o_of RO 1%nat))) as P
    by (apply (e_add _ _ _ E); auto; apply (e_of _ _ _ E)).
  assert (mem (o_mul O x (o_of O 2%nat)) (o_mul RO a (o_of RO 2%nat))) as W by (apply (e_mul _ _ _ E); auto; apply (e_of _ _ _ E)).
  pose proof D as D0. destruct D as [|[i y] [i' b] l d [A B] D]; auto. cbn [fst snd] in *. subst i'.
  destruct i as [|i]; apply loop_mem; auto.
Qed.
Fixpoint sum_mag (c : list (nat * R)) : R := match c with [] => 0 | (_, a) :: c => Rabs a + sum_mag c end.
Lemma norm_mem p c : coefs p c -> forall m s, ub m s -> ub (fold_left (fun r t => o_madd O r (o_mag O (snd t))) p m) (s + sum_mag c).
Proof.
  induction 1 as [|[i y] [i' a] p c [A B] D IH]; intros m s H; cbn [fold_left sum_mag].
  - rewrite Rplus_0_r. auto.
  - cbn [snd] in *. rewrite <- Rplus_assoc. apply IH. apply (e_madd _ _ _ E); auto. apply (e_mag _ _ _ E); auto.
Qed.
Lemma fn_bound c x : -1 <= x <= 1 -> Rabs (fn c x) <= sum_mag c.
Proof.
  intros H. induction c as [|[k a] c IH]; cbn [fn sum_mag]; [rewrite Rabs_R0; lra|]. eapply Rle_trans; [apply Rabs_triang|].
  rewrite Rabs_mult. pose proof (T_bound k x H). pose proof (Rabs_pos a). pose proof (Rabs_pos (T k x)). nra.
Qed.
Lemma sup_norm_ok p c x : coefs p c -> -1 <= x <= 1 -> ub (sup_norm O p) (Rabs (fn c x)).
Proof.
  intros C H. apply (e_less _ _ _ E) with (a := Rabs 0 + sum_mag c).
  - apply norm_mem; auto. apply (e_mag _ _ _ E). apply (e_of _ _ _ E 0).
  - rewrite Rabs_R0, Rplus_0_l. apply fn_bound. auto.
Qed.
End Enc.
