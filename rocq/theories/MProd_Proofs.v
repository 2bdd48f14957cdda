(** * Proofs about the product of multivariate Chebyshev polynomials *)

From Coq Require Import List Arith NArith Bool Reals Lra Lia.
From Verif Require Import Poly_Model Poly_Proofs Cheb_Model Cheb_Spec Cheb_Proofs MCheb_Model MCheb_Spec MCheb_Proofs MProd_Model.
Import ListNotations.
Local Open Scope R_scope.

(** ** Groups of terms with equal degrees before variable [k] *)
Fixpoint grp (a : mi) (k : nat) (l : list (mi * R)) : list (mi * R) :=
  match l with [] => [] | t :: l' => if equal_up_to (fst t) a k then t :: grp a k l' else [] end.
Fixpoint aft (a : mi) (k : nat) (l : list (mi * R)) : list (mi * R) :=
  match l with [] => [] | t :: l' => if equal_up_to (fst t) a k then aft a k l' else l end.
Lemma grp_aft a k l : grp a k l ++ aft a k l = l.
Proof. induction l as [|t l IH]; cbn [grp aft]; auto. destruct (equal_up_to (fst t) a k); auto. cbn [app]. congruence. Qed.
Lemma split_grp d a k : equal_up_to d a k = true -> forall l,
  grp a k l = grp d (S k) l ++ grp a k (aft d (S k) l) /\ aft a k l = aft a k (aft d (S k) l).
Proof.
  intros H. induction l as [|t l [A B]]; [split; auto|]. cbn [grp aft]. fold (aft d (S k) l) (grp d (S k) l). destruct (equal_up_to (fst t) d (S k)) eqn:Et.
  - apply equal_S in Et as [Et _]. rewrite (equal_trans k (fst t) d a Et H). rewrite A, B. split; auto.
  - cbn [grp aft]. destruct (equal_up_to (fst t) a k); auto.
Qed.
Lemma equal_len k : forall a b, length a = k -> length b = k -> equal_up_to a b k = true -> a = b.
Proof.
  induction k; intros [|i a] [|j b] A B H; cbn [length] in *; try lia; auto. cbn [equal_up_to] in H.
  destruct (N.eqb_spec i j) as [->|]; [|discriminate]. f_equal. apply IHk; auto.
Qed.
Definition lens (n : nat) (l : list (mi * R)) : Prop := Forall (fun t : mi * R => length (fst t : list N) = n) l.
Lemma lens_app n l m : lens n (l ++ m) <-> lens n l /\ lens n m.
Proof. unfold lens. apply Forall_app. Qed.
Lemma lens_aft n a k l : lens n l -> lens n (aft a k l).
Proof. intros H. rewrite <- (grp_aft a k l) in H. apply lens_app in H. tauto. Qed.
Lemma lens_grp n a k l : lens n l -> lens n (grp a k l).
Proof. intros H. rewrite <- (grp_aft a k l) in H. apply lens_app in H. tauto. Qed.
Lemma nodup_aft a k l : NoDup (map fst l) -> NoDup (map fst (aft a k l)).
Proof. induction l as [|t l IH]; intros H; cbn [aft]; auto. destruct (equal_up_to (fst t) a k); auto. cbn [map] in H. inversion_clear H. auto. Qed.
Lemma grp_degree n (d : mi) k (l : list (mi * R)) : (k < n)%nat -> length d = n -> lens n l ->
  Forall (fun t : mi * R => nth_error (fst t : list N) k = Some (nth k d 0%N)) (grp d (S k) l).
Proof.
  intros K L F. induction F as [|t l A F IH]; [constructor|]. cbn [grp]. match goal with |- Forall _ (if ?b then _ else _) => destruct b eqn:Et end; constructor; auto.
  apply equal_S in Et as [_ Et]. refine (eq_trans Et _). apply nth_error_nth'. lia.
Qed.
Lemma psum_grp n (d : mi) k (l : list (mi * R)) xs : (k < n)%nat -> length d = n -> lens n l -> length xs = n ->
  psum k (grp d (S k) l) xs = psum (S k) (grp d (S k) l) xs * T (N.to_nat (nth k d 0%N)) (nth k xs 0).
Proof. intros K L F Lx. apply psum_step; [apply nth_error_nth'; lia|]. apply (grp_degree n); auto. Qed.
Lemma psum_add k c : forall d x, psum k (m_add RO c d) x = psum k c x + psum k d x.
Proof.
  induction c as [|[i a] c IH]; intros d x.
  - destruct d; cbn [m_add psum]; ring.
  - induction d as [|[j b] d IHd]; [cbn [m_add psum]; ring|]. rewrite m_add_cons.
    destruct (mi_eqb i j) eqn:Eij; [apply mi_eqb_eq in Eij as ->; cbn [psum o_add RO]; rewrite IH; ring|].
    destruct (reverse_lexicographic_less i j); cbn [psum] in *; [rewrite IH; cbn [psum]; ring|]. rewrite IHd. ring.
Qed.
Lemma set_skip k i : forall a, skipn (S k) (set_degree a k i) = skipn (S k) a.
Proof. induction k as [|k IH]; intros [|d a]; cbn [set_degree]; auto. cbn [skipn]. cbn [skipn] in IH. apply IH. Qed.
Lemma set_len i k : forall a, length (set_degree a k i) = length a.
Proof. induction k as [|k IH]; intros [|d a]; cbn [set_degree length]; auto. Qed.
Lemma set_nth i k : forall a, (k < length a)%nat -> nth_error (set_degree a k i) k = Some i.
Proof. induction k as [|k IH]; intros [|d a] L; cbn [set_degree nth_error length] in *; try lia; auto. apply IH. lia. Qed.

Section Enc.
Context {X M : Type} (O : ops X M) (same0 : X -> bool) (mem : X -> R -> Prop) (ub : M -> R -> Prop) (E : encloses_ops O mem ub).
Context (S0 : forall c a, same0 c = true -> mem c a -> a = 0).
Notation coefs := (mcoefficients mem).
Context (n : nat).

(** The polynomial [p] stands for [F] in the variables from [k] on. *)
Definition pval (k : nat) (p : mterms X) (F : list R -> R) : Prop :=
  exists c, coefs p c /\ lens n c /\ forall xs, length xs = n -> psum k c xs = F xs.
(** The buffer stands for [F], the first entry being of degree [i]. *)
Fixpoint bval (k i : nat) (b : list (mterms X)) (F : list R -> R) : Prop :=
  match b with
  | [] => forall xs, length xs = n -> F xs = 0
  | p :: b => exists G H, pval (S k) p G /\ bval k (S i) b H /\ forall xs, length xs = n -> F xs = G xs * T i (nth k xs 0) + H xs
  end.
Lemma bval_ext k b : forall i F G, (forall xs, length xs = n -> F xs = G xs) -> bval k i b F -> bval k i b G.
Proof.
  induction b as [|p b IH]; intros i F G H B; cbn [bval] in *.
  - intros xs L. rewrite <- H; auto.
  - destruct B as (U & V & A & B & C). exists U, V. split; [auto|]. split; [auto|]. intros xs L. rewrite <- H; auto.
Qed.
Lemma pval_add k p q F G : pval k p F -> pval k q G -> pval k (m_add O p q) (fun x => F x + G x).
Proof.
  intros (c & C & L & H) (d & D & L' & H'). exists (m_add RO c d). split; [apply (mcoefs_add O mem ub E); auto|].
  split; [apply (m_add_size RO n); auto|]. intros xs Lx. rewrite psum_add, H, H'; auto.
Qed.
Lemma m_upd_val k p P : pval (S k) p P -> forall b i j F b', bval k i b F -> m_upd O b j p = Some b' ->
  bval k i b' (fun xs => F xs + P xs * T (i + j) (nth k xs 0)).
Proof.
  intros HP. induction b as [|q b IH]; intros i [|j] F b' B U; cbn [m_upd] in U; try discriminate; cbn [bval] in B; destruct B as (G & H & A & B & C).
  - injection U as <-. cbn [bval]. exists (fun x => G x + P x), H. split; [apply pval_add; auto|]. split; [auto|].
    intros xs L. rewrite C by auto. rewrite Nat.add_0_r. ring.
  - destruct (m_upd O b j p) as [r|] eqn:Er; [|discriminate]. injection U as <-. cbn [bval].
    exists G, (fun xs => H xs + P xs * T (S i + j) (nth k xs 0)). split; [auto|]. split; [eapply IH; eauto|].
    intros xs L. rewrite C by auto. replace (S i + j)%nat with (i + S j)%nat by lia. ring.
Qed.
Lemma bval_zero k m : forall i, bval k i (repeat [] m) (fun _ => 0).
Proof.
  induction m as [|m IH]; intros i; cbn [repeat bval]; auto. exists (fun _ => 0), (fun _ => 0). split; [|split; [auto|intros; ring]].
  exists []. split; [constructor|]. split; [constructor|]. reflexivity.
Qed.
Lemma collect_val k b : (k < n)%nat -> forall i F, bval k i b F -> pval k (collect O k i b) (fun xs => F xs / 2).
Proof.
  intros K. induction b as [|p b IH]; intros i F B; cbn [bval collect] in *.
  - exists []. split; [constructor|]. split; [constructor|]. intros xs L. rewrite B by auto. cbn [psum]. lra.
  - destruct B as (G & H & (c & C & L & V) & B & W). destruct (IH _ _ B) as (d & D & L' & V').
    exists (map (fun t => (set_degree (fst t) k (N.of_nat i), snd t / 2)) c ++ d). split; [|split].
    + apply Forall2_app; auto. clear -C E. induction C as [|t u p c [A Bm] C IH]; cbn [map]; constructor; auto.
      cbn [fst snd]. split; [rewrite A; auto|]. apply (e_hlf _ _ _ E). auto.
    + apply lens_app. split; auto. unfold lens in *. apply Forall_map. eapply Forall_impl; [|exact L]. cbn beta. intros t Ht. cbn [fst]. rewrite set_len. exact Ht.
    + intros xs Lx. rewrite psum_app, V', W by auto. rewrite <- V by auto.
      assert (psum k (map (fun t => (set_degree (fst t) k (N.of_nat i), snd t / 2)) c) xs = psum (S k) c xs * T i (nth k xs 0) / 2) as Q.
      { clear -L K Lx. induction L as [|[a b] c A L IH]; [cbn [map psum]; lra|]. cbn [map psum fst snd] in *. rewrite IH.
        assert (nth_error (set_degree a k (N.of_nat i)) k = Some (N.of_nat i)) as Na by (apply set_nth; lia).
        assert (nth_error xs k = Some (nth k xs 0)) as Nx by (apply nth_error_nth'; lia).
        rewrite (skipn_step _ _ _ Na), (skipn_step _ _ _ Nx), set_skip. cbn [prodT]. rewrite Nnat.Nat2N.id. lra. }
      rewrite Q. lra.
Qed.

(** ** The recursion *)
Lemma coefs_cons a w l c : coefs ((a, w) :: l) c -> exists b c', c = (a, b) :: c' /\ mem w b /\ coefs l c'.
Proof. intros H. inversion H as [|? [a' b] ? c' [A B] C]; subst. cbn [fst snd] in *. subst a'. eauto. Qed.
Lemma mul_ok m : forall k, (k + m = n)%nat -> forall l1 l2 c1 c2 r q1 q2,
  coefs l1 c1 -> coefs l2 c2 -> lens n c1 -> lens n c2 -> NoDup (map fst c1) -> NoDup (map fst c2) ->
  mul_from O same0 n m k l1 l2 = Some (r, q1, q2) ->
  exists a1 a2, hd_error (map fst c1) = Some a1 /\ hd_error (map fst c2) = Some a2 /\
    coefs q1 (aft a1 k c1) /\ coefs q2 (aft a2 k c2) /\
    pval k r (fun xs => psum k (grp a1 k c1) xs * psum k (grp a2 k c2) xs).
Proof.
  induction m as [|m IH]; intros k K l1 l2 c1 c2 r q1 q2 C1 C2 L1 L2 D1 D2 H; cbn [mul_from] in H;
  destruct l1 as [|[a1 w1] t1]; try discriminate H; destruct l2 as [|[a2 w2] t2]; try discriminate H.
  - apply coefs_cons in C1 as (b1 & u1 & -> & M1 & C1). apply coefs_cons in C2 as (b2 & u2 & -> & M2 & C2).
    exists a1, a2. split; [reflexivity|]. split; [reflexivity|]. assert (k = n) as -> by lia. injection H as <- <- <-.
    assert (forall a b u, lens n ((a, b) :: u) -> NoDup (map fst ((a, b) :: u)) -> grp a n ((a, b) :: u) = [(a, b)] /\ aft a n ((a, b) :: u) = u) as G.
    { clear. intros a b u L D. inversion_clear L as [|? ? La Lu]. cbn [fst] in La. cbn [map fst] in D. inversion_clear D as [|? ? Na Du].
      cbn [grp aft fst]. rewrite equal_refl by lia. destruct u as [|t u]; cbn [grp aft]; auto.
      destruct (equal_up_to (fst t) a n) eqn:Et; auto. exfalso. inversion_clear Lu as [|? ? Lt Lu']. apply equal_len in Et; auto. apply Na. left. exact Et. }
    destruct (G a1 b1 u1 L1 D1) as [-> ->]. destruct (G a2 b2 u2 L2 D2) as [-> ->]. split; [auto|]. split; [auto|].
    assert (mem (o_mul O w1 w2) (b1 * b2)) as Mm by (apply (e_mul _ _ _ E); auto).
    inversion_clear L1 as [|? ? La1 Lu1]. inversion_clear L2 as [|? ? La2 Lu2]. cbn [fst] in La1, La2.
    assert (forall a xs, length a = n -> length xs = n -> prodT (skipn n a) (skipn n xs) = 1) as One.
    { intros a xs La Lx. rewrite !skipn_all2 by lia. reflexivity. }
    destruct (same0 (o_mul O w1 w2)) eqn:Es.
    + exists []. split; [constructor|]. split; [constructor|]. intros xs Lx. cbn [psum]. rewrite !One by auto. pose proof (S0 _ _ Es Mm) as Z.
      replace ((b1 * 1 + 0) * (b2 * 1 + 0)) with (b1 * b2) by ring. auto.
    + exists [(repeat 0%N n, b1 * b2)]. split; [constructor; [split; auto|constructor]|]. split; [constructor; [apply repeat_length|constructor]|].
      intros xs Lx. cbn [psum]. rewrite !One by (auto; apply repeat_length). ring.
  - (* a variable *)
    assert (k < n)%nat as Kn by lia.
    assert (exists b1 u1, c1 = (a1, b1) :: u1) as (b1 & u1 & E1) by (apply coefs_cons in C1 as (b & u & ? & _); eauto).
    assert (exists b2 u2, c2 = (a2, b2) :: u2) as (b2 & u2 & E2) by (apply coefs_cons in C2 as (b & u & ? & _); eauto).
    exists a1, a2. split; [subst c1; reflexivity|]. split; [subst c2; reflexivity|].
    set (l1 := (a1, w1) :: t1) in *. set (l2 := (a2, w2) :: t2) in *.
    match type of H with (match (?o _ _ _ _ _) with _ => _ end = _) => set (outer := o) in H end.
    match goal with outer := context [match ?i (length l2) _ _ _ _ with _ => _ end] |- _ => set (inner := i) in outer end.
    (* the inner loop *)
    assert (forall f2 from1 curr1 curr2 b f1 cc1 cc2 G b' p1 p2, coefs from1 f1 -> coefs curr1 cc1 -> coefs curr2 cc2 -> lens n f1 -> lens n cc2 ->
      NoDup (map fst f1) -> NoDup (map fst cc2) -> bval k 0 b G -> inner f2 from1 curr1 curr2 b = Some (b', p1, p2) ->
      coefs p2 (aft a2 k cc2) /\
      match grp a2 k cc2 with
      | [] => coefs p1 cc1 /\ b' = b
      | _ => exists d1, hd_error (map fst f1) = Some d1 /\ coefs p1 (aft d1 (S k) f1) /\
             bval k 0 b' (fun xs => G xs + 2 * (psum k (grp d1 (S k) f1) xs * psum k (grp a2 k cc2) xs))
      end) as IN.
    { induction f2 as [|f2 IHf]; intros from1 curr1 curr2 b f1 cc1 cc2 G b' p1 p2 F1 CC1 CC2 Lf Lc Df Dc B Hi.
      - unfold inner in Hi. destruct CC2 as [|[d2 v2] [d2' e2] curr2 cc2 [A2 B2] CC2].
        + injection Hi as <- <- <-. cbn [grp aft]. split; [constructor|auto].
        + cbn [fst snd] in A2, B2. subst d2'. cbn [grp aft fst]. destruct (equal_up_to d2 a2 k) eqn:Eq; [discriminate Hi|].
          injection Hi as <- <- <-. split; [constructor; auto|auto].
      - cbn [inner] in Hi. destruct CC2 as [|[d2 v2] [d2' e2] curr2 cc2 [A2 B2] CC2].
        { injection Hi as <- <- <-. cbn [grp aft]. split; [constructor|auto]. }
        cbn [fst snd] in A2, B2. subst d2'. destruct (equal_up_to d2 a2 k) eqn:Eq.
        2:{ injection Hi as <- <- <-. cbn [grp aft fst]. rewrite Eq. split; [constructor; auto|auto]. }
        destruct from1 as [|[d1 v1] from1]; [discriminate Hi|].
        fold inner in Hi.
        destruct (mul_from O same0 n m (S k) ((d1, v1) :: from1) ((d2, v2) :: curr2)) as [[[p x1] x2]|] eqn:Em; [|discriminate Hi].
        assert (coefs ((d2, v2) :: curr2) ((d2, e2) :: cc2)) as CC2' by (constructor; auto).
        destruct (IH (S k) ltac:(lia) _ _ _ _ _ _ _ F1 CC2' Lf Lc Df Dc Em) as (y1 & y2 & Y1 & Y2 & X1 & X2 & PV).
        cbn [map fst hd_error] in Y2. injection Y2 as <-.
        pose proof F1 as F1'. apply coefs_cons in F1' as (e1 & f1' & -> & _ & _). cbn [map fst hd_error] in Y1. injection Y1 as <-.
        destruct (m_upd O b _ p) as [bb|] eqn:U1; [|discriminate Hi]. destruct (m_upd O bb _ p) as [bbb|] eqn:U2; [|discriminate Hi].
        pose proof (m_upd_val k p _ PV _ _ _ _ _ (m_upd_val k p _ PV _ _ _ _ _ B U1) U2) as B2'. cbn [Nat.add] in B2'.
        destruct (split_grp d2 a2 k Eq ((d2, e2) :: cc2)) as [Sg Sa].
        destruct (IHf _ _ _ _ _ _ _ _ _ _ _ F1 X1 X2 Lf (lens_aft _ _ _ _ Lc) Df (nodup_aft _ _ _ Dc) B2' Hi) as [P2 P1].
        split; [rewrite Sa; exact P2|].
        assert (length d1 = n) as Ld1 by (inversion_clear Lf; auto). assert (length d2 = n) as Ld2 by (inversion_clear Lc; auto).
        assert (forall xs, length xs = n ->
          G xs + psum (S k) (grp d1 (S k) ((d1, e1) :: f1')) xs * psum (S k) (grp d2 (S k) ((d2, e2) :: cc2)) xs * T (distance (N.to_nat (nth k d1 0%N)) (N.to_nat (nth k d2 0%N))) (nth k xs 0)
               + psum (S k) (grp d1 (S k) ((d1, e1) :: f1')) xs * psum (S k) (grp d2 (S k) ((d2, e2) :: cc2)) xs * T (N.to_nat (nth k d1 0%N) + N.to_nat (nth k d2 0%N)) (nth k xs 0)
          = G xs + 2 * (psum k (grp d1 (S k) ((d1, e1) :: f1')) xs * psum k (grp d2 (S k) ((d2, e2) :: cc2)) xs)) as V.
        { intros xs Lx. rewrite (psum_grp n d1), (psum_grp n d2) by auto.
          pose proof (T_mul (N.to_nat (nth k d1 0%N)) (N.to_nat (nth k d2 0%N)) (nth k xs 0)) as Tm.
          set (t1' := T (N.to_nat (nth k d1 0%N)) (nth k xs 0)) in *. set (t2' := T (N.to_nat (nth k d2 0%N)) (nth k xs 0)) in *.
          set (ts := T (_ + _) _) in *. set (td := T (distance _ _) _) in *. 
          set (s1 := psum (S k) (grp d1 (S k) _) xs) in *. set (s2 := psum (S k) (grp d2 (S k) _) xs) in *.
          replace (2 * (s1 * t1' * (s2 * t2'))) with (s1 * s2 * (2 * (t1' * t2'))) by ring. rewrite Tm. ring. }
        assert (grp a2 k ((d2, e2) :: cc2) <> []) as Ng by (cbn [grp fst]; rewrite Eq; discriminate).
        destruct (grp a2 k ((d2, e2) :: cc2)) as [|g0 gs] eqn:Eg; [contradiction|]. exists d1. split; [reflexivity|].
        destruct (grp a2 k (aft d2 (S k) ((d2, e2) :: cc2))) as [|g1 gs1] eqn:Eg1.
        + destruct P1 as [P1 ->]. split; [exact P1|]. eapply bval_ext; [|exact B2']. intros xs Lx. cbn beta. rewrite V by auto. rewrite Sg, app_nil_r. auto.
        + destruct P1 as (d & Hd & P1 & Bv). cbn [map fst hd_error] in Hd. injection Hd as <-. split; [exact P1|]. eapply bval_ext; [|exact Bv].
          intros xs Lx. cbn beta. rewrite V by auto. rewrite Sg, psum_app. ring. }
    (* the outer loop *)
    assert (forall f1 from1 curr1 curr2 b g1 cc1 G b' p1 p2, coefs from1 g1 -> coefs curr1 cc1 -> lens n g1 -> NoDup (map fst g1) ->
      bval k 0 b G -> outer f1 from1 curr1 curr2 b = Some (b', p1, p2) ->
      coefs p1 (aft a1 k g1) /\ bval k 0 b' (fun xs => G xs + 2 * (psum k (grp a1 k g1) xs * psum k (grp a2 k c2) xs)) /\
      (grp a1 k g1 = [] /\ p2 = curr2 \/ coefs p2 (aft a2 k c2))) as OUT.
    { induction f1 as [|f1 IHf]; intros from1 curr1 curr2 b g1 cc1 G b' p1 p2 F1 CC1 Lf Df B Ho.
      - unfold outer in Ho. destruct F1 as [|[d1 v1] [d1' e1] from1 g1 [A1 B1] F1].
        + injection Ho as <- <- <-. cbn [grp aft]. split; [constructor|]. split; [|auto]. eapply bval_ext; [|exact B]. intros. cbn [psum]. ring.
        + cbn [fst snd] in A1, B1. subst d1'. cbn [grp aft fst]. destruct (equal_up_to d1 a1 k) eqn:Eq; [discriminate Ho|].
          injection Ho as <- <- <-. split; [constructor; auto|]. split; [|auto]. eapply bval_ext; [|exact B]. intros. cbn [psum]. ring.
      - cbn [outer] in Ho. destruct F1 as [|[d1 v1] [d1' e1] from1 g1 [A1 B1] F1].
        { injection Ho as <- <- <-. cbn [grp aft]. split; [constructor|]. split; [|auto]. eapply bval_ext; [|exact B]. intros. cbn [psum]. ring. }
        cbn [fst snd] in A1, B1. subst d1'. destruct (equal_up_to d1 a1 k) eqn:Eq.
        2:{ injection Ho as <- <- <-. cbn [grp aft fst]. rewrite Eq. split; [constructor; auto|]. split; [|auto]. eapply bval_ext; [|exact B]. intros. cbn [psum]. ring. }
        fold outer in Ho. destruct (inner (length l2) ((d1, v1) :: from1) curr1 l2 b) as [[[bb x1] x2]|] eqn:Ei; [|discriminate Ho].
        assert (coefs ((d1, v1) :: from1) ((d1, e1) :: g1)) as F1' by (constructor; auto).
        destruct (IN _ _ _ _ _ _ _ _ _ _ _ _ F1' CC1 C2 Lf L2 Df D2 B Ei) as [P2 P1].
        assert (grp a2 k c2 <> []) as Ng.
        { subst c2. cbn [grp fst]. rewrite equal_refl; [discriminate|]. inversion_clear L2 as [|? ? La Lr]. cbn [fst] in La. lia. }
        destruct (grp a2 k c2) as [|g0 gs] eqn:Eg; [contradiction|]. destruct P1 as (d & Hd & P1 & Bv). cbn [map fst hd_error] in Hd. injection Hd as <-.
        destruct (split_grp d1 a1 k Eq ((d1, e1) :: g1)) as [Sg Sa].
        destruct (IHf _ _ _ _ _ _ _ _ _ _ P1 P1 (lens_aft _ _ _ _ Lf) (nodup_aft _ _ _ Df) Bv Ho) as (Q1 & Q2 & Q3).
        split; [rewrite Sa; exact Q1|]. split.
        + eapply bval_ext; [|exact Q2]. intros xs Lx. cbn beta. rewrite Sg, psum_app. ring.
        + right. destruct Q3 as [[_ ->]|Q3]; auto. }
    destruct (outer (length l1) l1 l1 l2 _) as [[[b x1] x2]|] eqn:Eo; [|discriminate H]. injection H as <- <- <-.
    destruct (OUT _ _ _ _ _ _ _ _ _ _ _ C1 C1 L1 D1 (bval_zero k _ 0) Eo) as (Q1 & Q2 & Q3).
    split; [exact Q1|]. split.
    + destruct Q3 as [[Q3 _]|Q3]; auto. exfalso. subst c1. cbn [grp fst] in Q3. rewrite equal_refl in Q3; [discriminate|].
      inversion_clear L1 as [|? ? La Lr]. cbn [fst] in La. lia.
    + destruct (collect_val k b Kn 0 _ Q2) as (c & Cc & Lc & Vc). exists c. split; [auto|]. split; [auto|]. intros xs Lx. rewrite Vc by auto. lra.
Qed.
Lemma grp_0 a l : grp a 0 l = l.
Proof. induction l as [|t l IH]; cbn [grp equal_up_to]; congruence. Qed.
Lemma m_mul_ok p q r c d : coefs p c -> coefs q d -> lens n c -> lens n d -> NoDup (map fst c) -> NoDup (map fst d) ->
  m_mul O same0 n p q = Some r -> pval 0 r (fun xs => mfn c xs * mfn d xs).
Proof.
  intros C D L L' N N' H. unfold m_mul in H. destruct (mul_from O same0 n n 0 p q) as [[[r' q1] q2]|] eqn:Em; [|discriminate]. injection H as ->.
  destruct (mul_ok n 0 eq_refl _ _ _ _ _ _ _ C D L L' N N' Em) as (a1 & a2 & _ & _ & _ & _ & (e & Ce & Le & V)).
  exists e. split; [auto|]. split; [auto|]. intros xs Lx. rewrite V by auto. rewrite !grp_0, !psum_0. auto.
Qed.
End Enc.
