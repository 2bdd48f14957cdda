(** Properties of intervals, boxes and unions of intervals. *)
From Coq Require Import ZArith QArith Qreals Reals List Lra Lia Bool Arith.
From Coquelicot Require Import Rbar.
From Flocq Require Import Core IEEE754.BinarySingleNaN.
From Verif Require Import Logical_Model Float_Model Box_Model Box_Spec Box_Float_Model Box_Proofs Box_Parts_Proofs Box_Union_Proofs Box_Num_Proofs.
From Verif Require Exact_Model Exact_Spec.
Import ListNotations.
Local Open Scope R_scope.

(** The theorems are about any number type whose comparisons, maxima and minima are
    exact.  Floats of every precision, rationals and dyadics are such types. *)
Theorem number_types :
  (forall prec emax (Hp : Prec_gt_0 prec) (He : Prec_lt_emax prec emax), num_ok (float_ops prec emax) num fval) /\
  num_ok rational_ops rat_good (value_of Q2R) /\ num_ok dyadic_ops dyd_good (value_of Exact_Spec.dval).
Proof. split; [intros; apply float_ok|]. split; [exact rational_ok|exact dyadic_ok]. Qed.
Print Assumptions number_types.

(** Integers as rational end points, for the examples. *)
Definition z (n : Z) : Exact_Model.rational := Exact_Model.Fin (n # 1).
Notation RO := rational_ops.
Notation rv := (value_of Q2R).
Definition zi (l u : Z) := exact_ivl (z l) (z u).
Lemma zv : forall n, rv (z n) = Finite (IZR n).
Proof. intros n. unfold value_of, z; cbn. f_equal. unfold Q2R; cbn. field. Qed.
Lemma zg : forall n, rat_good (z n).
Proof. intros n. split; [discriminate|]. cbn. unfold Qred. pose proof (Z.ggcd_gcd n 1) as G. pose proof (Z.ggcd_correct_divisors n 1) as D.
  destruct (Z.ggcd n 1) as [g [a b]]. cbn in *. rewrite Z.gcd_1_r in G. subst g. destruct D as [D1 D2]. rewrite Z.mul_1_l in D1, D2. subst. reflexivity. Qed.
Lemma ze : forall l u, is_exact rat_good (zi l u).
Proof. intros l u. repeat split; try apply zg. Qed.
Lemma zset : forall l u, set_of rv (zi l u) = (Finite (IZR l), Finite (IZR u)).
Proof. intros l u. unfold set_of, raw_l, raw_u, zi; cbn [exact_ivl i_l i_u e_raw]. rewrite !zv. reflexivity. Qed.
Lemma zne : forall l u, (l <= u)%Z -> nonempty (set_of rv (zi l u)).
Proof. intros l u H. rewrite zset. exists (IZR l). split; cbn; [lra|apply IZR_le; exact H]. Qed.
Lemma zfin : forall l u, real_ends (set_of rv (zi l u)).
Proof. intros l u. rewrite zset. split; reflexivity. Qed.

Section Numbers.
  Context {E : Type} (o : num_ops E) (good : E -> Prop) (v : E -> Rbar) (K : num_ok o good v).

  (** ** C71: relations between intervals with exact end points *)
  Theorem C71_interval_relations_partial : forall i j, is_exact good i -> is_exact good j ->
    let s := set_of v i in let t := set_of v j in nonempty s -> nonempty t ->
    lv_decides (i_subset o i j) (incl s t) /\ lv_decides (i_superset o i j) (incl t s) /\
    lv_decides (i_intersect o i j) (meet s t) /\ lv_decides (i_disjoint o i j) (~ meet s t) /\
    lv_decides (i_separated o i j) (~ meet s t) /\ lv_decides (i_overlap o i j) (overlapping s t) /\
    lv_decides (i_eq o i j) (set_eq s t) /\ lv_decides (i_neq o i j) (~ set_eq s t) /\
    (real_ends s -> lv_decides (i_inside o i j) (incl_inner s t)) /\
    (real_ends t -> lv_decides (i_covers o i j) (incl_inner t s)).
  Proof using K.
    intros i j Xi Xj s t N M.
    assert (DE : lv_decides (i_eq o i j) (set_eq s t)).
    { eapply decides_iff; [|apply (d_eq o good v K); assumption]. symmetry. apply set_eq_iff; assumption. }
    repeat match goal with |- _ /\ _ => apply conj end.
    - eapply decides_iff; [|apply (d_sub o good v K); assumption]. symmetry. apply set_subset_iff; assumption.
    - eapply decides_iff; [|apply (d_sup o good v K); assumption]. symmetry. apply set_subset_iff; assumption.
    - eapply decides_iff; [|apply (d_meet o good v K); assumption]. symmetry. apply set_meet_iff; assumption.
    - eapply decides_iff; [|apply (d_disjoint o good v K); assumption]. rewrite (set_meet_iff s t N M). reflexivity.
    - eapply decides_iff; [|apply (d_disjoint o good v K); assumption]. rewrite (set_meet_iff s t N M). reflexivity.
    - eapply decides_iff; [|apply (d_over o good v K); assumption]. symmetry. apply set_over_iff; assumption.
    - exact DE.
    - eapply decides_neg in DE. unfold i_eq in DE. unfold i_neq.
      destruct (e_eq o (i_l i) (i_l j)), (e_eq o (i_u i) (i_u j)); exact DE.
    - intros Re. eapply decides_iff; [|apply (d_in o good v K); assumption]. symmetry. apply set_inner_iff; assumption.
    - intros Re. eapply decides_iff; [|apply (d_cov o good v K); assumption]. symmetry. apply set_inner_iff; assumption.
  Qed.
  (** Membership and emptiness. *)
  Theorem C71_membership : forall i, is_exact good i ->
    (forall x r, good x -> v x = Finite r -> lv_decides (i_contains o i x) (in_ivl v i r)) /\
    (sane v i -> lv_decides (i_is_empty o i) (~ nonempty (set_of v i))) /\
    lv_decides (i_is_singleton o i) (v (raw_l i) = v (raw_u i)).
  Proof using K.
    intros i X. repeat match goal with |- _ /\ _ => apply conj end.
    - intros x r G V. apply (d_contains o good v K i X x r G V).
    - intros S. eapply decides_iff; [|apply (d_empty o good v K); exact X]. split.
      + intros L N. apply nonempty_le in N. apply Rbar_le_not_lt in N. contradiction.
      + intros N. apply Rbar_lt_iff. intro L. apply N. apply real_between; [exact L|exact S].
    - apply (d_singleton o good v K i X).
  Qed.
  (** These positive answers are right for all intervals, also empty and infinite ones. *)
  Theorem C71_positive_answers : forall i j, is_exact good i -> is_exact good j ->
    let s := set_of v i in let t := set_of v j in
    (i_subset o i j = TRUE -> incl s t) /\ (i_superset o i j = TRUE -> incl t s) /\
    (i_inside o i j = TRUE -> incl_inner s t) /\ (i_covers o i j = TRUE -> incl_inner t s) /\
    (i_disjoint o i j = TRUE -> ~ meet s t) /\ (i_separated o i j = TRUE -> ~ meet s t) /\ (i_eq o i j = TRUE -> set_eq s t).
  Proof using K.
    intros i j Xi Xj s t.
    assert (T : forall l P, lv_decides l P -> l = TRUE -> P) by (intros l P [[A B]|[A B]] C; [exact B|congruence]).
    repeat match goal with |- _ /\ _ => apply conj end; intros H.
    - apply P_sub_incl. exact (T _ _ (d_sub o good v K i j Xi Xj) H).
    - apply P_sub_incl. exact (T _ _ (d_sup o good v K i j Xi Xj) H).
    - apply P_in_incl. exact (T _ _ (d_in o good v K i j Xi Xj) H).
    - apply P_in_incl. exact (T _ _ (d_cov o good v K i j Xi Xj) H).
    - intros M. apply set_meet_incl in M. exact (T _ _ (d_disjoint o good v K i j Xi Xj) H M).
    - intros M. apply set_meet_incl in M. exact (T _ _ (d_disjoint o good v K i j Xi Xj) H M).
    - apply (T _ _ (d_eq o good v K i j Xi Xj)) in H. destruct H as [H1 H2]. intros r. unfold in_set, s, t. rewrite H1, H2. reflexivity.
  Qed.
End Numbers.

(** The empty interval [3,1] is a subset of every interval and meets none, but the answers
    are the opposite; and [-inf,0] lies in the interior of [-inf,1]. *)
Theorem C71_interval_relations_refuted :
  i_is_empty RO (zi 3 1) = TRUE /\
  i_subset RO (zi 3 1) (zi 5 6) = FALSE /\ incl (set_of rv (zi 3 1)) (set_of rv (zi 5 6)) /\
  i_intersect RO (zi 3 1) (zi 0 4) = TRUE /\ i_overlap RO (zi 3 1) (zi 0 4) = TRUE /\ i_disjoint RO (zi 3 1) (zi 0 4) = FALSE /\
  ~ meet (set_of rv (zi 3 1)) (set_of rv (zi 0 4)) /\
  (let a := exact_ivl Exact_Model.NInf (z 0) in let b := exact_ivl Exact_Model.NInf (z 1) in
   i_inside RO a b = FALSE /\ incl_inner (set_of rv a) (set_of rv b)).
Proof.
  repeat split; try reflexivity.
  - rewrite zset in H. destruct H as [H1 H2]; cbn in *; lra.
  - rewrite zset in H. destruct H as [H1 H2]; cbn in *; lra.
  - rewrite !zset. intros [r [[A B] _]]. cbn in *; lra.
  - destruct H as [_ H]. unfold set_of, raw_u in *. cbn [exact_ivl i_u e_raw snd] in *. rewrite zv in *. cbn in *; lra.
Qed.
(** [equal] compares the lower ends with [<=]. *)
Theorem C71_equal_refuted : i_equal RO (zi 0 2) (zi 1 2) = TRUE /\ i_equal RO (zi 1 2) (zi 0 2) = FALSE /\
  ~ set_eq (set_of rv (zi 0 2)) (set_of rv (zi 1 2)).
Proof. repeat split; try reflexivity. rewrite !zset. intros H. destruct (H 0) as [H1 _]. destruct H1 as [H1 _]; cbn in *; [split; cbn; lra|lra]. Qed.
Print Assumptions C71_interval_relations_partial. Print Assumptions C71_membership. Print Assumptions C71_positive_answers.
Print Assumptions C71_interval_relations_refuted. Print Assumptions C71_equal_refuted.

Example C71_nonvacuous :
  i_subset RO (zi 1 2) (zi 0 2) = TRUE /\ i_subset RO (zi 0 2) (zi 1 2) = FALSE /\ i_intersect RO (zi 0 1) (zi 1 2) = TRUE /\
  i_overlap RO (zi 0 1) (zi 1 2) = FALSE /\ i_overlap RO (zi 1 1) (zi 0 2) = TRUE /\ i_inside RO (zi 1 2) (zi 0 3) = TRUE /\
  i_inside RO (zi 1 2) (zi 0 2) = FALSE /\ i_disjoint RO (zi 0 1) (zi 2 3) = TRUE /\
  is_exact rat_good (zi 1 2) /\ nonempty (set_of rv (zi 1 2)) /\ real_ends (set_of rv (zi 1 2)) /\ incl (set_of rv (zi 1 2)) (set_of rv (zi 0 2)).
Proof.
  repeat split; try reflexivity; try apply zg; try (apply zne; lia).
  - rewrite zset in H. destruct H as [H1 H2]; rewrite zset; cbn in *; lra.
  - rewrite zset in H. destruct H as [H1 H2]; rewrite zset; cbn in *; lra.
Qed.

Section Numbers2.
  Context {E : Type} (o : num_ops E) (good : E -> Prop) (v : E -> Rbar) (K : num_ok o good v).

  (** ** C72: intersection and hull *)
  Theorem C72_intersection : forall i j, is_exact good i -> is_exact good j ->
    is_exact good (i_intersection o i j) /\
    forall r, in_ivl v (i_intersection o i j) r <-> in_ivl v i r /\ in_ivl v j r.
  Proof using K. intros i j Xi Xj. split; [apply (ops_exact o good v K); assumption|]. intros r. apply (inter_in o good v K); [apply Xi|apply Xj]. Qed.
  Theorem C72_hull_partial : forall i j, is_exact good i -> is_exact good j ->
    let h := set_of v (i_hull o i j) in
    incl (set_of v i) h /\ incl (set_of v j) h /\
    (nonempty (set_of v i) -> nonempty (set_of v j) ->
     forall t, incl (set_of v i) t -> incl (set_of v j) t -> incl h t).
  Proof using K.
    intros i j Xi Xj h. repeat match goal with |- _ /\ _ => apply conj end.
    - intros r Hr. apply (hull_contains o good v K); [apply Xi|apply Xj|left; exact Hr].
    - intros r Hr. apply (hull_contains o good v K); [apply Xi|apply Xj|right; exact Hr].
    - intros N M t. apply (hull_least o good v K); [apply Xi|apply Xj|exact N|exact M].
  Qed.
  (** The standard empty interval [inf,-inf] is neutral. *)
  Theorem C72_hull_empty : forall i, is_exact good i ->
    set_of v (i_hull o (empty_ivl o) i) = set_of v i /\ set_of v (i_hull o i (empty_ivl o)) = set_of v i.
  Proof using K.
    intros i [[Gl Gu] _]. destruct (ok_pinf _ _ _ K) as [P1 P2]. destruct (ok_ninf _ _ _ K) as [N1 N2].
    unfold set_of, raw_l, raw_u, i_hull, empty_ivl, exact_ivl, e_max, e_min in *; cbn [i_l i_u e_raw].
    assert (L : forall a b, Rbar_le a b -> Rbar_le b a -> a = b) by (intros; apply Rbar_le_antisym; assumption).
    assert (T : forall a, Rbar_le a p_infty) by (intros [| |]; cbn; auto).
    assert (B : forall a, Rbar_le m_infty a) by (intros [| |]; cbn; auto).
    assert (TE : forall a, Rbar_le p_infty a -> a = p_infty) by (intros [| |]; cbn; auto; tauto).
    assert (BE : forall a, Rbar_le a m_infty -> a = m_infty) by (intros [| |]; cbn; auto; tauto).
    split; f_equal.
    - destruct (ok_min _ _ _ K _ _ P1 Gl) as [_ [[A|A] [A1 A2]]]; [|exact A]. rewrite A in *. apply L; [exact A2|]. rewrite P2. apply T.
    - destruct (ok_max _ _ _ K _ _ N1 Gu) as [_ [[A|A] [A1 A2]]]; [|exact A]. rewrite A in *. apply L; [|exact A2]. rewrite N2. apply B.
    - destruct (ok_min _ _ _ K _ _ Gl P1) as [_ [[A|A] [A1 A2]]]; [exact A|]. rewrite A in *. apply L; [exact A1|]. rewrite P2. apply T.
    - destruct (ok_max _ _ _ K _ _ Gu N1) as [_ [[A|A] [A1 A2]]]; [exact A|]. rewrite A in *. apply L; [|exact A1]. rewrite N2. apply B.
  Qed.
  (** The hull with a point. *)
  Theorem C72_hull_point : forall i x r, is_exact good i -> good x -> v x = Finite r ->
    let h := set_of v (i_hull_pt o i x) in
    set_of v (pt_hull_i o x i) = h /\ incl (set_of v i) h /\ in_set h r /\
    (nonempty (set_of v i) -> forall t, incl (set_of v i) t -> in_set t r -> incl h t).
  Proof using K.
    intros i x r Xi G V. set (j := exact_ivl x x).
    assert (Xj : is_exact good j) by (repeat split; assumption).
    assert (Sj : forall q, in_set (set_of v j) q <-> q = r).
    { intros q. unfold in_set, set_of, raw_l, raw_u, j; cbn [exact_ivl i_l i_u e_raw fst snd]. rewrite V. cbn. split; [lra|intros ->; lra]. }
    destruct (C72_hull_partial i j Xi Xj) as [A [B C]].
    assert (Eh : set_of v (i_hull o i j) = set_of v (i_hull_pt o i x)) by reflexivity. rewrite Eh in A, B, C.
    split; [|split; [exact A|split; [apply B; apply Sj; reflexivity|]]].
    - unfold set_of, raw_l, raw_u, pt_hull_i, i_hull_pt, e_max, e_min; cbn [i_l i_u e_raw]. destruct Xi as [[Gl Gu] _].
      assert (L : forall a b c d, (c = a \/ c = b) -> (d = a \/ d = b) -> Rbar_le c a -> Rbar_le c b -> Rbar_le d a -> Rbar_le d b -> c = d).
      { intros a b c d Hc Hd C1 C2 D1 D2. apply Rbar_le_antisym; [destruct Hd as [ -> | -> ]|destruct Hc as [ -> | -> ]]; assumption. }
      assert (L' : forall a b c d, (c = a \/ c = b) -> (d = a \/ d = b) -> Rbar_le a c -> Rbar_le b c -> Rbar_le a d -> Rbar_le b d -> c = d).
      { intros a b c d Hc Hd C1 C2 D1 D2. apply Rbar_le_antisym; [destruct Hc as [ -> | -> ]|destruct Hd as [ -> | -> ]]; assumption. }
      f_equal.
      + destruct (ok_min _ _ _ K _ _ G Gl) as [_ [A1 [A2 A3]]]. destruct (ok_min _ _ _ K _ _ Gl G) as [_ [B1 [B2 B3]]].
        eapply L; [exact A1| |exact A2|exact A3|exact B3|exact B2]. tauto.
      + destruct (ok_max _ _ _ K _ _ G Gu) as [_ [A1 [A2 A3]]]. destruct (ok_max _ _ _ K _ _ Gu G) as [_ [B1 [B2 B3]]].
        eapply L'; [exact A1| |exact A2|exact A3|exact B3|exact B2]. tauto.
    - intros N t H1 H2. apply C; [exact N|exists r; apply Sj; reflexivity|exact H1|]. intros q Hq. apply Sj in Hq. subst q. exact H2.
  Qed.

  (** ** C73: over- and under-approximations *)
  (** An interval of bounds stands for all intervals with ends beyond (within) its own;
      what it answers is right about each of them, and its points include (are included
      in) theirs. *)
  Theorem C73_relations : forall i j s t, ivl_good good i -> ivl_good good j -> stands_for v i s -> stands_for v j t ->
    nonempty s -> nonempty t ->
    lv_right (i_subset o i j) (incl s t) /\ lv_right (i_superset o i j) (incl t s) /\
    lv_right (i_intersect o i j) (meet s t) /\ lv_right (i_disjoint o i j) (~ meet s t) /\
    lv_right (i_separated o i j) (~ meet s t) /\ lv_right (i_overlap o i j) (overlapping s t) /\
    lv_right (i_eq o i j) (set_eq s t) /\
    (real_ends s -> lv_right (i_inside o i j) (incl_inner s t)) /\ (real_ends t -> lv_right (i_covers o i j) (incl_inner t s)) /\
    (forall x r, good x -> v x = Finite r -> lv_right (i_contains o i x) (in_set s r)).
  Proof using K.
    intros i j s t Gi Gj Si Sj N M. repeat match goal with |- _ /\ _ => apply conj end.
    - eapply right_iff; [|eapply (r_sub o good v K); eassumption]. symmetry. apply set_subset_iff; assumption.
    - eapply right_iff; [|eapply (r_sup o good v K); eassumption]. symmetry. apply set_subset_iff; assumption.
    - eapply right_iff; [|eapply (r_meet o good v K); eassumption]. symmetry. apply set_meet_iff; assumption.
    - eapply right_iff; [|eapply (r_disjoint o good v K); eassumption]. rewrite (set_meet_iff s t N M). reflexivity.
    - eapply right_iff; [|eapply (r_disjoint o good v K); eassumption]. rewrite (set_meet_iff s t N M). reflexivity.
    - eapply right_iff; [|eapply (r_over o good v K); eassumption]. symmetry. apply set_over_iff; assumption.
    - eapply right_iff; [|eapply (r_eq o good v K); eassumption]. symmetry. apply set_eq_iff; assumption.
    - intros Re. eapply right_iff; [|eapply (r_in o good v K); eassumption]. symmetry. apply set_inner_iff; assumption.
    - intros Re. eapply right_iff; [|eapply (r_cov o good v K); eassumption]. symmetry. apply set_inner_iff; assumption.
    - intros x r G V. eapply right_iff; [|eapply (r_contains o good v K); eassumption]. unfold in_set. rewrite V. reflexivity.
  Qed.
  (** The interval [is_empty] calls empty is empty; it is not empty when that is denied,
      if the ends are real. *)
  Theorem C73_empty : forall i s, ivl_good good i -> stands_for v i s -> real_ends s -> lv_right (i_is_empty o i) (~ nonempty s).
  Proof using K.
    intros i s G S [F1 F2]. eapply right_iff; [|eapply (r_empty o good v K); eassumption]. split.
    - intros L N. apply nonempty_le in N. apply Rbar_le_not_lt in N. contradiction.
    - intros N. apply Rbar_lt_iff. intro L. apply N. apply real_between; [exact L|]. intros _. exact F1.
  Qed.
  Theorem C73_approximations : forall i s, stands_for v i s ->
    (over good i -> incl s (set_of v i)) /\ (under good i -> incl (set_of v i) s).
  Proof using K. intros i s S. split; intros H; [apply (over_incl good v); assumption|apply (under_incl good v); assumption]. Qed.
  (** Intersection and hull of over-approximations (under-approximations) approximate the
      intersection and the points of both from the same side. *)
  Theorem C73_operations : forall i j s t, stands_for v i s -> stands_for v j t ->
    (over good i -> over good j ->
      over good (i_intersection o i j) /\ over good (i_hull o i j) /\
      (forall r, in_set s r -> in_set t r -> in_ivl v (i_intersection o i j) r) /\
      (forall r, in_set s r \/ in_set t r -> in_ivl v (i_hull o i j) r)) /\
    (under good i -> under good j ->
      under good (i_intersection o i j) /\ (forall r, in_ivl v (i_intersection o i j) r -> in_set s r /\ in_set t r)).
  Proof using K.
    intros i j s t Si Sj. split; intros Oi Oj.
    - destruct (ops_over o good v K i j Oi Oj) as [A B]. split; [exact A|]. split; [exact B|].
      pose proof (over_incl good v _ _ Oi Si) as Hi. pose proof (over_incl good v _ _ Oj Sj) as Hj. split.
      + intros r R1 R2. apply (inter_in o good v K); [apply Oi|apply Oj|]. split; [apply Hi|apply Hj]; assumption.
      + intros r R. apply (hull_contains o good v K); [apply Oi|apply Oj|]. destruct R as [R|R]; [left; apply Hi|right; apply Hj]; exact R.
    - destruct (ops_under o good v K i j Oi Oj) as [A _]. split; [exact A|]. intros r R.
      apply (inter_in o good v K) in R; [|apply Oi|apply Oj]. destruct R as [R1 R2].
      split; [apply (under_incl good v _ _ Oi Si); exact R1|apply (under_incl good v _ _ Oj Sj); exact R2].
  Qed.
  (** The result stands for the intersection and the hull of all the pairs of intervals its
      arguments stand for: it is exact only if both arguments are. *)
  Lemma greater_represents : forall a b x y m k, k <> EX -> good (e_raw a) -> good (e_raw b) -> e_kind a <> k -> e_kind b <> k ->
    represents v a x -> represents v b y -> greater_of m x y -> represents v (e_max o a b) m.
  Proof using K.
    intros [ka a] [kb b] x y m k Hk Ga Gb Na Nb Ra Rb [Hm [M1 M2]]. cbn [e_kind e_raw] in *.
    destruct (ok_max _ _ _ K a b Ga Gb) as [_ [W [W1 W2]]].
    unfold represents, e_max in *; cbn [e_kind e_raw] in *.
    destruct ka, kb, k; try congruence; cbn [k_join] in *; subst x || idtac; subst y || idtac;
      try (destruct Hm as [-> | ->]; apply Rbar_le_antisym; destruct W as [W|W]; rewrite W in *; assumption);
      try (destruct W as [-> | ->]; eauto using Rbar_le_trans; fail);
      try (destruct Hm as [-> | ->]; eauto using Rbar_le_trans).
  Qed.
  Lemma lesser_represents : forall a b x y m k, k <> EX -> good (e_raw a) -> good (e_raw b) -> e_kind a <> k -> e_kind b <> k ->
    represents v a x -> represents v b y -> lesser_of m x y -> represents v (e_min o a b) m.
  Proof using K.
    intros [ka a] [kb b] x y m k Hk Ga Gb Na Nb Ra Rb [Hm [M1 M2]]. cbn [e_kind e_raw] in *.
    destruct (ok_min _ _ _ K a b Ga Gb) as [_ [W [W1 W2]]].
    unfold represents, e_min in *; cbn [e_kind e_raw] in *.
    destruct ka, kb, k; try congruence; cbn [k_join] in *; subst x || idtac; subst y || idtac;
      try (destruct Hm as [-> | ->]; apply Rbar_le_antisym; destruct W as [W|W]; rewrite W in *; assumption);
      try (destruct W as [-> | ->]; eauto using Rbar_le_trans; fail);
      try (destruct Hm as [-> | ->]; eauto using Rbar_le_trans).
  Qed.
  Theorem C73_represented : forall i j s t l u, over good i /\ over good j \/ under good i /\ under good j -> stands_for v i s -> stands_for v j t ->
    (greater_of l (fst s) (fst t) -> lesser_of u (snd s) (snd t) -> stands_for v (i_intersection o i j) (l, u)) /\
    (lesser_of l (fst s) (fst t) -> greater_of u (snd s) (snd t) -> stands_for v (i_hull o i j) (l, u)).
  Proof using K.
    intros i j s t l u O [S1 S2] [T1 T2].
    assert (G : ivl_good good i /\ ivl_good good j) by (destruct O as [[A B]|[A B]]; split; first [apply A|apply B]). destruct G as [[G1 G2] [G3 G4]].
    destruct O as [[[_ [A1 A2]] [_ [B1 B2]]]|[[_ [A1 A2]] [_ [B1 B2]]]].
    all: split; intros H1 H2; split; cbn [i_intersection i_hull i_l i_u fst snd];
      first [ eapply (greater_represents _ _ _ _ _ UB); try eassumption; discriminate | eapply (greater_represents _ _ _ _ _ LB); try eassumption; discriminate
            | eapply (lesser_represents _ _ _ _ _ UB); try eassumption; discriminate | eapply (lesser_represents _ _ _ _ _ LB); try eassumption; discriminate ].
  Qed.
  (** Refinement is the best over-approximation given two; [refines] is inclusion of what
      is represented. *)
  Theorem C73_refinement : forall a b c d, good a -> good b -> good c -> good d ->
    let i := upper_ivl a b in let j := upper_ivl c d in
    over good (i_refinement o i j) /\
    (forall s, stands_for v (i_refinement o i j) s <-> stands_for v i s /\ stands_for v j s) /\
    (i_refines o i j = true <-> forall s, stands_for v i s -> stands_for v j s) /\
    (i_same o i j = true <-> forall s, stands_for v i s <-> stands_for v j s).
  Proof using K.
    intros a b c d Ga Gb Gc Gd i j. unfold stands_for, represents, i, j, i_refinement, i_refines, i_same; cbn [upper_ivl i_l i_u e_kind e_raw].
    destruct (ok_max _ _ _ K a c Ga Gc) as [Gm _]. destruct (ok_min _ _ _ K b d Gb Gd) as [Gn _].
    split; [repeat split; try assumption; discriminate|]. split; [|split].
    - intros s. rewrite (max_le o good v K) by assumption. rewrite (min_le o good v K) by assumption. tauto.
    - rewrite andb_true_iff, (ok_le _ _ _ K) by assumption. rewrite (ok_le _ _ _ K) by assumption. split.
      + intros [H1 H2] s [S1 S2]. split; eapply Rbar_le_trans; eassumption.
      + intros H. apply (H (v a, v b)). split; apply Rbar_le_refl.
    - rewrite andb_true_iff, (ok_eq _ _ _ K) by assumption. rewrite (ok_eq _ _ _ K) by assumption. split.
      + intros [H1 H2] s. rewrite H1, H2. reflexivity.
      + intros H. destruct (proj1 (H (v a, v b))) as [A B]; [split; apply Rbar_le_refl|].
        destruct (proj2 (H (v c, v d))) as [C D]; [split; apply Rbar_le_refl|]. cbn [fst snd] in *. split; apply Rbar_le_antisym; assumption.
  Qed.
End Numbers2.
(** An empty interval other than the standard one spoils the hull. *)
Theorem C72_hull_refuted : i_is_empty RO (zi 9 8) = TRUE /\
  in_ivl rv (i_hull RO (zi 0 1) (zi 9 8)) 5 /\
  (let t := set_of rv (zi 0 1) in incl (set_of rv (zi 0 1)) t /\ incl (set_of rv (zi 9 8)) t /\ ~ incl (set_of rv (i_hull RO (zi 0 1) (zi 9 8))) t).
Proof.
  assert (Hh : set_of rv (i_hull RO (zi 0 1) (zi 9 8)) = (Finite 0, Finite 8)).
  { unfold set_of, raw_l, raw_u. change (e_raw (i_l (i_hull RO (zi 0 1) (zi 9 8)))) with (z 0). change (e_raw (i_u (i_hull RO (zi 0 1) (zi 9 8)))) with (z 8). rewrite !zv. reflexivity. }
  split; [reflexivity|]. split; [unfold in_ivl; rewrite Hh; split; cbn; lra|]. cbn zeta. split; [intros r Hr; exact Hr|]. split.
  - rewrite !zset. intros r [A B]. cbn in *. lra.
  - rewrite Hh, zset. intros H. destruct (H 5) as [_ A]; [split; cbn; lra|]. cbn in A. lra.
Qed.
Print Assumptions C72_intersection. Print Assumptions C72_hull_partial. Print Assumptions C72_hull_empty. Print Assumptions C72_hull_point. Print Assumptions C72_hull_refuted.
Print Assumptions C73_relations. Print Assumptions C73_empty. Print Assumptions C73_approximations. Print Assumptions C73_operations. Print Assumptions C73_represented. Print Assumptions C73_refinement.
Example C72_nonvacuous : i_intersection RO (zi 0 2) (zi 1 3) = zi 1 2 /\ i_hull RO (zi 0 1) (zi 4 5) = zi 0 5 /\ i_hull_pt RO (zi 0 1) (z 7) = zi 0 7.
Proof. repeat split. Qed.
Example C73_nonvacuous :
  let i := upper_ivl (z 0) (z 1) in let j := upper_ivl (z 2) (z 3) in let k := exact_ivl (z (-1)) (z 4) in
  i_disjoint RO i j = TRUE /\ i_subset RO i k = TRUE /\ i_subset RO k i = FALSE /\ i_intersect RO i j = FALSE /\
  stands_for rv i (Finite 0, Finite (1/2)) /\ over rat_good i.
Proof.
  do 4 (split; [reflexivity|]). split; [|repeat split; try apply zg; discriminate].
  unfold stands_for, represents; cbn [upper_ivl i_l i_u e_kind e_raw fst snd]. rewrite !zv. split; cbn; lra.
Qed.

Section Boxes.
  Context {E : Type} (o : num_ops E) (good : E -> Prop) (v : E -> Rbar) (K : num_ok o good v).
  Notation sets := (sets_of v).

  (** ** C74: boxes *)
  Lemma fset_nonempty : forall b : box E, (exists x, in_box v b x) <-> Forall nonempty (sets b).
  Proof using. intros b. rewrite <- in_sets_nonempty. split; intros [x H]; exists x; apply in_box_sets; exact H. Qed.
  Lemma Forall2_turn : forall {A B} (P : A -> B -> Prop) a b, Forall2 P a b -> Forall2 (fun b a => P a b) b a.
  Proof using. intros A B P a b H. induction H; constructor; assumption. Qed.
  Lemma sets_length : forall b : box E, length (sets b) = length b. Proof using. intros. apply map_length. Qed.

  Lemma bx_sub_iff : forall s t, Forall nonempty s -> length s = length t ->
    ((forall x, in_sets s x -> in_sets t x) <-> Forall2 P_sub s t).
  Proof using.
    intros s t N L. unfold in_sets at 2. rewrite (in_sets_subset_gen in_set s t N L).
    eapply Forall2_iff with (D := nonempty) (D' := fun _ => True); [|exact N|apply Forall_forall; auto].
    intros x y Nx _. apply (set_subset_iff x y Nx).
  Qed.
  Lemma bx_meet_iff : forall s t, Forall nonempty s -> Forall nonempty t -> length s = length t ->
    ((exists x, in_sets s x /\ in_sets t x) <-> Forall2 P_meet s t).
  Proof using.
    intros s t N M L. unfold in_sets. rewrite (in_sets_common_gen in_set in_set s t L).
    eapply Forall2_iff with (D := nonempty) (D' := nonempty); [|exact N|exact M].
    intros x y Nx Ny. apply (set_meet_iff x y Nx Ny).
  Qed.
  Lemma bx_in_iff : forall s t, Forall nonempty s -> Forall real_ends s -> length s = length t ->
    ((forall x, in_sets s x -> Forall2 in_inner t x) <-> Forall2 P_in s t).
  Proof using.
    intros s t N Re L. rewrite (in_sets_subset_gen in_inner s t N L).
    eapply Forall2_iff with (D := fun s => nonempty s /\ real_ends s) (D' := fun _ => True); [| |apply Forall_forall; auto].
    - intros x y [Nx Rx] _. apply (set_inner_iff x y Nx Rx).
    - apply Forall_forall. intros x Hx. split; [eapply Forall_forall in N|eapply Forall_forall in Re]; eassumption.
  Qed.
  (** Intervals with interior overlap exactly when their interiors intersect. *)
  Lemma over_inner : forall s t, Rbar_lt (fst s) (snd s) -> Rbar_lt (fst t) (snd t) ->
    ((exists r, in_inner s r /\ in_inner t r) <-> P_over s t).
  Proof using.
    intros [a b] [c d] Hs Ht. unfold in_inner, P_over. cbn [fst snd] in *. split.
    - intros [r [[A B] [C D]]]. split; eapply Rbar_lt_trans; eassumption.
    - intros [A B].
      assert (X : exists m, (m = a \/ m = c) /\ Rbar_le a m /\ Rbar_le c m).
      { destruct (Rbar_dec a c) as [H|H]; [exists c|exists a]; repeat split; auto; try apply Rbar_le_refl. apply Rbar_lt_le; exact H. }
      assert (Y : exists m, (m = b \/ m = d) /\ Rbar_le m b /\ Rbar_le m d).
      { destruct (Rbar_dec b d) as [H|H]; [exists b|exists d]; repeat split; auto; try apply Rbar_le_refl. apply Rbar_lt_le; exact H. }
      destruct X as [m [Em [M1 M2]]], Y as [n [En [N1 N2]]].
      destruct (real_between_strict m n) as [r [R1 R2]]; [destruct Em as [ -> | -> ], En as [ -> | -> ]; assumption|].
      exists r. repeat split; [eapply Rbar_le_lt_trans|eapply Rbar_lt_le_trans|eapply Rbar_le_lt_trans|eapply Rbar_lt_le_trans]; eassumption.
  Qed.
  Lemma bx_over_iff : forall s t, Forall (fun s => Rbar_lt (fst s) (snd s)) s -> Forall (fun s => Rbar_lt (fst s) (snd s)) t -> length s = length t ->
    ((exists x, Forall2 in_inner s x /\ Forall2 in_inner t x) <-> Forall2 P_over s t).
  Proof using.
    intros s t N M L. rewrite (in_sets_common_gen in_inner in_inner s t L).
    eapply Forall2_iff with (D := fun s : set => Rbar_lt (fst s) (snd s)) (D' := fun s : set => Rbar_lt (fst s) (snd s)); [|exact N|exact M].
    intros x y Nx Ny. apply over_inner; assumption.
  Qed.
  Lemma inner_sets : forall (b : box E) x, in_box_inner v b x <-> Forall2 in_inner (sets b) x.
  Proof using. induction b as [|i b IH]; intros x; split; intros H; inversion H; subst; constructor; auto; apply IH; assumption. Qed.
  Lemma forall2_len : forall {A B} (P : A -> B -> Prop) a b, Forall2 P a b -> length a = length b.
  Proof using. intros A B P a b H. induction H; cbn; congruence. Qed.
  Lemma eq_sets_iff : forall s t, Forall nonempty s -> Forall nonempty t -> length s = length t ->
    ((forall x, in_sets s x <-> in_sets t x) <-> Forall2 (fun s t => fst s = fst t /\ snd s = snd t) s t).
  Proof using.
    intros s t N M L. split.
    - intros H. pose proof (proj1 (bx_sub_iff s t N L) (fun x => proj1 (H x))) as A.
      pose proof (proj1 (bx_sub_iff t s M (eq_sym L)) (fun x => proj2 (H x))) as B.
      clear - A B. revert B. induction A as [|x y s t [P Q] A IH]; intros B; constructor; inversion B as [|? ? ? ? [P' Q'] B']; subst.
      + split; apply Rbar_le_antisym; assumption.
      + apply IH. assumption.
    - intros H. assert (s = t) as ->; [|reflexivity]. clear - H. induction H as [|[a b] [c d] s t [P Q] H IH]; [reflexivity|].
      cbn in *. subst. reflexivity.
  Qed.

  Theorem C74_box_relations_partial : forall a b : box E, Forall (is_exact good) a -> Forall (is_exact good) b -> dimension a = dimension b ->
    (exists x, in_box v a x) -> (exists x, in_box v b x) ->
    (exists l, bx_subset o a b = Some l /\ lv_decides l (forall x, in_box v a x -> in_box v b x)) /\
    (exists l, bx_superset o a b = Some l /\ lv_decides l (forall x, in_box v b x -> in_box v a x)) /\
    (exists l, bx_intersect o a b = Some l /\ lv_decides l (exists x, in_box v a x /\ in_box v b x)) /\
    (exists l, bx_disjoint o a b = Some l /\ lv_decides l (~ exists x, in_box v a x /\ in_box v b x)) /\
    (exists l, bx_separated o a b = Some l /\ lv_decides l (~ exists x, in_box v a x /\ in_box v b x)) /\
    (exists l, bx_eq o a b = Some l /\ lv_decides l (forall x, in_box v a x <-> in_box v b x)).
  Proof using K.
    intros a b Xa Xb L Na Nb. apply fset_nonempty in Na. apply fset_nonempty in Nb.
    pose proof (exact_sets good v a Xa) as Ea. pose proof (exact_sets good v b Xb) as Eb.
    assert (Ls : length (sets a) = length (sets b)) by (rewrite !sets_length; exact L).
    assert (T : lv_decides TRUE True) by (left; auto). assert (F : lv_decides FALSE (~ True)) by (right; tauto).
    assert (Sub : forall s t, (forall x, in_box v s x -> in_box v t x) <-> (forall x, in_sets (sets s) x -> in_sets (sets t) x)).
    { intros s t. split; intros H x Hx; apply in_box_sets; apply H; apply in_box_sets; exact Hx. }
    assert (Meet : (exists x, in_box v a x /\ in_box v b x) <-> (exists x, in_sets (sets a) x /\ in_sets (sets b) x)).
    { split; intros [x [H1 H2]]; exists x; split; apply in_box_sets; assumption. }
    repeat match goal with |- _ /\ _ => apply conj end.
    - edestruct (loop_and_d _ _ (i_subset o) _ _ (EXS good v) (EXS good v) P_sub) as [l [E1 E2]]; [|exact Ea|exact Eb|first [exact L|symmetry; exact Lx]|exact T|].
      + intros i j s t [Xi ->] [Xj ->]. apply (d_sub o good v K); assumption.
      + exists l. split; [exact E1|]. eapply decides_iff; [|exact E2]. rewrite and_True, Sub. symmetry. apply bx_sub_iff; assumption.
    - edestruct (loop_and_d _ _ (i_superset o) _ _ (EXS good v) (EXS good v) (fun s t => P_sub t s)) as [l [E1 E2]]; [|exact Ea|exact Eb|first [exact L|symmetry; exact Lx]|exact T|].
      + intros i j s t [Xi ->] [Xj ->]. apply (d_sup o good v K); assumption.
      + exists l. split; [exact E1|]. eapply decides_iff; [|exact E2]. rewrite and_True, Sub. rewrite (bx_sub_iff _ _ Nb (eq_sym Ls)).
        split; intros H; apply Forall2_turn in H; exact H.
    - edestruct (loop_and_d _ _ (i_intersect o) _ _ (EXS good v) (EXS good v) P_meet) as [l [E1 E2]]; [|exact Ea|exact Eb|first [exact L|symmetry; exact Lx]|exact T|].
      + intros i j s t [Xi ->] [Xj ->]. apply (d_meet o good v K); assumption.
      + exists l. split; [exact E1|]. eapply decides_iff; [|exact E2]. rewrite and_True, Meet. symmetry. apply bx_meet_iff; assumption.
    - edestruct (loop_or_d _ _ (i_disjoint o) _ _ (EXS good v) (EXS good v) P_meet) as [l [E1 E2]]; [|exact Ea|exact Eb|first [exact L|symmetry; exact Lx]|exact F|].
      + intros i j s t [Xi ->] [Xj ->]. apply (d_disjoint o good v K); assumption.
      + exists l. split; [exact E1|]. eapply decides_iff; [|exact E2]. rewrite and_True, Meet, bx_meet_iff by assumption. reflexivity.
    - edestruct (loop_or_d _ _ (i_separated o) _ _ (EXS good v) (EXS good v) P_meet) as [l [E1 E2]]; [|exact Ea|exact Eb|first [exact L|symmetry; exact Lx]|exact F|].
      + intros i j s t [Xi ->] [Xj ->]. apply (d_disjoint o good v K); assumption.
      + exists l. split; [exact E1|]. eapply decides_iff; [|exact E2]. rewrite and_True, Meet, bx_meet_iff by assumption. reflexivity.
    - unfold bx_eq. rewrite L, Nat.eqb_refl.
      edestruct (loop_and_d _ _ (i_eq o) _ _ (EXS good v) (EXS good v) (fun s t => fst s = fst t /\ snd s = snd t)) as [l [E1 E2]]; [|exact Ea|exact Eb|first [exact L|symmetry; exact Lx]|exact T|].
      + intros i j s t [Xi ->] [Xj ->]. apply (d_eq o good v K); assumption.
      + exists l. split; [exact E1|]. eapply decides_iff; [|exact E2]. rewrite and_True, <- (eq_sets_iff _ _ Na Nb Ls).
        split; intros H x; [rewrite !in_box_sets|rewrite <- !in_box_sets]; apply H.
  Qed.
  (** The interior: with real end points; and overlapping, for boxes with interior. *)
  Theorem C74_box_interiors : forall a b : box E, Forall (is_exact good) a -> Forall (is_exact good) b -> dimension a = dimension b ->
    ((exists x, in_box v a x) -> Forall real_ends (sets a) ->
      exists l, bx_inside o a b = Some l /\ lv_decides l (forall x, in_box v a x -> in_box_inner v b x)) /\
    ((exists x, in_box v b x) -> Forall real_ends (sets b) ->
      exists l, bx_covers o a b = Some l /\ lv_decides l (forall x, in_box v b x -> in_box_inner v a x)) /\
    ((exists x, in_box_inner v a x) -> (exists x, in_box_inner v b x) ->
      exists l, bx_overlap o a b = Some l /\ lv_decides l (exists x, in_box_inner v a x /\ in_box_inner v b x)).
  Proof using K.
    intros a b Xa Xb L.
    pose proof (exact_sets good v a Xa) as Ea. pose proof (exact_sets good v b Xb) as Eb.
    assert (Ls : length (sets a) = length (sets b)) by (rewrite !sets_length; exact L).
    assert (T : lv_decides TRUE True) by (left; auto).
    assert (Sub : forall s t, (forall x, in_box v s x -> in_box_inner v t x) <-> (forall x, in_sets (sets s) x -> Forall2 in_inner (sets t) x)).
    { intros s t. split; intros H x Hx; apply inner_sets; apply H; apply in_box_sets; exact Hx. }
    repeat match goal with |- _ /\ _ => apply conj end.
    - intros N R. apply fset_nonempty in N.
      edestruct (loop_and_d _ _ (i_inside o) _ _ (EXS good v) (EXS good v) P_in) as [l [E1 E2]]; [|exact Ea|exact Eb|first [exact L|symmetry; exact Lx]|exact T|].
      + intros i j s t [Xi ->] [Xj ->]. apply (d_in o good v K); assumption.
      + exists l. split; [exact E1|]. eapply decides_iff; [|exact E2]. rewrite and_True, Sub. symmetry. apply bx_in_iff; assumption.
    - intros N R. apply fset_nonempty in N.
      edestruct (loop_and_d _ _ (i_covers o) _ _ (EXS good v) (EXS good v) (fun s t => P_in t s)) as [l [E1 E2]]; [|exact Ea|exact Eb|first [exact L|symmetry; exact Lx]|exact T|].
      + intros i j s t [Xi ->] [Xj ->]. apply (d_cov o good v K); assumption.
      + exists l. split; [exact E1|]. eapply decides_iff; [|exact E2]. rewrite and_True, Sub, (bx_in_iff _ _ N R (eq_sym Ls)).
        split; intros H; apply Forall2_turn in H; exact H.
    - assert (N : forall c : box E, (exists x, in_box_inner v c x) -> Forall (fun s : set => Rbar_lt (fst s) (snd s)) (sets c)).
      { intros c [x H]. apply inner_sets in H. induction H as [|s r ss x [A B] H IH]; constructor; auto. eapply Rbar_lt_trans; eassumption. }
      intros Na Nb. apply N in Na. apply N in Nb.
      edestruct (loop_and_d _ _ (i_overlap o) _ _ (EXS good v) (EXS good v) P_over) as [l [E1 E2]]; [|exact Ea|exact Eb|first [exact L|symmetry; exact Lx]|exact T|].
      + intros i j s t [Xi ->] [Xj ->]. apply (d_over o good v K); assumption.
      + exists l. split; [exact E1|]. eapply decides_iff; [|exact E2]. rewrite and_True, <- (bx_over_iff _ _ Na Nb Ls).
        split; intros [x [H1 H2]]; exists x; split; apply inner_sets; assumption.
  Qed.
  (** Membership and emptiness. *)
  Theorem C74_box_membership : forall b : box E, Forall (is_exact good) b ->
    (forall x r, Forall good x -> Forall2 (fun e q => v e = Finite q) x r -> length x = length b ->
      exists l, bx_contains o b x = Some l /\ lv_decides l (in_box v b r)) /\
    (Forall (sane v) b -> lv_decides (bx_is_empty o b) (~ exists x, in_box v b x)) /\
    (bx_is_bounded o b = true <-> Forall (fun i => Rbar_lt m_infty (v (raw_l i)) /\ Rbar_lt (v (raw_u i)) p_infty) b).
  Proof using K.
    intros b Xb. pose proof (exact_sets good v b Xb) as Eb.
    repeat match goal with |- _ /\ _ => apply conj end.
    - intros x r Gx Vx Lx. assert (T : lv_decides TRUE True) by (left; auto).
      assert (Ex : Forall2 (fun e q => good e /\ v e = Finite q) x r).
      { clear - Gx Vx. induction Vx; constructor; inversion Gx; subst; auto. }
      edestruct (loop_and_d _ _ (i_contains o) _ _ (EXS good v) (fun e q => good e /\ v e = Finite q) in_set) as [l [E1 E2]]; [|exact Eb|exact Ex|first [exact L|symmetry; exact Lx]|exact T|].
      + intros i e s q [Xi ->] [Ge Ve]. apply (d_contains o good v K); assumption.
      + exists l. split; [exact E1|]. eapply decides_iff; [|exact E2]. rewrite and_True. symmetry. apply in_box_sets.
    - intros S. eapply decides_iff; [|apply (bx_empty_gen o good v K b FALSE True)].
      + rewrite and_True, fset_nonempty. reflexivity.
      + apply Forall_forall. intros i Hi. split; [eapply Forall_forall in Xb|eapply Forall_forall in S]; eassumption.
      + right. tauto.
    - unfold bx_is_bounded. destruct (ok_pinf _ _ _ K) as [P1 P2]. destruct (ok_ninf _ _ _ K) as [N1 N2].
      assert (G : forall c r, Forall (is_exact good) c -> fold_left (fun r i => r && i_is_bounded o i) c r = true <->
        r = true /\ Forall (fun i => Rbar_lt m_infty (v (raw_l i)) /\ Rbar_lt (v (raw_u i)) p_infty) c).
      { induction c as [|i c IH]; intros r Xc; cbn [fold_left].
        - split; [intros ->; split; [reflexivity|constructor]|tauto].
        - inversion Xc as [|? ? Xi Xc']; subst. destruct Xi as [[Gl Gu] _]. rewrite (IH _ Xc'), andb_true_iff. unfold i_is_bounded.
          rewrite andb_true_iff, (ok_lt _ _ _ K _ _ N1 Gl), (ok_lt _ _ _ K _ _ Gu P1), P2, N2. split.
          + intros [[A B] C]. split; [exact A|]. constructor; [exact B|exact C].
          + intros [A B]. inversion B; subst. tauto. }
      rewrite (G b true Xb). tauto.
  Qed.
  (** Over-approximating boxes: what is answered is right for all boxes represented. *)
  Theorem C74_box_approximations : forall (a b : box E) s t, Forall (ivl_good good) a -> Forall (ivl_good good) b -> dimension a = dimension b ->
    Forall2 (stands_for v) a s -> Forall2 (stands_for v) b t -> Forall nonempty s -> Forall nonempty t ->
    (exists l, bx_subset o a b = Some l /\ lv_right l (forall x, in_sets s x -> in_sets t x)) /\
    (exists l, bx_superset o a b = Some l /\ lv_right l (forall x, in_sets t x -> in_sets s x)) /\
    (exists l, bx_intersect o a b = Some l /\ lv_right l (exists x, in_sets s x /\ in_sets t x)) /\
    (exists l, bx_disjoint o a b = Some l /\ lv_right l (~ exists x, in_sets s x /\ in_sets t x)) /\
    (exists l, bx_separated o a b = Some l /\ lv_right l (~ exists x, in_sets s x /\ in_sets t x)) /\
    (Forall real_ends s -> exists l, bx_inside o a b = Some l /\ lv_right l (forall x, in_sets s x -> Forall2 in_inner t x)) /\
    (Forall real_ends t -> exists l, bx_covers o a b = Some l /\ lv_right l (forall x, in_sets t x -> Forall2 in_inner s x)).
  Proof using K.
    intros a b s t Ga Gb L Sa Sb Na Nb.
    pose proof (stand_sets good v a s Ga Sa) as Ea. pose proof (stand_sets good v b t Gb Sb) as Eb.
    assert (Ls : length s = length t) by (rewrite <- (forall2_len _ _ _ Sa), <- (forall2_len _ _ _ Sb); exact L).
    assert (T : lv_right TRUE True) by (split; [auto|discriminate]). assert (F : lv_right FALSE (~ True)) by (split; [discriminate|tauto]).
    repeat match goal with |- _ /\ _ => apply conj end.
    - edestruct (loop_and_r _ _ (i_subset o) _ _ (STS good v) (STS good v) P_sub) as [l [E1 E2]]; [|exact Ea|exact Eb|first [exact L|symmetry; exact Lx]|exact T|].
      + intros i j s0 t0 [Gi Si] [Gj Sj]. apply (r_sub o good v K); assumption.
      + exists l. split; [exact E1|]. eapply right_iff; [|exact E2]. rewrite and_True. symmetry. apply bx_sub_iff; assumption.
    - edestruct (loop_and_r _ _ (i_superset o) _ _ (STS good v) (STS good v) (fun s t => P_sub t s)) as [l [E1 E2]]; [|exact Ea|exact Eb|first [exact L|symmetry; exact Lx]|exact T|].
      + intros i j s0 t0 [Gi Si] [Gj Sj]. apply (r_sup o good v K); assumption.
      + exists l. split; [exact E1|]. eapply right_iff; [|exact E2]. rewrite and_True, (bx_sub_iff _ _ Nb (eq_sym Ls)).
        split; intros H; apply Forall2_turn in H; exact H.
    - edestruct (loop_and_r _ _ (i_intersect o) _ _ (STS good v) (STS good v) P_meet) as [l [E1 E2]]; [|exact Ea|exact Eb|first [exact L|symmetry; exact Lx]|exact T|].
      + intros i j s0 t0 [Gi Si] [Gj Sj]. apply (r_meet o good v K); assumption.
      + exists l. split; [exact E1|]. eapply right_iff; [|exact E2]. rewrite and_True. symmetry. apply bx_meet_iff; assumption.
    - edestruct (loop_or_r _ _ (i_disjoint o) _ _ (STS good v) (STS good v) P_meet) as [l [E1 E2]]; [|exact Ea|exact Eb|first [exact L|symmetry; exact Lx]|exact F|].
      + intros i j s0 t0 [Gi Si] [Gj Sj]. apply (r_disjoint o good v K); assumption.
      + exists l. split; [exact E1|]. eapply right_iff; [|exact E2]. rewrite and_True, bx_meet_iff by assumption. reflexivity.
    - edestruct (loop_or_r _ _ (i_separated o) _ _ (STS good v) (STS good v) P_meet) as [l [E1 E2]]; [|exact Ea|exact Eb|first [exact L|symmetry; exact Lx]|exact F|].
      + intros i j s0 t0 [Gi Si] [Gj Sj]. apply (r_disjoint o good v K); assumption.
      + exists l. split; [exact E1|]. eapply right_iff; [|exact E2]. rewrite and_True, bx_meet_iff by assumption. reflexivity.
    - intros R. edestruct (loop_and_r _ _ (i_inside o) _ _ (STS good v) (STS good v) P_in) as [l [E1 E2]]; [|exact Ea|exact Eb|first [exact L|symmetry; exact Lx]|exact T|].
      + intros i j s0 t0 [Gi Si] [Gj Sj]. apply (r_in o good v K); assumption.
      + exists l. split; [exact E1|]. eapply right_iff; [|exact E2]. rewrite and_True. symmetry. apply bx_in_iff; assumption.
    - intros R. edestruct (loop_and_r _ _ (i_covers o) _ _ (STS good v) (STS good v) (fun s t => P_in t s)) as [l [E1 E2]]; [|exact Ea|exact Eb|first [exact L|symmetry; exact Lx]|exact T|].
      + intros i j s0 t0 [Gi Si] [Gj Sj]. apply (r_cov o good v K); assumption.
      + exists l. split; [exact E1|]. eapply right_iff; [|exact E2]. rewrite and_True, (bx_in_iff _ _ Nb R (eq_sym Ls)).
        split; intros H; apply Forall2_turn in H; exact H.
  Qed.
  (** Intersection and hull of boxes. *)
  Theorem C74_box_operations : forall a b : box E, Forall (is_exact good) a -> Forall (is_exact good) b -> dimension a = dimension b ->
    (exists c, bx_intersection o a b = Some c /\ Forall (is_exact good) c /\ forall x, in_box v c x <-> in_box v a x /\ in_box v b x) /\
    (exists h, bx_hull o a b = Some h /\ Forall (is_exact good) h /\
      (forall x, in_box v a x \/ in_box v b x -> in_box v h x) /\
      ((exists x, in_box v a x) -> (exists x, in_box v b x) -> forall c : list set, length c = length a ->
        (forall x, in_box v a x -> in_sets c x) -> (forall x, in_box v b x -> in_sets c x) -> forall x, in_box v h x -> in_sets c x)).
  Proof using K.
    intros a b Xa Xb L. split.
    - unfold bx_intersection. revert b Xb L. induction Xa as [|i a Xi Xa IH]; intros [|j b] Xb L; try discriminate L.
      + exists []. split; [reflexivity|]. split; [constructor|]. intros x. unfold in_box. split; [auto|tauto].
      + inversion Xb as [|? ? Xj Xb']; subst. destruct (IH b Xb') as [c [E1 [E2 E3]]]; [unfold dimension in *; cbn in L; lia|].
        cbn [map2]. rewrite E1. exists (i_intersection o i j :: c). split; [reflexivity|]. split; [constructor; [apply (ops_exact o good v K); assumption|exact E2]|].
        intros x. split.
        * intros H. inversion H as [|? r ? y Hr Hy]; subst. apply (inter_in o good v K) in Hr; [|apply Xi|apply Xj]. apply E3 in Hy.
          split; constructor; tauto.
        * intros [H1 H2]. inversion H1; subst. inversion H2; subst. constructor; [apply (inter_in o good v K); [apply Xi|apply Xj|tauto]|apply E3; tauto].
    - unfold bx_hull. rewrite L, Nat.eqb_refl.
      assert (G : exists h, map2 (i_hull o) a b = Some h /\ Forall (is_exact good) h /\
        (forall x, in_box v a x \/ in_box v b x -> in_box v h x) /\
        (Forall nonempty (sets a) -> Forall nonempty (sets b) -> forall c, Forall2 P_sub (sets a) c -> Forall2 P_sub (sets b) c -> Forall2 P_sub (sets h) c)).
      { revert b Xb L. induction Xa as [|i a Xi Xa IH]; intros [|j b] Xb L; try discriminate L.
        + exists []. split; [reflexivity|]. split; [constructor|]. split; [intros x; tauto|auto].
        + inversion Xb as [|? ? Xj Xb']; subst. destruct (IH b Xb') as [c [E1 [E2 [E3 E4]]]]; [unfold dimension in *; cbn in L; lia|].
          cbn [map2]. rewrite E1. exists (i_hull o i j :: c). split; [reflexivity|]. split; [constructor; [apply (ops_exact o good v K); assumption|exact E2]|]. split.
          * intros x [H|H]; inversion H; subst; constructor; try (apply E3; tauto); apply (hull_contains o good v K); try apply Xi; try apply Xj; tauto.
          * intros Na Nb d Ha Hb. inversion Na as [|? ? N1 N2]; subst. inversion Nb as [|? ? M1 M2]; subst. inversion Ha as [|? y ? d' A1 A2]; subst. inversion Hb as [|? ? ? ? B1 B2]; subst.
            constructor; [|apply E4; assumption].
            assert (Xh : is_exact good (i_hull o i j)) by (apply (ops_exact o good v K); assumption).
            unfold P_sub in *. destruct A1 as [A1 A1'], B1 as [B1 B1'].
            unfold set_of, raw_l, raw_u, i_hull, e_max, e_min in *. cbn [i_l i_u e_raw fst snd] in *.
            destruct (ok_min _ _ _ K _ _ (proj1 (proj1 Xi)) (proj1 (proj1 Xj))) as [_ [[U|U] _]];
            destruct (ok_max _ _ _ K _ _ (proj2 (proj1 Xi)) (proj2 (proj1 Xj))) as [_ [[W|W] _]];
            unfold raw_l, raw_u in *; rewrite U, W; split; assumption. }
      destruct G as [h [E1 [E2 [E3 E4]]]]. exists h. split; [exact E1|]. split; [exact E2|]. split; [exact E3|].
      intros Na Nb c Lc Ha Hb. apply fset_nonempty in Na. apply fset_nonempty in Nb.
      assert (A : Forall2 P_sub (sets a) c).
      { apply bx_sub_iff; [exact Na|rewrite sets_length; auto|]. intros x Hx. apply Ha. apply in_box_sets. exact Hx. }
      assert (B : Forall2 P_sub (sets b) c).
      { apply bx_sub_iff; [exact Nb|rewrite sets_length; rewrite Lc; symmetry; exact L|]. intros x Hx. apply Hb. apply in_box_sets. exact Hx. }
      specialize (E4 Na Nb c A B). intros x Hx. apply in_box_sets in Hx. clear - E4 Hx. revert x Hx.
      induction E4 as [|s t ss tt P H IH]; intros x Hx; inversion Hx; subst; constructor; [apply (P_sub_incl _ _ P); assumption|apply IH; assumption].
  Qed.
  (** Boxes of different dimensions: equality is false; the loops over the first operand
      run past the end of a shorter second one, and ignore what a longer one has. *)
  Theorem C74_dimensions : forall a b : box E,
    (dimension a <> dimension b -> bx_eq o a b = Some FALSE) /\
    ((dimension b < dimension a)%nat -> bx_subset o a b = None) /\
    (forall c, bx_subset o a b <> None -> bx_subset o a (b ++ c) = bx_subset o a b).
  Proof using.
    intros a b. repeat match goal with |- _ /\ _ => apply conj end.
    - intros H. unfold bx_eq. apply Nat.eqb_neq in H. rewrite H. reflexivity.
    - unfold bx_subset, dimension. generalize TRUE. revert b. induction a as [|i a IH]; intros [|j b] r H; cbn in *; try lia; try reflexivity.
      apply IH. lia.
    - intros c. unfold bx_subset. generalize TRUE. revert b. induction a as [|i a IH]; intros [|j b] r H; cbn in *; try reflexivity; try congruence.
      apply IH. exact H.
  Qed.
End Boxes.
Print Assumptions C74_box_relations_partial.
Print Assumptions C74_box_interiors.
Print Assumptions C74_box_membership.
Print Assumptions C74_box_approximations.
Print Assumptions C74_box_operations.
Print Assumptions C74_dimensions.

Lemma zbox2 : forall a b c d x y, IZR a <= x <= IZR b /\ IZR c <= y <= IZR d -> in_box rv [zi a b; zi c d] [x; y].
Proof. intros. constructor; [|constructor; [|constructor]]; unfold in_ivl; rewrite zset; split; cbn; lra. Qed.
Lemma zbox2_inner : forall a b c d x y, IZR a < x < IZR b /\ IZR c < y < IZR d -> in_box_inner rv [zi a b; zi c d] [x; y].
Proof. intros. constructor; [|constructor; [|constructor]]; rewrite zset; split; cbn; lra. Qed.
(** The relation [equal] of boxes is that of the intervals, which compares the lower ends
    with [<=]. *)
Theorem C74_equal_refuted : exists a b, Forall (is_exact rat_good) a /\ Forall (is_exact rat_good) b /\ dimension a = dimension b /\
  bx_equal RO a b = Some TRUE /\ exists x, in_box rv a x /\ ~ in_box rv b x.
Proof.
  exists [zi 0 5; zi 0 1], [zi 0 5; zi 1 1]. repeat match goal with |- _ /\ _ => apply conj end; try (repeat constructor; apply zg); try reflexivity.
  exists [0; 0]. split.
  - apply zbox2. lra.
  - intros H. inversion H as [|? ? ? ? _ H2]; subst. inversion H2 as [|? ? ? ? H3 _]; subst. unfold in_ivl in H3. rewrite zset in H3. destruct H3; cbn in *; lra.
Qed.
Print Assumptions C74_equal_refuted.

(** Two squares with a common edge, and one inside the interior of a third. *)
Example C74_nonvacuous : let a := [zi 0 1; zi 0 1] in let b := [zi 1 2; zi 0 1] in let c := [zi (-1) 3; zi (-1) 2] in
  Forall (is_exact rat_good) a /\ (exists x, in_box rv a x) /\ (exists x, in_box_inner rv a x) /\
  bx_intersect RO a b = Some TRUE /\ bx_overlap RO a b = Some FALSE /\ bx_disjoint RO a b = Some FALSE /\
  bx_inside RO b c = Some TRUE /\ bx_covers RO c a = Some TRUE /\ bx_subset RO a b = Some FALSE /\
  bx_hull RO a b = Some [zi 0 2; zi 0 1] /\ bx_is_empty RO a = FALSE /\ bx_contains RO a [z 1; z 0] = Some TRUE.
Proof.
  cbv zeta. split; [repeat constructor; apply zg|].
  split; [exists [0; 0]; apply zbox2; lra|].
  split; [exists [1/2; 1/2]; apply zbox2_inner; lra|].
  repeat split; vm_compute; reflexivity.
Qed.
