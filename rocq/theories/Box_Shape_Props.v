(** Properties of vertices, splitting, products, unions of intervals, widening. *)
From Coq Require Import ZArith QArith Qreals Reals List Lra Lia Bool Arith Permutation.
From Coquelicot Require Import Rbar.
From Flocq Require Import Core IEEE754.BinarySingleNaN.
From Verif Require Import Logical_Model Float_Model Bounds_Model Ball_Model Box_Model Box_Spec Box_Float_Model Box_Proofs Box_Parts_Proofs Box_Union_Proofs Box_Num_Proofs Box_Props Float_Proofs.
From Verif Require Exact_Model Exact_Spec.
Import ListNotations.
Local Open Scope R_scope.

Section Shapes.
  Context {E : Type} (o : num_ops E) (good : E -> Prop) (v : E -> Rbar) (K : num_ok o good v).

  (** ** C75: splitting, vertices, products and projections of boxes *)
  (** The two parts of a box are together the box, have only the split point of the
      coordinate in common, and agree with the box in all other coordinates. *)
  Theorem C75_split_partial : forall (mid : interval E -> E) (b : box E) k i m,
    nth_error b k = Some i -> v (mid i) = Finite m -> in_ivl v i m ->
    exists p q, bx_split mid b k = Some (p, q) /\
      (forall x, in_box v b x <-> in_box v p x \/ in_box v q x) /\
      (forall x, in_box v p x -> in_box v q x -> nth_error x k = Some m) /\
      (forall n, n <> k -> nth_error p n = nth_error b n /\ nth_error q n = nth_error b n) /\
      dimension p = dimension b /\ dimension q = dimension b.
  Proof using.
    intros mid b k i m Hk Vm Hm. unfold bx_split. rewrite Hk. eexists _, _. split; [reflexivity|].
    assert (Lk : (k < length b)%nat) by (apply nth_error_Some; congruence).
    cbn [i_split fst snd].
    split; [intros x; apply (split_cover v b k i m Hk Hm (mid i) Vm)|]. split.
    - intros x P Q. apply in_box_nth in P. apply in_box_nth in Q. rewrite set_nth_length in P, Q. destruct P as [L P], Q as [_ Q].
      destruct (nth_error x k) as [r|] eqn:Hx; [|apply nth_error_None in Hx; lia].
      specialize (P k (mkI (i_l i) (mkE EX (mid i))) r). specialize (Q k (mkI (mkE EX (mid i)) (i_u i)) r).
      rewrite set_nth_nth, Nat.eqb_refl in P, Q by exact Lk.
      specialize (P eq_refl Hx). specialize (Q eq_refl Hx). destruct P as [_ P], Q as [Q _].
      unfold set_of, raw_l, raw_u in P, Q. cbn [fst snd i_l i_u e_raw] in P, Q. rewrite Vm in P, Q. cbn in P, Q. f_equal. lra.
    - split; [|unfold dimension; rewrite !set_nth_length; auto].
      intros n N. rewrite !set_nth_nth by exact Lk. apply Nat.eqb_neq in N. rewrite N. auto.
  Qed.
  (** Without a coordinate, the widest one is split; the first of several. *)
  Theorem C75_split_widest : forall (w : interval E -> R) (wider : interval E -> interval E -> bool) (mid : interval E -> E),
    (forall i j, wider i j = true <-> w j < w i) ->
    forall b : box E, b <> [] -> exists k i, nth_error b k = Some i /\ bx_split_widest wider mid b = bx_split mid b k /\
      forall n j, nth_error b n = Some j -> w j <= w i /\ ((n < k)%nat -> w j < w i).
  Proof using.
    intros w wider mid Hw b N. destruct (irmax_spec w wider Hw b N) as [k [i [A [B C]]]].
    exists k, i. unfold bx_split_widest. rewrite A. auto.
  Qed.
  (** The vertices of a box with at least one coordinate: exactly its corners, [2^n] of
      them; without repetition, and each differing from the one before in one coordinate,
      if no coordinate is a single point. *)
  Theorem C75_vertices_partial : forall b : box E, b <> [] ->
    (forall x, In x (bx_vertices b) <-> is_corner b x) /\ length (bx_vertices b) = (2 ^ dimension b)%nat /\
    (Forall (fun i => raw_l i <> raw_u i) b -> NoDup (bx_vertices b) /\ chain one_step (bx_vertices b)).
  Proof using.
    intros b N. unfold bx_vertices. split; [|split].
    - intros x. rewrite (proj1 (vertices_in b N [] x)). cbn [app]. split; [intros [y [-> H]]; exact H|intros H; exists x; auto].
    - apply vertices_length. exact N.
    - intros P. split; [apply vertices_nodup|apply vertices_chain]; assumption.
  Qed.
  (** Products list the coordinates of the arguments in turn. *)
  Theorem C75_products : forall (a b c : box E) i,
    (forall x, in_box v (bx_product o a b) x <-> exists y z, x = y ++ z /\ in_box v a y /\ in_box v b z) /\
    (forall x, in_box v (ivl_product o i b) x <-> exists r z, x = r :: z /\ in_ivl v i r /\ in_box v b z) /\
    (forall x, in_box v (product_ivl o a i) x <-> exists y r, x = y ++ [r] /\ in_box v a y /\ in_ivl v i r) /\
    (forall x, in_box v (bx_product3 o a b c) x <-> exists y z w, x = y ++ z ++ w /\ in_box v a y /\ in_box v b z /\ in_box v c w).
  Proof using.
    intros a b c i. split; [intros x; apply product_in|]. split; [|split].
    - intros x. rewrite ivl_product_app. unfold in_box. split.
      + intros H. inversion H as [|? r ? z Hr Hz]; subst. exists r, z. auto.
      + intros [r [z0 [-> [A B]]]]. constructor; assumption.
    - intros x. rewrite product_ivl_app. unfold in_box. split.
      + intros H. apply Forall2_app_inv_l in H. destruct H as [y [z0 [A [B ->]]]]. inversion B as [|? r ? ? Hr Hn]; subst. inversion Hn; subst. exists y, r. auto.
      + intros [y [r [-> [A B]]]]. apply Forall2_app; [exact A|]. constructor; [exact B|constructor].
    - intros x. rewrite product3_app. unfold in_box. split.
      + intros H. apply Forall2_app_inv_l in H. destruct H as [y [w [A [B ->]]]]. apply Forall2_app_inv_l in B. destruct B as [z0 [w' [B [C ->]]]].
        exists y, z0, w'. auto.
      + intros [y [z0 [w [-> [A [B C]]]]]]. apply Forall2_app; [exact A|]. apply Forall2_app; assumption.
  Qed.
  Theorem C75_projection : forall (b : box E) rng,
    (Forall (fun k => (k < dimension b)%nat) rng -> exists r, bx_project b rng = Some r /\ length r = length rng /\
      forall n k, nth_error rng n = Some k -> nth_error r n = nth_error b k) /\
    (~ Forall (fun k => (k < dimension b)%nat) rng -> bx_project b rng = None).
  Proof using. intros b rng. split; [apply project_some|apply project_none]. Qed.

  (** ** C76: unions of intervals *)
  Notation PS := (pair_set v).
  (** Whatever the order of the intervals given and their overlaps, the union object
      has the same points, as non-empty disjoint intervals in increasing order. *)
  Theorem C76_normal_form : forall s : union E, Forall (pair_good good) s ->
    (forall r, in_union v (un_make o s) r <-> in_union v s r) /\
    Forall (pair_good good) (un_make o s) /\
    (Forall (fun i => nonempty (PS i)) s -> normal v (un_make o s)).
  Proof using K. intros s G. destruct (make_spec o good v K s G) as [A [B C]]. auto. Qed.
  (** Union objects with the same points consist of the same intervals. *)
  Theorem C76_canonical : forall s t : union E, normal v s -> normal v t ->
    (forall r, in_union v s r <-> in_union v t r) -> map PS s = map PS t.
  Proof using. intros s t. apply (normal_unique v). Qed.
  (** So the measure depends on the points only, not on how the intervals are given. *)
  Theorem C76_measure : forall {W} (zero : W) (width : ival E -> W) (plus : W -> W -> W),
    (forall i j, PS i = PS j -> width i = width j) ->
    forall s t, Forall (pair_good good) s -> Forall (pair_good good) t ->
    Forall (fun i => nonempty (PS i)) s -> Forall (fun i => nonempty (PS i)) t ->
    (forall r, in_union v s r <-> in_union v t r) ->
    un_measure zero width plus (un_make o s) = un_measure zero width plus (un_make o t).
  Proof using K.
    intros W zero width plus Hw s t Gs Gt Ns Nt H.
    destruct (make_spec o good v K s Gs) as [_ [Is Fs]]. destruct (make_spec o good v K t Gt) as [_ [It Ft]].
    specialize (Fs Ns). specialize (Ft Nt).
    assert (Q : map PS (un_make o s) = map PS (un_make o t)).
    { apply (normal_unique v); [exact Fs|exact Ft|]. intros r. rewrite Is, It. apply H. }
    clear - Q Hw. unfold un_measure. generalize zero.
    revert Q. generalize (un_make o t). generalize (un_make o s). intros a b Q z0.
    assert (F : forall a b, map PS a = map PS b -> forall z0, fold_left (fun r i => plus r (width i)) a z0 = fold_left (fun r i => plus r (width i)) b z0).
    { clear - Hw. induction a as [|i a IH]; intros [|j b] Q z0; try discriminate Q; [reflexivity|]. cbn in *. injection Q as Q1 Q2 Q3.
      rewrite (Hw i j) by (unfold pair_set; congruence). apply IH. exact Q3. }
    destruct a as [|i a], b as [|j b]; try discriminate Q; [reflexivity|]. f_equal. apply F. exact Q.
  Qed.
  Theorem C76_join : forall a b : union E, Forall (pair_good good) a -> Forall (pair_good good) b -> normal v a -> normal v b ->
    normal v (un_join o a b) /\ forall r, in_union v (un_join o a b) r <-> in_union v a r \/ in_union v b r.
  Proof using K.
    intros a b Ga Gb Na Nb. destruct (make_spec o good v K (a ++ b)) as [A [B C]]; [apply Forall_app; auto|]. split.
    - apply C. apply Forall_forall. intros i Hi. apply in_app_iff in Hi. destruct Hi as [H|H]; [apply (normal_nonempty v a)|apply (normal_nonempty v b)]; assumption.
    - intros r. unfold un_join. rewrite B. apply in_union_app.
  Qed.
  (** [intersect] answers whether members overlap, not whether there are common points. *)
  Theorem C76_intersect_partial : forall a b : union E, Forall (pair_good good) a -> Forall (pair_good good) b -> normal v a -> normal v b ->
    exists r, un_intersect o a b = Some r /\
      (r = true <-> exists i j, In i a /\ In j b /\ overlapping (PS i) (PS j)) /\
      (r = true -> exists x, in_union v a x /\ in_union v b x).
  Proof using K.
    intros a b Ga Gb Na Nb. destruct (intersect_spec o good v K (S (length a + length b)) a b) as [r [A B]]; auto with arith.
    assert (C : (exists i j, In i a /\ In j b /\ overlapping (PS i) (PS j)) <-> (exists i j, In i a /\ In j b /\ P_over (PS i) (PS j))).
    { split; intros [i [j [Hi [Hj H]]]]; exists i, j; (split; [exact Hi|]); (split; [exact Hj|]);
        apply set_over_iff; try exact H; [apply (normal_nonempty v a)|apply (normal_nonempty v b)|apply (normal_nonempty v a)|apply (normal_nonempty v b)]; assumption. }
    exists r. split; [exact A|]. rewrite C. split; [exact B|]. intros R. apply B, C in R. destruct R as [i [j [Hi [Hj [x [X1 [X2 _]]]]]]].
    exists x. split; [exists i|exists j]; auto.
  Qed.
  (** [subset] is right when it is true, and complete if no interval is a single point. *)
  Theorem C76_subset_partial : forall a b : union E, Forall (pair_good good) a -> Forall (pair_good good) b ->
    exists r, un_subset o a b = Some r /\ (r = true -> forall x, in_union v a x -> in_union v b x) /\
      (normal v a -> normal v b -> Forall (fun i => Rbar_lt (v (fst i)) (v (snd i))) a ->
        (forall x, in_union v a x -> in_union v b x) -> r = true).
  Proof using K.
    intros a b Ga Gb. destruct (subset_total o (S (length a + length b)) a b) as [r A]; [auto with arith|].
    exists r. split; [exact A|]. split.
    - intros ->. apply (subset_sound o good v K _ a b Ga Gb A).
    - intros Na Nb Fa H. pose proof (subset_complete o good v K (S (length a + length b)) a b ltac:(auto with arith) Ga Gb Na Fa Nb H) as B.
      unfold un_subset in A. congruence.
  Qed.
  (** What [intersection] returns lies in both. *)
  Theorem C76_intersection_partial : forall a b : union E, Forall (pair_good good) a -> Forall (pair_good good) b ->
    exists s, un_intersection o a b = Some s /\ forall x, in_union v s x -> in_union v a x /\ in_union v b x.
  Proof using K.
    intros a b Ga Gb. destruct (intersection_total o good v K (S (length a + length b)) a b) as [s [A [B C]]]; auto with arith.
    exists (un_make o s). unfold un_intersection. rewrite A. split; [reflexivity|]. intros x H. apply C.
    apply (make_spec o good v K s B). exact H.
  Qed.
  (** The bounding box is the smallest interval with all points. *)
  Theorem C76_bounding_box : forall a : union E, normal v a ->
    (a = [] -> un_bounding_box a = None) /\
    (a <> [] -> exists b, un_bounding_box a = Some b /\ (forall x, in_union v a x -> in_set (PS b) x) /\
       forall t, (forall x, in_union v a x -> in_set t x) -> incl (PS b) t).
  Proof using.
    intros a N. split; [intros ->; reflexivity|]. intros NE. destruct a as [|i a]; [congruence|]. cbn [un_bounding_box].
    set (j := last (i :: a) i). pose proof (last_in (i :: a) i NE) as J. fold j in J.
    exists (fst i, snd j). split; [reflexivity|]. split.
    - intros x [k [Hk [X1 X2]]]. split.
      + eapply Rbar_le_trans; [|exact X1]. apply (later_le v i a k N Hk).
      + eapply Rbar_le_trans; [exact X2|]. apply (last_max v (i :: a) i k N Hk).
    - intros t H. apply P_sub_incl.
      assert (I : incl (PS i) t) by (intros x Hx; apply H; exists i; split; [left; reflexivity|exact Hx]).
      assert (L : incl (PS j) t) by (intros x Hx; apply H; exists j; split; assumption).
      apply set_subset_iff in I; [|apply (normal_nonempty v (i :: a)); [exact N|left; reflexivity]].
      apply set_subset_iff in L; [|apply (normal_nonempty v (i :: a)); assumption].
      split; [apply I|apply L].
  Qed.
End Shapes.
Print Assumptions C75_split_partial.
Print Assumptions C75_split_widest.
Print Assumptions C75_vertices_partial.
Print Assumptions C75_products.
Print Assumptions C75_projection.
Print Assumptions C76_normal_form.
Print Assumptions C76_canonical.
Print Assumptions C76_measure.
Print Assumptions C76_join.
Print Assumptions C76_intersect_partial.
Print Assumptions C76_subset_partial.
Print Assumptions C76_intersection_partial.
Print Assumptions C76_bounding_box.

(** ** The split point of floats *)
Section FloatSplit.
  Context {prec emax : Z} {Hprec : Prec_gt_0 prec} {Hemax : Prec_lt_emax prec emax}.
  Notation fl := (binary_float prec emax).
  (** Whatever the precision and the rounding mode in force, if the computed midpoint is
      finite it is in the interval: the two parts together are the box. *)
  Theorem C75_float_split : forall m (b : box fl) k i, nth_error b k = Some i ->
    B2R (raw_l i) <= B2R (raw_u i) -> is_finite (f_midpoint m (raw_l i) (raw_u i)) = true ->
    exists p q, bx_split (fun i => f_midpoint m (raw_l i) (raw_u i)) b k = Some (p, q) /\
      forall x, in_box fval b x <-> in_box fval p x \/ in_box fval q x.
  Proof using.
    intros m b k i Hk L F. destruct (midpoint_between m (raw_l i) (raw_u i) L F) as [Fl [Fu [H1 H2]]].
    destruct (C75_split_partial fval (fun i => f_midpoint m (raw_l i) (raw_u i)) b k i (B2R (f_midpoint m (raw_l i) (raw_u i))) Hk) as [p [q [A [B _]]]].
    - apply fval_fin. exact F.
    - unfold in_ivl, set_of. rewrite (fval_fin _ Fl), (fval_fin _ Fu). split; cbn; assumption.
    - exists p, q. auto.
  Qed.
End FloatSplit.
Print Assumptions C75_float_split.

(** If the sum of the end points overflows, the midpoint is infinite, and the first part
    reaches beyond the box. *)
Theorem C75_float_split_refuted : exists (b p q : box DP) x, Forall (is_exact num) b /\
  Forall (fun i => is_finite (raw_l i) = true /\ is_finite (raw_u i) = true) b /\ (exists y, in_box fval b y) /\
  bx_split (fun i => f_midpoint near (raw_l i) (raw_u i)) b 0 = Some (p, q) /\ in_box fval p x /\ ~ in_box fval b x.
Proof.
  set (l := dp 1 1023). set (u := dp 3 1022).
  assert (Fl : is_finite l = true) by (vm_compute; reflexivity). assert (Fu : is_finite u = true) by (vm_compute; reflexivity).
  assert (Le : B2R l <= B2R u) by (apply (flt_le_finite l u Fl Fu); vm_compute; reflexivity).
  assert (M : f_midpoint near l u = B754_infinity false) by (vm_compute; reflexivity).
  assert (Nl : num l) by (vm_compute; reflexivity). assert (Nu : num u) by (vm_compute; reflexivity). clearbody l u.
  exists [exact_ivl l u], [exact_ivl l (B754_infinity false)], [exact_ivl (B754_infinity false) u], [B2R u + 1].
  repeat match goal with |- _ /\ _ => apply conj end.
  - constructor; [|constructor]. repeat split; assumption.
  - constructor; [|constructor]. auto.
  - exists [B2R u]. constructor; [|constructor]. unfold in_ivl, set_of. cbn [raw_l raw_u exact_ivl i_l i_u e_raw].
    rewrite (fval_fin _ Fl), (fval_fin _ Fu). split; cbn; lra.
  - cbn [bx_split nth_error set_nth]. unfold i_split, raw_l, raw_u. cbn [exact_ivl i_l i_u e_raw]. rewrite M. reflexivity.
  - constructor; [|constructor]. unfold in_ivl, set_of, raw_l, raw_u. cbn [exact_ivl i_l i_u e_raw].
    rewrite (fval_fin _ Fl). split; cbn; [lra|exact I].
  - intros H. inversion H as [|? ? ? ? [_ X] _]; subst. unfold set_of, raw_l, raw_u in X. cbn [exact_ivl i_l i_u e_raw fst snd] in X.
    rewrite (fval_fin _ Fu) in X. cbn in X. lra.
Qed.
Print Assumptions C75_float_split_refuted.

(** The box without coordinates is a single point, but has no vertex. *)
Theorem C75_vertices_refuted : exists b : box Exact_Model.rational, (forall x, is_corner b x <-> x = []) /\ bx_vertices b = [].
Proof. exists []. split; [|reflexivity]. intros x. split; [intros H; inversion H; reflexivity|intros ->; constructor]. Qed.
Print Assumptions C75_vertices_refuted.

Example C75_nonvacuous : let b := [zi 0 2; zi 0 1] in
  bx_split (fun _ => z 1) b 0 = Some ([zi 0 1; zi 0 1], [zi 1 2; zi 0 1]) /\
  bx_vertices b = [[z 0; z 0]; [z 0; z 1]; [z 2; z 1]; [z 2; z 0]] /\
  bx_product RO b [zi 3 4] = [zi 0 2; zi 0 1; zi 3 4] /\ bx_project b [1; 0; 1]%nat = Some [zi 0 1; zi 0 2; zi 0 1] /\
  Forall (fun i => raw_l i <> raw_u i) b /\
  (exists i, nth_error b 0 = Some i /\ in_ivl rv i 1 /\ rv (z 1) = Finite 1) /\
  is_finite (f_midpoint near (dp 0 0) (dp 1 0)) = true.
Proof.
  cbv zeta. do 4 (split; [vm_compute; reflexivity|]). split; [repeat constructor; discriminate|]. split; [|vm_compute; reflexivity].
  eexists. split; [reflexivity|]. split; [unfold in_ivl; rewrite zset; split; cbn; lra|apply zv].
Qed.

(** ** C76, continued: what does not hold *)
Definition zp (l u : Z) : ival Exact_Model.rational := (z l, z u).
Lemma zpg : forall l u, pair_good rat_good (zp l u). Proof. intros. split; apply zg. Qed.
Lemma zpn : forall l u, (l <= u)%Z -> nonempty (pair_set rv (zp l u)).
Proof. intros l u H. unfold pair_set, zp. cbn [fst snd]. rewrite !zv. exists (IZR l). split; cbn; [lra|apply IZR_le; exact H]. Qed.
Lemma zpi : forall l u x, in_set (pair_set rv (zp l u)) x <-> IZR l <= x <= IZR u.
Proof. intros l u x. unfold pair_set, zp, in_set. cbn [fst snd]. rewrite !zv. cbn. tauto. Qed.
(** Touching intervals count as separated, although the answer is definite. *)
Theorem C76_separated_refuted : exists a i, normal rv a /\ un_separated RO a i = Some true /\ exists x, in_union rv a x /\ in_set (pair_set rv i) x.
Proof.
  exists [zp 0 1], (zp 1 2). split; [|split].
  - split; [apply zpn; lia|]. split; exact I.
  - vm_compute. reflexivity.
  - exists 1. split; [exists (zp 0 1); split; [left; reflexivity|]|]; apply zpi; lra.
Qed.
(** A single point at the upper end of an interval is not found to be in it. *)
Theorem C76_subset_refuted : exists a b, normal rv a /\ normal rv b /\ (forall x, in_union rv a x -> in_union rv b x) /\ un_subset RO a b = Some false.
Proof.
  exists [zp 1 1], [zp 0 1]. split; [split; [apply zpn; lia|split; exact I]|]. split; [split; [apply zpn; lia|split; exact I]|]. split; [|vm_compute; reflexivity].
  intros x [i [[<-|[]] H]]. apply zpi in H. exists (zp 0 1). split; [left; reflexivity|]. apply zpi. lra.
Qed.
(** The intersection of [2,3] with [0,1] and [2,3] comes out empty. *)
Theorem C76_intersection_refuted : exists a b, normal rv a /\ normal rv b /\ un_intersection RO a b = Some [] /\
  forall x, 2 <= x <= 3 -> in_union rv a x /\ in_union rv b x.
Proof.
  exists [zp 2 3], [zp 0 1; zp 2 3]. split; [split; [apply zpn; lia|split; exact I]|]. split; [|split; [vm_compute; reflexivity|]].
  - split; [apply zpn; lia|]. split; [|unfold zp; cbn [fst snd]; rewrite !zv; cbn; lra]. split; [apply zpn; lia|split; exact I].
  - intros x H. split; exists (zp 2 3); (split; [cbn; auto|apply zpi; lra]).
Qed.
(** Converted from intervals of another type, the intervals are not put in order: the
    bounding box is empty. *)
Theorem C76_convert_refuted : exists (s : list (ival Exact_Model.rational)) b x, Forall (fun i => nonempty (pair_set rv i)) s /\
  un_bounding_box (un_convert (fun x => x) (fun x => x) s) = Some b /\ in_union rv s x /\ ~ in_set (pair_set rv b) x.
Proof.
  exists [zp 2 3; zp 0 1], (zp 2 1), 1. split; [repeat constructor; apply zpn; lia|]. split; [reflexivity|]. split.
  - exists (zp 0 1). split; [cbn; auto|apply zpi; lra].
  - rewrite zpi. lra.
Qed.
(** The measure of no intervals reads an element which does not exist. *)
Theorem C76_measure_empty_refuted : forall (W : Type) (zero : W) width plus,
  un_measure (E := Exact_Model.rational) zero width plus (un_make RO []) = None.
Proof. reflexivity. Qed.
Print Assumptions C76_separated_refuted.
Print Assumptions C76_subset_refuted.
Print Assumptions C76_intersection_refuted.
Print Assumptions C76_convert_refuted.
Print Assumptions C76_measure_empty_refuted.

Example C76_nonvacuous : let s := [zp 4 6; zp 0 1; zp 1 2; zp 5 7; zp 9 9] in
  Forall (pair_good rat_good) s /\ Forall (fun i => nonempty (pair_set rv i)) s /\
  un_make RO s = [zp 0 2; zp 4 7; zp 9 9] /\ un_join RO (un_make RO s) [zp 2 4] = [zp 0 7; zp 9 9] /\
  un_intersect RO (un_make RO s) [zp 3 5] = Some true /\ un_intersect RO (un_make RO s) [zp 2 4] = Some false /\
  un_subset RO [zp 0 1; zp 5 6] (un_make RO s) = Some true /\ un_intersection RO (un_make RO s) [zp 1 5] = Some [zp 1 2; zp 4 5] /\
  un_bounding_box (un_make RO s) = Some (zp 0 9).
Proof.
  cbv zeta. split; [repeat (constructor; [apply zpg|]); constructor|]. split; [repeat (constructor; [apply zpn; lia|]); constructor|].
  repeat split; vm_compute; reflexivity.
Qed.

(** ** C77: widening and narrowing *)
Section Widening.
  Context {prec emax : Z} {Hprec : Prec_gt_0 prec} {Hemax : Prec_lt_emax prec emax}.
  Notation fl := (binary_float prec emax).
  (** A widened box has all points within [e] of the box in every coordinate, and for
      positive [e] the box in its interior; a point of a narrowed box has all points
      within [e] in the box. *)
  Theorem C77_widen_narrow : forall (b : box fl) e, Forall (ivl_good num) b -> is_finite e = true ->
    (forall x y, in_box fval b x -> Forall2 (fun r s => Rabs (s - r) <= B2R e) x y -> in_box fval (bx_widen b e) y) /\
    (0 < B2R e -> forall x, in_box fval b x -> in_box_inner fval (bx_widen b e) x) /\
    (forall x y, in_box fval (bx_narrow b e) x -> Forall2 (fun r s => Rabs (s - r) <= B2R e) x y -> in_box fval b y).
  Proof using.
    intros b e G F. repeat match goal with |- _ /\ _ => apply conj end.
    - intros x y H. revert y. induction H as [|i r b x Hi H IH]; intros y D; inversion D; subst; [constructor|].
      inversion G as [|? ? [Gl Gu] G']; subst. constructor; [|apply IH; assumption].
      apply (widen_spec i e r); assumption.
    - intros P x H. induction H as [|i r b x Hi H IH]; [constructor|].
      inversion G as [|? ? [Gl Gu] G']; subst. constructor; [|apply IH; assumption]. apply widen_interior; assumption.
    - induction b as [|i b IH]; intros x y H D; inversion H as [|? r ? x' Hr Hx]; subst; inversion D as [|? s ? y' Hs Hy]; subst; [constructor|].
      inversion G as [|? ? [Gl Gu] G']; subst. constructor; [|eapply IH; eassumption]. apply (narrow_spec i e s r); assumption.
  Qed.
End Widening.
Print Assumptions C77_widen_narrow.

(** Rounding a box to single precision, so as to contain it: right for upper ends, and for
    lower ends which are single-precision numbers. *)
Theorem C77_widen_domain_partial : forall i : interval DP, num (raw_l i) -> num (raw_u i) ->
  (forall r, in_ivl fval i r -> Rbar_le (Finite r) (fval (raw_u (widen_domain i)))) /\
  ((exists l : SP, num l /\ fval l = fval (raw_l i)) -> forall r, in_ivl fval i r -> in_ivl fval (widen_domain i) r).
Proof.
  intros i Nl Nu. destruct (widen_domain_upper i Nl Nu) as [U _]. split.
  - intros r [_ H]. eapply Rbar_le_trans; eassumption.
  - intros [l [Nx X]] r [H1 H2]. split; [|eapply Rbar_le_trans; eassumption]. unfold set_of. cbn [fst].
    rewrite (widen_domain_exact i l Nx (eq_sym X) Nl). exact H1.
Qed.
Print Assumptions C77_widen_domain_partial.
(** Lower ends are rounded upwards: no point of an interval need remain. *)
Theorem C77_widen_domain_refuted : exists i : interval DP, num (raw_l i) /\ num (raw_u i) /\ (exists r, in_ivl fval i r) /\
  forall r, in_ivl fval i r -> ~ in_ivl fval (widen_domain i) r.
Proof.
  set (l := dp (2 ^ 40 + 1) (-40)). assert (Fl : is_finite l = true) by (vm_compute; reflexivity).
  exists (exact_ivl l l). split; [vm_compute; reflexivity|]. split; [vm_compute; reflexivity|].
  assert (S : forall r, in_ivl fval (exact_ivl l l) r <-> r = B2R l).
  { intros r. unfold in_ivl, set_of, raw_l, raw_u. cbn [exact_ivl i_l i_u e_raw]. rewrite (fval_fin _ Fl). unfold in_set. cbn. split; [intros; lra|intros ->; lra]. }
  split; [exists (B2R l); apply S; reflexivity|]. intros r H. apply S in H. subst r. intros [X _]. unfold set_of in X. cbn [fst] in X.
  set (m := raw_l (widen_domain (exact_ivl l l))) in X. assert (Fm : is_finite m = true) by (vm_compute; reflexivity).
  assert (L : B2R l < B2R m) by (apply (flt_lt_finite l m Fl Fm); vm_compute; reflexivity).
  clearbody m. unfold raw_l, exact_ivl in X. rewrite ?(fval_fin _ Fm) in X. clearbody l. cbn in X. lra.
Qed.
Print Assumptions C77_widen_domain_refuted.

Example C77_nonvacuous : let i := exact_ivl (dp 0 0) (dp 1 0) in
  ivl_good num i /\ is_finite (dp 1 (-10)) = true /\ flt_eq (raw_u (f_widen i (dp 1 (-10)))) (dp 1025 (-10)) = true /\
  flt_eq (raw_l (f_narrow i (dp 1 (-10)))) (dp 1 (-10)) = true /\ raw_l (widen_domain i) = dp 0 0 /\
  num (fconv mode_NE (dp 0 0) : SP) /\ fval (fconv mode_NE (dp 0 0) : SP) = fval (raw_l i).
Proof. cbv zeta. repeat split; vm_compute; reflexivity. Qed.
