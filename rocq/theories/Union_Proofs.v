From Coq Require Import QArith Qreals Qminmax Reals List Bool Lra Lia Sorted.
From Coquelicot Require Import RInt Hierarchy.
From Verif Require Import Union_Model Union_Spec.
Import ListNotations.
Local Open Scope R_scope.
Notation L i := (Q2R (lo i)). Notation U i := (Q2R (up i)).

Lemma le_true : forall a b, Qle_bool a b = true -> Q2R a <= Q2R b. Proof. intros a b H. apply Qle_Rle. apply Qle_bool_iff. exact H. Qed.
Lemma le_false : forall a b, Qle_bool a b = false -> Q2R b < Q2R a.
Proof. intros a b H. apply Qlt_Rlt. apply Qnot_le_lt. intros Q. apply Qle_bool_iff in Q. congruence. Qed.
Lemma lt_true : forall a b, qlt a b = true -> Q2R a < Q2R b. Proof. intros a b H. apply le_false. unfold qlt in H. destruct (Qle_bool b a); [discriminate|reflexivity]. Qed.
Lemma lt_false : forall a b, qlt a b = false -> Q2R b <= Q2R a. Proof. intros a b H. apply le_true. unfold qlt in H. destruct (Qle_bool b a); [reflexivity|discriminate]. Qed.
Lemma max_R : forall a b, Q2R (Qmax a b) = Rmax (Q2R a) (Q2R b).
Proof.
  intros a b. destruct (Q.max_spec a b) as [[H E]|[H E]]; rewrite (Qeq_eqR _ _ E).
  - rewrite Rmax_right; [reflexivity|]. left. apply Qlt_Rlt. exact H.
  - rewrite Rmax_left; [reflexivity|]. apply Qle_Rle. exact H.
Qed.
Lemma min_R : forall a b, Q2R (Qmin a b) = Rmin (Q2R a) (Q2R b).
Proof.
  intros a b. destruct (Q.min_spec a b) as [[H E]|[H E]]; rewrite (Qeq_eqR _ _ E).
  - rewrite Rmin_left; [reflexivity|]. left. apply Qlt_Rlt. exact H.
  - rewrite Rmin_right; [reflexivity|]. apply Qle_Rle. exact H.
Qed.

(** ** Sorting *)
Definition lle (a b : ivl) : Prop := L a <= L b.
Lemma insert_In : forall a l x, In x (insert a l) <-> x = a \/ In x l.
Proof.
  induction l as [|b l IH]; intros x; cbn [insert]; [cbn; intuition congruence|]. destruct (ivl_less b a); cbn [In]; [rewrite IH|]; intuition congruence.
Qed.
Lemma sort_In : forall l x, In x (sort l) <-> In x l.
Proof. induction l as [|a l IH]; intros x; cbn [sort In]; [tauto|]. rewrite insert_In, IH. intuition congruence. Qed.
Lemma less_lle : forall a b, ivl_less a b = true -> lle a b.
Proof.
  intros a b H. unfold ivl_less in H. apply orb_prop in H. destruct H as [H|H]; [left; apply lt_true; exact H|].
  apply andb_prop in H. right. apply Qeq_eqR. apply Qeq_bool_iff. exact (proj1 H).
Qed.
Lemma not_less_lle : forall a b, ivl_less a b = false -> lle b a.
Proof. intros a b H. unfold ivl_less in H. apply orb_false_elim in H. apply lt_false. exact (proj1 H). Qed.
Lemma insert_sorted : forall a l, StronglySorted lle l -> StronglySorted lle (insert a l).
Proof.
  induction l as [|b l IH]; intros H; cbn [insert]; [repeat constructor|]. inversion H as [|x y S F]; subst. destruct (ivl_less b a) eqn:E.
  - constructor; [exact (IH S)|]. apply Forall_forall. intros x Hx. apply insert_In in Hx. destruct Hx as [->|Hx]; [apply less_lle; exact E|exact (proj1 (Forall_forall _ _) F x Hx)].
  - constructor; [exact H|]. apply not_less_lle in E. constructor; [exact E|]. apply Forall_forall. intros x Hx. pose proof (proj1 (Forall_forall _ _) F x Hx) as Q. unfold lle in *. lra.
Qed.
Lemma sort_sorted : forall l, StronglySorted lle (sort l).
Proof. induction l; cbn [sort]; [constructor|apply insert_sorted; assumption]. Qed.

(** ** Combining *)
Definition apart (a b : ivl) : Prop := U a < L b /\ L a <= L b.
Lemma combine_from_spec : forall l c, StronglySorted lle (c :: l) ->
  (forall x, member (combine_from c l) x <-> member (c :: l) x) /\ StronglySorted apart (combine_from c l) /\ (forall i, In i (combine_from c l) -> L c <= L i) /\
  (all_nonempty (c :: l) -> all_nonempty (combine_from c l)) /\ (all_proper (c :: l) -> all_proper (combine_from c l)) /\ combine_from c l <> [].
Proof.
  induction l as [|n l IH]; intros c H; cbn [combine_from].
  - repeat split; try tauto; [repeat constructor| |discriminate]. intros i [<-|[]]. lra.
  - inversion H as [|x y S F]; subst. inversion F as [|x y Cn F']; subst. destruct (Qle_bool (lo n) (up c)) eqn:E.
    + apply le_true in E. set (c' := mkI (lo c) (Qmax (up c) (up n))). assert (Uc : U c' = Rmax (U c) (U n)) by apply max_R.
      assert (Lc : L c' = L c) by reflexivity.
      assert (S' : StronglySorted lle (c' :: l)) by (constructor; [inversion S; assumption|exact F']).
      destruct (IH c' S') as [I1 [I2 [I3 [I4 [I5 I6]]]]]. unfold lle in *. split; [|split; [exact I2|split; [exact I3|split; [|split; [|exact I6]]]]].
      * intros x. rewrite I1. clear I1 I2 I3 I4 I5 IH. split; intros [i [Hi Hx]].
        -- destruct Hi as [<-|Hi]; [|exists i; split; [right; right; exact Hi|exact Hx]]. rewrite Uc, Lc in Hx.
           destruct (Rle_lt_dec x (U c)) as [Q|Q]; [exists c; split; [left; reflexivity|lra]|].
           exists n. split; [right; left; reflexivity|]. unfold Rmax in Hx; destruct (Rle_dec (U c) (U n)); lra.
        -- pose proof (Rmax_l (U c) (U n)). pose proof (Rmax_r (U c) (U n)).
           destruct Hi as [<-|[<-|Hi]]; [exists c'|exists c'|exists i; split; [right; exact Hi|exact Hx]]; (split; [left; reflexivity|]); rewrite Uc, Lc; lra.
      * intros Q. apply I4. intros i [<-|Hi]; [|apply Q; right; right; exact Hi]. rewrite Uc, Lc. pose proof (Rmax_l (U c) (U n)). pose proof (Q c (or_introl eq_refl)). lra.
      * intros Q. apply I5. intros i [<-|Hi]; [|apply Q; right; right; exact Hi]. rewrite Uc, Lc. pose proof (Rmax_l (U c) (U n)). pose proof (Q c (or_introl eq_refl)). lra.
    + apply le_false in E. destruct (IH n S) as [I1 [I2 [I3 [I4 [I5 I6]]]]]. unfold lle in *. split; [|split; [|split; [|split; [|split; [|discriminate]]]]].
      * intros x. split; intros [i [Hi Hx]].
        -- destruct Hi as [<-|Hi]; [exists c; split; [left; reflexivity|exact Hx]|]. destruct (proj1 (I1 x) (ex_intro _ i (conj Hi Hx))) as [k [Hk Qx]]. exists k. split; [right; exact Hk|exact Qx].
        -- destruct Hi as [<-|Hi]; [exists c; split; [left; reflexivity|exact Hx]|]. destruct (proj2 (I1 x) (ex_intro _ i (conj Hi Hx))) as [k [Hk Qx]]. exists k. split; [right; exact Hk|exact Qx].
      * constructor; [exact I2|]. apply Forall_forall. intros i Hi. pose proof (I3 i Hi). unfold apart. lra.
      * intros i [<-|Hi]; [lra|]. pose proof (I3 i Hi). lra.
      * intros Q i [<-|Hi]; [apply Q; left; reflexivity|]. apply I4; [|exact Hi]. intros k Hk. apply Q. right. exact Hk.
      * intros Q i [<-|Hi]; [apply Q; left; reflexivity|]. apply I5; [|exact Hi]. intros k Hk. apply Q. right. exact Hk.
Qed.
Lemma member_iff : forall l l', (forall i, In i l <-> In i l') -> forall x, member l x <-> member l' x.
Proof. intros l l' H x. split; intros [i [Hi Hx]]; exists i; (split; [apply H; exact Hi|exact Hx]). Qed.
Lemma union_spec : forall l, (forall x, member (union_of l) x <-> member l x) /\ StronglySorted apart (union_of l) /\
  (all_nonempty l -> all_nonempty (union_of l)) /\ (all_proper l -> all_proper (union_of l)) /\ (l <> [] -> union_of l <> []).
Proof.
  intros l. unfold union_of. pose proof (sort_sorted l) as S. pose proof (sort_In l) as I. destruct (sort l) as [|c r] eqn:E; cbn [combine].
  - assert (N : l = []) by (destruct l as [|a l]; [reflexivity|]; exfalso; apply (proj2 (I a)); left; reflexivity). subst l.
    split; [intros x; tauto|]. split; [constructor|]. split; [tauto|split; tauto].
  - destruct (combine_from_spec r c S) as [I1 [I2 [I3 [I4 [I5 I6]]]]]. split; [|split; [exact I2|split; [|split; [|intros _; exact I6]]]].
    + intros x. rewrite I1. apply member_iff. exact I.
    + intros Q. apply I4. intros i Hi. apply Q. apply I. exact Hi.
    + intros Q. apply I5. intros i Hi. apply Q. apply I. exact Hi.
Qed.
Lemma sorted_lle : forall l, StronglySorted apart l -> StronglySorted lle l.
Proof. intros l H. induction H as [|a l S IH F]; constructor; [exact IH|]. apply Forall_forall. intros x Hx. exact (proj2 (proj1 (Forall_forall _ _) F x Hx)). Qed.

(** ** Intersection test *)
Lemma intersect_loop_spec : forall k a b, (length a + length b <= k)%nat -> StronglySorted lle a -> StronglySorted lle b ->
  (intersect_loop k a b = true <-> exists i j, In i a /\ In j b /\ L i < U j /\ L j < U i).
Proof.
  induction k as [|k IH]; intros a b Hk Sa Sb.
  - destruct a; destruct b; cbn in Hk; try lia. cbn. split; [discriminate|intros [i [j [[] _]]]].
  - cbn [intersect_loop]. destruct a as [|i a]; [split; [discriminate|intros [? [? [[] _]]]]|]. destruct b as [|j b]; [split; [discriminate|intros [? [? [_ [[] _]]]]]|].
    inversion Sa as [|x y Sa' Fa]; subst. inversion Sb as [|x y Sb' Fb]; subst. cbn [length] in Hk.
    destruct (Qle_bool (up j) (lo i)) eqn:E1; [|destruct (Qle_bool (up i) (lo j)) eqn:E2].
    + apply le_true in E1. rewrite IH by (cbn [length]; (lia || assumption)). split; intros [i' [j' [Hi [Hj Q]]]]; exists i', j'.
      * split; [exact Hi|split; [right; exact Hj|exact Q]].
      * split; [exact Hi|]. destruct Hj as [<-|Hj]; [exfalso|split; [exact Hj|exact Q]].
        destruct Hi as [<-|Hi]; [lra|]. pose proof (proj1 (Forall_forall _ _) Fa i' Hi) as G. unfold lle in G. lra.
    + apply le_true in E2. rewrite IH by (cbn [length]; (lia || assumption)). split; intros [i' [j' [Hi [Hj Q]]]]; exists i', j'.
      * split; [right; exact Hi|split; [exact Hj|exact Q]].
      * destruct Hi as [<-|Hi]; [exfalso|split; [exact Hi|split; [exact Hj|exact Q]]].
        destruct Hj as [<-|Hj]; [lra|]. pose proof (proj1 (Forall_forall _ _) Fb j' Hj) as G. unfold lle in G. lra.
    + apply le_false in E1, E2. split; [intros _|reflexivity]. exists i, j. split; [left; reflexivity|split; [left; reflexivity|lra]].
Qed.

(** ** Subset test *)
Lemma subset_loop_sound : forall k a b, subset_loop k a b = true -> forall i, In i a -> exists j, In j b /\ L j <= L i /\ U i <= U j.
Proof.
  induction k as [|k IH]; intros a b H i Hi; (destruct a as [|i0 a]; [destruct Hi|]); cbn [subset_loop] in H; [discriminate|]. destruct b as [|j b]; [discriminate|].
  destruct (Qle_bool (up j) (lo i0)) eqn:E1; [destruct (IH _ _ H i Hi) as [j' [Hj Q]]; exists j'; split; [right; exact Hj|exact Q]|].
  destruct (Qle_bool (lo j) (lo i0) && Qle_bool (up i0) (up j)) eqn:E2; [|discriminate]. apply andb_prop in E2. destruct E2 as [E2 E3]. apply le_true in E2, E3.
  destruct Hi as [<-|Hi]; [exists j; split; [left; reflexivity|lra]|]. exact (IH _ _ H i Hi).
Qed.
(** the points just above the first interval are in none of the others *)
Lemma gap : forall j b u, StronglySorted apart (j :: b) -> U j < u -> exists x, U j < x < u /\ ~ member (j :: b) x.
Proof.
  intros j b u H Hu. inversion H as [|y z S F]; subst. destruct b as [|j' b].
  - exists ((U j + u) / 2). split; [lra|]. intros [i [[<-|[]] Q]]. lra.
  - inversion F as [|y z A F']; subst. destruct A as [A _]. set (m := Rmin u (L j')). assert (M1 : m <= u) by apply Rmin_l. assert (M2 : m <= L j') by apply Rmin_r.
    assert (M3 : U j < m) by (apply Rmin_glb_lt; assumption). exists ((U j + m) / 2). split; [lra|]. intros [i [Hi Q]]. destruct Hi as [<-|[<-|Hi]]; [lra|lra|].
    inversion S as [|y z S' F'']; subst. pose proof (proj2 (proj1 (Forall_forall _ _) F'' i Hi)) as G. lra.
Qed.
Lemma subset_loop_complete : forall k a b, (length a + length b <= k)%nat -> StronglySorted lle a -> all_proper a -> StronglySorted apart b ->
  (forall x, member a x -> member b x) -> subset_loop k a b = true.
Proof.
  induction k as [|k IH]; intros a b Hk Sa Pa Sb H; (destruct a as [|i a]; [destruct k || idtac; reflexivity|]); cbn [length] in Hk; [lia|]. cbn [subset_loop].
  pose proof (Pa i (or_introl eq_refl)) as Pi. inversion Sa as [|x y Sa' Fa]; subst.
  destruct b as [|j b]. { destruct (H (L i)) as [j [[] _]]. exists i. split; [left; reflexivity|lra]. }
  inversion Sb as [|x y Sb' Fb]; subst. cbn [length] in Hk.
  assert (Hi : forall x, L i <= x <= U i -> member (j :: b) x) by (intros x Hx; apply H; exists i; split; [left; reflexivity|exact Hx]).
  destruct (Qle_bool (up j) (lo i)) eqn:E1.
  - apply le_true in E1. apply IH; try assumption; [cbn [length]; lia|]. intros x Hx.
    assert (Lx : L i <= x). { destruct Hx as [i' [[<-|Hi'] Q]]; [lra|]. pose proof (proj1 (Forall_forall _ _) Fa i' Hi') as G. unfold lle in G. lra. }
    destruct (H x Hx) as [j' [[<-|Hj'] Q]]; [exfalso|exists j'; split; assumption].
    destruct (gap j b (U i) Sb ltac:(lra)) as [y [Hy Ny]]. apply Ny. apply Hi. lra.
  - apply le_false in E1. assert (A1 : L j <= L i).
    { destruct (Hi (L i) ltac:(lra)) as [j' [[<-|Hj'] Q]]; [lra|]. pose proof (proj2 (proj1 (Forall_forall _ _) Fb j' Hj')). lra. }
    assert (A2 : U i <= U j). { destruct (Rle_lt_dec (U i) (U j)) as [Q|Q]; [exact Q|exfalso]. destruct (gap j b (U i) Sb Q) as [y [Hy Ny]]. apply Ny. apply Hi. lra. }
    assert (B1 : Qle_bool (lo j) (lo i) = true) by (destruct (Qle_bool (lo j) (lo i)) eqn:E; [reflexivity|apply le_false in E; lra]).
    assert (B2 : Qle_bool (up i) (up j) = true) by (destruct (Qle_bool (up i) (up j)) eqn:E; [reflexivity|apply le_false in E; lra]).
    rewrite B1, B2. cbn [andb]. apply IH; try assumption; [cbn [length]; lia|intros i' Hi'; apply Pa; right; exact Hi'|].
    intros x [i' [Hi' Q]]. apply H. exists i'. split; [right; exact Hi'|exact Q].
Qed.

(** ** Intersection *)
Lemma inter_loop_sound : forall k a b x, member (inter_loop k a b) x -> member a x /\ member b x.
Proof.
  induction k as [|k IH]; intros a b x H; [destruct a; destruct b; destruct H as [? [[] _]]|]. cbn [inter_loop] in H.
  destruct a as [|i a]; [destruct H as [? [[] _]]|]. destruct b as [|j b]; [destruct H as [? [[] _]]|].
  assert (W1 : forall l (c : ivl) y, member l y -> member (c :: l) y) by (intros l c y [z [Hz Q]]; exists z; split; [right; exact Hz|exact Q]).
  destruct (Qle_bool (up j) (lo i)); [destruct (IH _ _ _ H); split; [apply W1|]; assumption|].
  destruct (Qle_bool (up i) (lo j)); [destruct (IH _ _ _ H); split; [|apply W1]; assumption|].
  destruct H as [c [[<-|Hc] Q]].
  - cbn [lo up] in Q. rewrite max_R, min_R in Q. pose proof (Rmax_l (L i) (L j)). pose proof (Rmax_r (L i) (L j)). pose proof (Rmin_l (U i) (U j)). pose proof (Rmin_r (U i) (U j)).
    split; [exists i|exists j]; (split; [left; reflexivity|lra]).
  - destruct (qlt (up i) (up j)); destruct (IH _ _ x (ex_intro _ c (conj Hc Q))); (split; first [assumption|apply W1; assumption]).
Qed.

(** ** Length *)
Lemma member_dec : forall l x, member l x \/ ~ member l x.
Proof.
  induction l as [|i l IH]; intros x; [right; intros [? [[] _]]|]. destruct (Rle_lt_dec (L i) x); [destruct (Rle_lt_dec x (U i))|].
  1: left; exists i; split; [left; reflexivity|lra].
  all: destruct (IH x) as [[k [Hk Q]]|N]; [left; exists k; split; [right; exact Hk|exact Q]|right; intros [k [[<-|Hk] Q]]; [lra|apply N; exists k; split; assumption]].
Qed.
Fixpoint memb (l : list ivl) (x : R) : R := match l with [] => 0 | i :: l' => if Rle_lt_dec (L i) x then if Rle_lt_dec x (U i) then 1 else memb l' x else memb l' x end.
Lemma memb_spec : forall l x, (member l x -> memb l x = 1) /\ (~ member l x -> memb l x = 0).
Proof.
  induction l as [|i l IH]; intros x; cbn [memb]; [split; [intros [? [[] _]]|reflexivity]|].
  destruct (Rle_lt_dec (L i) x); [destruct (Rle_lt_dec x (U i))|].
  1: split; [reflexivity|intros N; exfalso; apply N; exists i; split; [left; reflexivity|lra]].
  all: destruct (IH x) as [I1 I2]; split; intros H; [apply I1; destruct H as [k [[<-|Hk] Q]]; [lra|exists k; split; assumption]|apply I2; intros [k [Hk Q]]; apply H; exists k; split; [right; exact Hk|exact Q]].
Qed.
Lemma const_RInt : forall (f : R -> R) a b c, a <= b -> (forall x, a < x < b -> f x = c) -> is_RInt (V := R_NormedModule) f a b ((b - a) * c).
Proof.
  intros f a b c H E. apply (is_RInt_ext (fun _ => c)).
  - intros x. rewrite Rmin_left, Rmax_right by exact H. intros Q. symmetry. apply E. exact Q.
  - exact (is_RInt_const a b c).
Qed.
Lemma widths_length : forall l a b, StronglySorted apart l -> all_nonempty l -> a <= b -> (forall i, In i l -> a <= L i /\ U i <= b) -> is_RInt (V := R_NormedModule) (memb l) a b (Q2R (widths l)).
Proof.
  induction l as [|i l IH]; intros a b S N Hab H.
  - replace (Q2R (widths [])) with ((b - a) * 0) by (cbn; unfold Q2R; cbn; lra). apply const_RInt; [exact Hab|]. reflexivity.
  - inversion S as [|y z S' F]; subst. destruct (H i (or_introl eq_refl)) as [A B]. pose proof (N i (or_introl eq_refl)) as Ni.
    assert (Fr : forall k, In k l -> U i < L k) by (intros k Hk; exact (proj1 (proj1 (Forall_forall _ _) F k Hk))).
    assert (I1 : is_RInt (V := R_NormedModule) (memb (i :: l)) a (L i) ((L i - a) * 0)).
    { apply const_RInt; [exact A|]. intros x Hx. apply memb_spec. intros [k [[<-|Hk] Q]]; [lra|]. pose proof (Fr k Hk). lra. }
    assert (I2 : is_RInt (V := R_NormedModule) (memb (i :: l)) (L i) (U i) ((U i - L i) * 1)).
    { apply const_RInt; [exact Ni|]. intros x Hx. apply memb_spec. exists i. split; [left; reflexivity|lra]. }
    assert (I3 : is_RInt (V := R_NormedModule) (memb (i :: l)) (U i) b (Q2R (widths l))).
    { apply (is_RInt_ext (memb l)).
      - intros x. rewrite Rmin_left, Rmax_right by exact B. intros Q. cbn [memb]. destruct (Rle_lt_dec (L i) x); [destruct (Rle_lt_dec x (U i)); [lra|reflexivity]|reflexivity].
      - apply IH; [exact S'|intros k Hk; apply N; right; exact Hk|exact B|]. intros k Hk. split; [left; apply Fr; exact Hk|apply H; right; exact Hk]. }
    pose proof (is_RInt_Chasles _ _ _ _ _ _ I1 (is_RInt_Chasles _ _ _ _ _ _ I2 I3)) as I4.
    cbn [widths]. rewrite Q2R_plus, Q2R_minus. replace (U i - L i + Q2R (widths l)) with (plus ((L i - a) * 0) (plus ((U i - L i) * 1) (Q2R (widths l)))) by (unfold plus; cbn; ring). exact I4.
Qed.

(** ** Bounding box *)
Lemma last_bound : forall l i, StronglySorted apart (i :: l) -> all_nonempty (i :: l) -> forall k, In k (i :: l) -> L i <= L k /\ U k <= U (last (i :: l) i).
Proof.
  intros l i S N. assert (G : forall l d, StronglySorted apart l -> all_nonempty l -> forall k, In k l -> U k <= U (last l d)).
  { clear. induction l as [|c l IH]; intros d S N k Hk; [destruct Hk|]. inversion S as [|y z S' F]; subst. assert (N' : all_nonempty l) by (intros q Hq; apply N; right; exact Hq).
    destruct l as [|c' l]; [destruct Hk as [<-|[]]; cbn; lra|]. change (last (c :: c' :: l) d) with (last (c' :: l) d).
    destruct Hk as [<-|Hk]; [|apply IH; assumption]. apply Rle_trans with (L c').
    - inversion F as [|y z A F']; subst. unfold apart in A. lra.
    - apply Rle_trans with (U c'); [apply N'; left; reflexivity|apply IH; [assumption|assumption|left; reflexivity]]. }
  intros k Hk. split; [|apply G; assumption]. inversion S as [|y z S' F]; subst. destruct Hk as [<-|Hk]; [lra|]. exact (proj2 (proj1 (Forall_forall _ _) F k Hk)).
Qed.
