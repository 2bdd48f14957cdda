(** Properties C160-C165: unions of intervals. *)
From Coq Require Import QArith Qreals Reals List Bool Lra Lia Sorted.
From Coquelicot Require Import Hierarchy RInt.
From Verif Require Import Union_Model Union_Spec Union_Proofs.
Import ListNotations.
Local Open Scope R_scope.

Definition iv (a b : Q) : ivl := mkI a b.
Ltac q2r := unfold Q2R; cbn [Qnum Qden lo up iv]; try lra.

(** ** C160: construction and join *)
Theorem C160_union : forall l x, member (union_of l) x <-> member l x.
Proof. intros l. apply union_spec. Qed.
Theorem C160_join : forall a b x, member (join a b) x <-> member a x \/ member b x.
Proof.
  intros a b x. unfold join. rewrite (proj1 (union_spec (a ++ b)) x). split.
  - intros [i [Hi Q]]. apply in_app_or in Hi. destruct Hi as [Hi|Hi]; [left|right]; exists i; split; assumption.
  - intros [[i [Hi Q]]|[i [Hi Q]]]; exists i; (split; [apply in_or_app|exact Q]); [left|right]; exact Hi.
Qed.
(** the stored intervals are in increasing order and do not touch *)
Theorem C160_ordered : forall l n k d, (n < k < length (union_of l))%nat -> Q2R (up (nth n (union_of l) d)) < Q2R (lo (nth k (union_of l) d)).
Proof.
  intros l n k d H. destruct (union_spec l) as [_ [S _]]. revert n k H. induction S as [|a r S IH F]; intros n k H; cbn [length] in H; [lia|].
  destruct k as [|k]; [lia|]. destruct n as [|n]; cbn [nth]; [|apply IH; lia].
  assert (Hk : (k < length r)%nat) by lia. exact (proj1 (proj1 (Forall_forall _ _) F _ (nth_In r d Hk))).
Qed.
Example C160_nonvacuous : union_of [iv 1 2; iv (3#2) (5#2); iv 0 (1#2)] = [iv 0 (1#2); iv 1 (5#2)].
Proof. reflexivity. Qed.

(** ** C161: the intersection test *)
Theorem C161_intersect_partial : forall l l', all_proper l -> all_proper l' ->
  (intersect (union_of l) (union_of l') = true <-> exists x, inner_member (union_of l) x /\ inner_member (union_of l') x).
Proof.
  intros l l' P P'. destruct (union_spec l) as [_ [S [_ [Q _]]]]. destruct (union_spec l') as [_ [S' [_ [Q' _]]]]. specialize (Q P). specialize (Q' P').
  unfold intersect. rewrite (intersect_loop_spec _ _ _ (Nat.le_refl _) (sorted_lle _ S) (sorted_lle _ S')). split.
  - intros [i [j [Hi [Hj [H1 H2]]]]]. pose proof (Q i Hi) as Pi. pose proof (Q' j Hj) as Pj. set (a := Rmax (Q2R (lo i)) (Q2R (lo j))). set (b := Rmin (Q2R (up i)) (Q2R (up j))).
    pose proof (Rmax_l (Q2R (lo i)) (Q2R (lo j))). pose proof (Rmax_r (Q2R (lo i)) (Q2R (lo j))). pose proof (Rmin_l (Q2R (up i)) (Q2R (up j))). pose proof (Rmin_r (Q2R (up i)) (Q2R (up j))).
    assert (a < b) by (unfold a, b; apply Rmax_lub_lt; apply Rmin_glb_lt; assumption).
    exists ((a + b) / 2). split; [exists i|exists j]; (split; [assumption|unfold a, b in *; lra]).
  - intros [x [[i [Hi H1]] [j [Hj H2]]]]. exists i, j. split; [exact Hi|split; [exact Hj|lra]].
Qed.
(** for all non-empty intervals, sets which are found to intersect have a common point *)
Theorem C161_intersect_sound_partial : forall l l', all_nonempty l -> all_nonempty l' -> intersect (union_of l) (union_of l') = true -> exists x, member l x /\ member l' x.
Proof.
  intros l l' P P'. destruct (union_spec l) as [M [S [Q _]]]. destruct (union_spec l') as [M' [S' [Q' _]]]. specialize (Q P). specialize (Q' P').
  unfold intersect. rewrite (intersect_loop_spec _ _ _ (Nat.le_refl _) (sorted_lle _ S) (sorted_lle _ S')). intros [i [j [Hi [Hj [H1 H2]]]]]. pose proof (Q i Hi) as Pi. pose proof (Q' j Hj) as Pj.
  exists (Rmax (Q2R (lo i)) (Q2R (lo j))). split; [apply M; exists i|apply M'; exists j]; (split; [assumption|]); (split; [apply Rmax_l || apply Rmax_r|apply Rmax_lub; lra]).
Qed.
(** [0,1] and [1,2] have the point 1 in common *)
Theorem C161_intersect_refuted : exists l bs x, all_proper l /\ all_proper [bs] /\ member (union_of l) x /\ member [bs] x /\ intersect (union_of l) (create bs) = false /\ separated (union_of l) bs = true.
Proof.
  exists [iv 0 1], (iv 1 2), 1. split; [intros i [<-|[]]; q2r|]. split; [intros i [<-|[]]; q2r|]. split; [exists (iv 0 1); split; [left; reflexivity|q2r]|].
  split; [exists (iv 1 2); split; [left; reflexivity|q2r]|]. split; reflexivity.
Qed.
(** a union made by conversion is not sorted: {[2,3],[0,1]} and [0,1] *)
Theorem C161_convert_refuted : exists l bs x, all_proper l /\ inner_member l x /\ inner_member [bs] x /\ overlaps (convert l) bs = false /\ overlaps (union_of l) bs = true.
Proof.
  exists [iv 2 3; iv 0 1], (iv 0 1), (/ 2). split; [intros i [<-|[<-|[]]]; q2r|]. split; [exists (iv 0 1); split; [right; left; reflexivity|q2r]|].
  split; [exists (iv 0 1); split; [left; reflexivity|q2r]|]. split; reflexivity.
Qed.
Example C161_nonvacuous : all_proper [iv 0 1; iv 4 5] /\ intersect (union_of [iv 0 1; iv 4 5]) (union_of [iv 2 3; iv (9#2) 6]) = true /\ intersect (union_of [iv 0 1; iv 4 5]) (union_of [iv 2 3; iv 6 7]) = false.
Proof. split; [intros i [<-|[<-|[]]]; q2r|split; reflexivity]. Qed.

(** ** C162: the subset test *)
Theorem C162_subset_partial : forall l l', all_proper l -> (subset (union_of l) (union_of l') = true <-> forall x, member l x -> member l' x).
Proof.
  intros l l' P. destruct (union_spec l) as [M [S [_ [Q _]]]]. destruct (union_spec l') as [M' [S' _]]. specialize (Q P). split.
  - intros H x Hx. apply M'. apply M in Hx. destruct Hx as [i [Hi Hx]]. destruct (subset_loop_sound _ _ _ H i Hi) as [j [Hj J]]. exists j. split; [exact Hj|lra].
  - intros H. apply subset_loop_complete; [apply Nat.le_refl|apply sorted_lle; exact S|exact Q|exact S'|]. intros x Hx. apply M'. apply H. apply M. exact Hx.
Qed.
(** a positive answer is right for all lists *)
Theorem C162_subset_sound : forall a b, subset a b = true -> forall x, member a x -> member b x.
Proof. intros a b H x [i [Hi Hx]]. destruct (subset_loop_sound _ _ _ H i Hi) as [j [Hj J]]. exists j. split; [exact Hj|lra]. Qed.
Theorem C162_covers : forall l bs, Q2R (lo bs) < Q2R (up bs) -> (covers (union_of l) bs = true <-> forall x, Q2R (lo bs) <= x <= Q2R (up bs) -> member l x).
Proof.
  intros l bs H. unfold covers, create. rewrite C162_subset_partial by (intros i [<-|[]]; exact H). split; intros Q x Hx.
  - apply Q. exists bs. split; [left; reflexivity|exact Hx].
  - destruct Hx as [i [[<-|[]] Hx]]. apply Q. exact Hx.
Qed.
Theorem C162_inside : forall l bs, all_proper l -> (inside (union_of l) bs = true <-> forall x, member l x -> Q2R (lo bs) <= x <= Q2R (up bs)).
Proof.
  intros l bs H. unfold inside, create. rewrite C162_subset_partial by exact H. split; intros Q x Hx.
  - destruct (Q x Hx) as [i [[<-|[]] G]]. exact G.
  - exists bs. split; [left; reflexivity|]. apply Q. exact Hx.
Qed.
(** [2,2] is a subset of [0,2] *)
Theorem C162_subset_refuted : exists l l', all_nonempty l /\ all_nonempty l' /\ (forall x, member l x -> member l' x) /\ subset (union_of l) (union_of l') = false.
Proof.
  exists [iv 2 2], [iv 0 2]. split; [intros i [<-|[]]; q2r|]. split; [intros i [<-|[]]; q2r|]. split; [|reflexivity].
  intros x [i [[<-|[]] Q]]. exists (iv 0 2). split; [left; reflexivity|]. revert Q. q2r.
Qed.
Example C162_nonvacuous : all_proper [iv 1 2; iv 3 4] /\ subset (union_of [iv 1 2; iv 3 4]) (union_of [iv 3 5; iv 0 2]) = true /\ subset (union_of [iv 1 3]) (union_of [iv 0 2; iv (5#2) 4]) = false.
Proof. split; [intros i [<-|[<-|[]]]; q2r|split; reflexivity]. Qed.

(** ** C163: the intersection *)
Theorem C163_intersection_partial : forall a b x, member (intersection a b) x -> member a x /\ member b x.
Proof. intros a b x H. unfold intersection in H. apply (proj1 (C160_union _ _)) in H. exact (inter_loop_sound _ _ _ _ H). Qed.
(** the intersection of [4,5] with the union of [0,1] and [4,5] is found to be empty *)
Theorem C163_intersection_refuted : exists l l', all_proper l /\ all_proper l' /\ intersection (union_of l) (union_of l') = [] /\ exists x, inner_member (union_of l) x /\ inner_member (union_of l') x.
Proof.
  exists [iv 4 5], [iv 0 1; iv 4 5]. split; [intros i [<-|[]]; q2r|]. split; [intros i [<-|[<-|[]]]; q2r|]. split; [reflexivity|]. exists (9 / 2).
  split; exists (iv 4 5); (split; [cbn; tauto|q2r]).
Qed.
Example C163_nonvacuous : intersection (union_of [iv 0 2; iv 4 5]) (union_of [iv 1 3]) = [iv 1 2].
Proof. reflexivity. Qed.

(** ** C164: the measure *)
Theorem C164_measure_partial : forall l m a b, all_nonempty l -> measure (union_of l) = Some m -> (forall x, member l x -> a <= x <= b) -> length_between (member l) a b (Q2R m).
Proof.
  intros l m a b N H B. destruct (union_spec l) as [M [S [Q _]]]. specialize (Q N). set (u := union_of l) in *. exists (memb u). split.
  - intros x. destruct (memb_spec u x) as [M1 M2]. split; intros G; [apply M1|apply M2; intros G'; apply G]; apply M; assumption.
  - assert (Hm : m = widths u) by (destruct u; [discriminate|injection H as <-; reflexivity]). rewrite Hm.
    assert (K : forall i, In i u -> a <= Q2R (lo i) /\ Q2R (up i) <= b).
    { intros i Hi. pose proof (Q i Hi) as Ni. split; [apply (B (Q2R (lo i)))|apply (B (Q2R (up i)))]; apply M; exists i; (split; [exact Hi|lra]). }
    apply widths_length; [exact S|exact Q| |exact K]. destruct u as [|i u]; [discriminate|]. destruct (K i (or_introl eq_refl)). pose proof (Q i (or_introl eq_refl)). lra.
Qed.
(** the union of [0,2] and [1,3] made by conversion has measure 4, but its length is 3 *)
Theorem C164_measure_refuted : exists l m, all_proper l /\ measure (convert l) = Some m /\ Q2R m = 4 /\ length_between (member l) 0 3 3.
Proof.
  exists [iv 0 2; iv 1 3], (widths [iv 0 2; iv 1 3]). assert (P : all_proper [iv 0 2; iv 1 3]) by (intros i [<-|[<-|[]]]; q2r).
  split; [exact P|]. split; [reflexivity|]. split; [cbn [widths]; vm_compute (_ + _)%Q; q2r|].
  replace 3 with (Q2R (widths [iv 0 3])) at 2 by (cbn [widths]; vm_compute (_ + _)%Q; q2r).
  apply C164_measure_partial; [intros i Hi; left; apply P; exact Hi|reflexivity|]. intros x [i [[<-|[<-|[]]] Q]]; revert Q; q2r.
Qed.
(** the measure of the empty union is not defined: its first element is accessed *)
Theorem C164_empty_refuted : measure (union_of []) = None.
Proof. reflexivity. Qed.
Example C164_nonvacuous : all_nonempty [iv 1 2; iv (3#2) (5#2); iv 0 (1#2)] /\ measure (union_of [iv 1 2; iv (3#2) (5#2); iv 0 (1#2)]) = Some (widths [iv 0 (1#2); iv 1 (5#2)]).
Proof. split; [intros i [<-|[<-|[<-|[]]]]; q2r|reflexivity]. Qed.

(** ** C165: the bounding box *)
Theorem C165_bounding_box_partial : forall l bb, all_nonempty l -> bounding_box (union_of l) = Some bb ->
  (forall x, member l x -> Q2R (lo bb) <= x <= Q2R (up bb)) /\ member l (Q2R (lo bb)) /\ member l (Q2R (up bb)).
Proof.
  intros l bb N H. destruct (union_spec l) as [M [S [Q _]]]. specialize (Q N). destruct (union_of l) as [|i u]; [discriminate|]. injection H as <-. cbn [lo up].
  pose proof (last_bound u i S Q) as K. split; [|split].
  - intros x Hx. apply M in Hx. destruct Hx as [k [Hk G]]. destruct (K k Hk). change (match u with [] => i | _ :: _ => last u i end) with (last (i :: u) i). lra.
  - apply M. exists i. split; [left; reflexivity|]. pose proof (Q i (or_introl eq_refl)). lra.
  - apply M. exists (last (i :: u) i). assert (E : In (last (i :: u) i) (i :: u)).
    { assert (G : forall (r : list ivl) d, r <> [] -> In (last r d) r). { clear. induction r as [|c r IH]; intros d H; [tauto|]. destruct r as [|c' r]; [left; reflexivity|]. right. apply IH. discriminate. }
      apply G. discriminate. }
    split; [exact E|]. pose proof (Q _ E). split; [exact H|]. apply Rle_refl.
Qed.
(** with the empty interval from 5 to 2 in the list, the bounding box of [0,3] is [0,2] *)
Theorem C165_bounding_box_refuted : exists l bb x, bounding_box (union_of l) = Some bb /\ member l x /\ ~ (Q2R (lo bb) <= x <= Q2R (up bb)).
Proof.
  exists [iv 0 3; iv 5 2], (iv 0 2), 3. split; [reflexivity|]. split; [exists (iv 0 3); split; [left; reflexivity|q2r]|]. q2r.
Qed.
Example C165_nonvacuous : bounding_box (union_of [iv 1 2; iv (3#2) (5#2); iv 0 (1#2)]) = Some (iv 0 (5#2)).
Proof. reflexivity. Qed.
Print Assumptions C160_union. Print Assumptions C160_join. Print Assumptions C160_ordered.
Print Assumptions C161_intersect_partial. Print Assumptions C161_intersect_sound_partial. Print Assumptions C161_intersect_refuted. Print Assumptions C161_convert_refuted.
Print Assumptions C162_subset_partial. Print Assumptions C162_subset_sound. Print Assumptions C162_covers. Print Assumptions C162_inside. Print Assumptions C162_subset_refuted.
Print Assumptions C163_intersection_partial. Print Assumptions C163_intersection_refuted.
Print Assumptions C164_measure_partial. Print Assumptions C164_measure_refuted. Print Assumptions C164_empty_refuted.
Print Assumptions C165_bounding_box_partial. Print Assumptions C165_bounding_box_refuted.
