From Coq Require Import List Bool Arith Sorted Lia.
From Verif Require Import HybridPaving_Model HybridPaving_Spec.
Import ListNotations.

Lemma find_In : forall T q (m : list (nat * T)) t, find q m = Some t -> In (q, t) m.
Proof.
  induction m as [|[k s] m IH]; intros t H; cbn [find] in H; [discriminate|]. destruct (Nat.eqb_spec q k) as [->|N]; [injection H as ->; left; reflexivity|right; apply IH; exact H].
Qed.
Lemma In_find : forall T q (m : list (nat * T)) t, ordered m -> In (q, t) m -> find q m = Some t.
Proof.
  induction m as [|[k s] m IH]; intros t O H; [destruct H|]. unfold ordered in O. cbn [map fst] in O. inversion O as [|y z S F]; subst. cbn [find].
  destruct H as [H|H]; [injection H as -> ->; rewrite Nat.eqb_refl; reflexivity|].
  destruct (Nat.eqb_spec q k) as [->|N]; [|apply IH; assumption]. pose proof (proj1 (Forall_forall _ _) F k (in_map fst _ _ H)). lia.
Qed.
Lemma find_None : forall T q (m : list (nat * T)), find q m = None -> forall t, ~ In (q, t) m.
Proof.
  induction m as [|[k s] m IH]; intros H t Q; [destruct Q|]. cbn [find] in H. destruct (Nat.eqb_spec q k) as [->|N]; [discriminate|].
  destruct Q as [Q|Q]; [injection Q as -> ->; apply N; reflexivity|exact (IH H t Q)].
Qed.

Section MAP.
  Variable G : paving_ops.
  Notation hp := (hpaving G).
  Lemma put_keys : forall q t (m : hp) k, In k (map fst (put G q t m)) <-> k = q \/ In k (map fst m).
  Proof. induction m as [|[c s] m IH]; intros k; cbn [put map fst In]; [intuition congruence|]. destruct (Nat.ltb q c); cbn [map fst In]; [|rewrite IH]; intuition congruence. Qed.
  Lemma put_ordered : forall q t (m : hp), ordered m -> find q m = None -> ordered (put G q t m).
  Proof.
    unfold ordered. induction m as [|[c s] m IH]; intros O N; cbn [put]; [repeat constructor|]. cbn [find] in N. destruct (Nat.eqb_spec q c) as [->|D]; [discriminate|].
    cbn [map fst] in O. inversion O as [|y z S F]; subst. destruct (Nat.ltb_spec q c) as [Q|Q]; cbn [map fst].
    - constructor; [exact O|]. constructor; [exact Q|]. apply Forall_forall. intros k Hk. pose proof (proj1 (Forall_forall _ _) F k Hk). lia.
    - constructor; [apply IH; assumption|]. apply Forall_forall. intros k Hk. apply put_keys in Hk. destruct Hk as [->|Hk]; [lia|]. exact (proj1 (Forall_forall _ _) F k Hk).
  Qed.
  Lemma find_put : forall q t (m : hp) k, find q m = None -> find k (put G q t m) = if Nat.eqb k q then Some t else find k m.
  Proof.
    induction m as [|[c s] m IH]; intros k N; cbn [put find] in *; [reflexivity|]. destruct (Nat.eqb_spec q c) as [->|D]; [discriminate|].
    destruct (Nat.ltb q c); cbn [find]; [reflexivity|]. rewrite IH by exact N. destruct (Nat.eqb_spec k c) as [->|E]; [|reflexivity].
    destruct (Nat.eqb_spec c q) as [E|E]; [congruence|reflexivity].
  Qed.
  Lemma modify_keys : forall q f (m : hp), map fst (modify G q f m) = map fst m.
  Proof. induction m as [|[c s] m IH]; cbn [modify]; [reflexivity|]. destruct (Nat.eqb q c); cbn [map fst]; [reflexivity|]. rewrite IH. reflexivity. Qed.
  Lemma find_modify : forall q f (m : hp) k, find k (modify G q f m) = if Nat.eqb k q then option_map f (find k m) else find k m.
  Proof.
    induction m as [|[c s] m IH]; intros k; cbn [modify find]; [destruct (Nat.eqb k q); reflexivity|]. destruct (Nat.eqb_spec q c) as [->|D]; cbn [find].
    - destruct (Nat.eqb_spec k c) as [->|E]; reflexivity.
    - rewrite IH. destruct (Nat.eqb_spec k c) as [->|E]; [|reflexivity]. destruct (Nat.eqb_spec c q) as [E|E]; [congruence|reflexivity].
  Qed.
  Definition get (m : hp) (q : nat) : paving G := match find q m with Some t => t | None => g_new G q end.
  Lemma at_location_ordered : forall q f (m : hp), ordered m -> ordered (at_location G q f m).
  Proof.
    intros q f m O. unfold at_location, ordered. rewrite modify_keys. unfold provide. destruct (find q m) eqn:E; [exact O|]. apply put_ordered; assumption.
  Qed.
  Lemma find_at_location : forall q f (m : hp) k, find k (at_location G q f m) = if Nat.eqb k q then Some (f (get m q)) else find k m.
  Proof.
    intros q f m k. unfold at_location. rewrite find_modify. unfold provide, get. destruct (find q m) eqn:E.
    - destruct (Nat.eqb_spec k q) as [->|N]; [rewrite E|]; reflexivity.
    - rewrite find_put by exact E. destruct (Nat.eqb_spec k q) as [->|N]; reflexivity.
  Qed.
  Lemma merge_ordered : forall op (other m : hp), ordered m -> ordered (merge G op m other).
  Proof. intros op. unfold merge. induction other as [|e l IH]; intros m O; cbn [fold_left]; [exact O|]. apply IH. apply at_location_ordered. exact O. Qed.
  Lemma find_merge : forall op (other m : hp) k, ordered other -> find k (merge G op m other) = match find k other with Some s => Some (op (get m k) s) | None => find k m end.
  Proof.
    intros op. unfold merge. induction other as [|[c s] l IH]; intros m k O; cbn [fold_left find]; [reflexivity|].
    unfold ordered in O. cbn [map fst] in O. inversion O as [|y z S F]; subst. rewrite IH by exact S. cbn [fst snd]. unfold get at 1. rewrite find_at_location.
    destruct (Nat.eqb_spec k c) as [->|N]; [|reflexivity]. replace (find c l) with (@None (paving G)); [reflexivity|].
    destruct (find c l) eqn:E; [|reflexivity]. apply find_In in E. pose proof (proj1 (Forall_forall _ _) F c (in_map fst _ _ E)). lia.
  Qed.
  Lemma clear_keys : forall m : hp, map fst (clear G m) = map fst m.
  Proof. intros m. unfold clear. rewrite map_map. reflexivity. Qed.
End MAP.

Section SETS.
  Variable G : paving_ops.
  Variables (point : Type) (inp : paving G -> point -> Prop) (inb : box G -> point -> Prop).
  Hypothesis RP : right_pavings G point inp inb.
  Notation hp := (hpaving G). Notation mem := (member G point inp).
  Lemma member_find : forall (m : hp) q x, ordered m -> (mem m q x <-> exists t, find q m = Some t /\ inp t x).
  Proof.
    intros m q x O. split; intros [t [H X]]; exists t; (split; [|exact X]); [apply In_find; assumption|apply find_In; exact H].
  Qed.
  Lemma member_get : forall (m : hp) q x, ordered m -> (mem m q x <-> inp (get G m q) x).
  Proof using RP.
    intros m q x O. rewrite member_find by exact O. unfold get. destruct (find q m) as [t|].
    - split; [intros [s [E X]]; injection E as ->; exact X|intros X; exists t; split; [reflexivity|exact X]].
    - split; [intros [s [E _]]; discriminate|intros X; exfalso; exact (r_new _ _ _ _ RP q x X)].
  Qed.
  Lemma get_merge : forall op (m other : hp) q, ordered other -> get G (merge G op m other) q = match find q other with Some s => op (get G m q) s | None => get G m q end.
  Proof. intros op m other q O. unfold get at 1. rewrite find_merge by exact O. destruct (find q other); reflexivity. Qed.
End SETS.
