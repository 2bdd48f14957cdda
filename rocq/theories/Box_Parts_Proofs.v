(** Proofs about vertices, splitting, products and projections of boxes. *)
From Coq Require Import Reals List Lra Lia Bool Arith.
From Coquelicot Require Import Rbar.
From Verif Require Import Logical_Model Box_Model Box_Spec Box_Proofs.
Import ListNotations.
Local Open Scope R_scope.

(** ** Vertices *)
Section Vertices.
  Context {E : Type}.
  Implicit Types (b : box E) (pt : list E).

  Lemma up_cons : forall pt i j (b : box E), vertices_up pt (i :: j :: b) =
    vertices_up (pt ++ [e_raw (i_l i)]) (j :: b) ++ vertices_down (pt ++ [e_raw (i_u i)]) (j :: b).
  Proof using. reflexivity. Qed.
  Lemma down_cons : forall pt i j (b : box E), vertices_down pt (i :: j :: b) =
    vertices_up (pt ++ [e_raw (i_u i)]) (j :: b) ++ vertices_down (pt ++ [e_raw (i_l i)]) (j :: b).
  Proof using. reflexivity. Qed.

  Lemma vertices_in : forall b, b <> [] -> forall pt x,
    (In x (vertices_up pt b) <-> exists y, x = pt ++ y /\ is_corner b y) /\
    (In x (vertices_down pt b) <-> exists y, x = pt ++ y /\ is_corner b y).
  Proof using.
    induction b as [|i b IH]; [congruence|]. intros _ pt x. destruct b as [|j b].
    - cbn [vertices_up vertices_down In]. unfold is_corner.
      split; (split; [intros [<-|[<-|[]]]; eexists; (split; [reflexivity|constructor; [auto|constructor]])|
        intros [y [-> H]]; inversion H as [|? e ? q He Hq]; subst; inversion Hq; subst; destruct He as [-> | ->]; auto]).
    - rewrite up_cons, down_cons, !in_app_iff.
      assert (NE : j :: b <> []) by discriminate.
      pose proof (fun p => IH NE p x) as IH'.
      assert (C : forall (a a' : E) (P Q : Prop),
        (P <-> exists y, x = (pt ++ [a]) ++ y /\ is_corner (j :: b) y) ->
        (Q <-> exists y, x = (pt ++ [a']) ++ y /\ is_corner (j :: b) y) ->
        (a = e_raw (i_l i) /\ a' = e_raw (i_u i) \/ a = e_raw (i_u i) /\ a' = e_raw (i_l i)) ->
        (P \/ Q <-> exists y, x = pt ++ y /\ is_corner (i :: j :: b) y)).
      { intros a a' P Q -> -> AA. split.
        - intros [[y [-> H]]|[y [-> H]]]; rewrite <- app_assoc; cbn [app]; eexists; (split; [reflexivity|]); constructor; auto;
            destruct AA as [[-> ->]|[-> ->]]; auto.
        - intros [y [-> H]]. inversion H as [|? e ? q He Hq]; subst.
          destruct AA as [[-> ->]|[-> ->]], He as [-> | ->]; [left|right|right|left]; exists q; rewrite <- app_assoc; auto. }
      split; (eapply C; [apply IH'|apply IH'|auto]).
  Qed.

  Lemma vertices_length : forall b, b <> [] -> forall pt,
    length (vertices_up pt b) = (2 ^ length b)%nat /\ length (vertices_down pt b) = (2 ^ length b)%nat.
  Proof using.
    induction b as [|i b IH]; [congruence|]. intros _ pt. destruct b as [|j b]; [split; reflexivity|].
    rewrite up_cons, down_cons, !app_length.
    assert (NE : j :: b <> []) by discriminate.
    rewrite !(fun p => proj1 (IH NE p)), !(fun p => proj2 (IH NE p)). cbn [length Nat.pow]. lia.
  Qed.

  (** First and last vertices: [low] is the lower corner of the remaining coordinates. *)
  Definition low b : list E := map (fun i => e_raw (i_l i)) b.
  Lemma up_first : forall b, b <> [] -> forall pt, exists t, vertices_up pt b = (pt ++ low b) :: t.
  Proof using.
    induction b as [|i b IH]; [congruence|]. intros _ pt. destruct b as [|j b]; [eexists; reflexivity|].
    rewrite up_cons. destruct (IH ltac:(discriminate) (pt ++ [e_raw (i_l i)])) as [t Ht]. rewrite Ht. eexists. cbn [app low map].
    rewrite <- app_assoc. reflexivity.
  Qed.
  Lemma down_first : forall i b pt, exists t, vertices_down pt (i :: b) = (pt ++ e_raw (i_u i) :: low b) :: t.
  Proof using.
    intros i [|j b] pt; [eexists; reflexivity|]. rewrite down_cons.
    destruct (up_first (j :: b) ltac:(discriminate) (pt ++ [e_raw (i_u i)])) as [t ->]. eexists. cbn [app].
    rewrite <- app_assoc. reflexivity.
  Qed.
  Lemma down_last : forall b, b <> [] -> forall pt, exists t, vertices_down pt b = t ++ [pt ++ low b].
  Proof using.
    induction b as [|i b IH]; [congruence|]. intros _ pt. destruct b as [|j b].
    - exists [pt ++ [e_raw (i_u i)]]. reflexivity.
    - rewrite down_cons. destruct (IH ltac:(discriminate) (pt ++ [e_raw (i_l i)])) as [t ->].
      rewrite <- !app_assoc. cbn [app low map]. eexists. rewrite app_assoc. reflexivity.
  Qed.
  Lemma up_last : forall i b pt, exists t, vertices_up pt (i :: b) = t ++ [pt ++ e_raw (i_u i) :: low b].
  Proof using.
    intros i [|j b] pt.
    - exists [pt ++ [e_raw (i_l i)]]. reflexivity.
    - rewrite up_cons. destruct (down_last (j :: b) ltac:(discriminate) (pt ++ [e_raw (i_u i)])) as [t ->].
      rewrite <- !app_assoc. cbn [app]. eexists. rewrite app_assoc. reflexivity.
  Qed.

  Lemma chain_app : forall {A} (R : A -> A -> Prop) l x y t, chain R (l ++ [x]) -> R x y -> chain R (y :: t) -> chain R ((l ++ [x]) ++ y :: t).
  Proof using.
    intros A R l. induction l as [|a l IH]; intros x y t H1 H2 H3.
    - cbn. auto.
    - cbn [app] in *. destruct l as [|b l].
      + cbn in *. tauto.
      + cbn [app] in *. destruct H1 as [H1 H1']. split; [exact H1|]. apply (IH x y t); assumption.
  Qed.

  Definition proper i : Prop := e_raw (i_l (E:=E) i) <> e_raw (i_u i).
  Lemma vertices_chain : forall b, b <> [] -> Forall proper b -> forall pt,
    chain one_step (vertices_up pt b) /\ chain one_step (vertices_down pt b).
  Proof using.
    induction b as [|i b IH]; [congruence|]. intros _ F pt. inversion F as [|? ? Pi F']; subst.
    destruct b as [|j b].
    - cbn. repeat split; eexists pt, _, _, []; (repeat split); auto; intro X; apply Pi; congruence.
    - specialize (IH ltac:(discriminate) F').
      rewrite up_cons, down_cons. split.
      + destruct (IH (pt ++ [e_raw (i_l i)])) as [C1 _]. destruct (IH (pt ++ [e_raw (i_u i)])) as [_ C2].
        destruct (up_last j b (pt ++ [e_raw (i_l i)])) as [t1 Q1]. destruct (down_first j b (pt ++ [e_raw (i_u i)])) as [t2 Q2].
        rewrite Q1 in *. rewrite Q2 in *. apply chain_app; auto.
        exists pt, (e_raw (i_l i)), (e_raw (i_u i)), (e_raw (i_u j) :: low b). rewrite <- !app_assoc. repeat split; auto.
      + destruct (IH (pt ++ [e_raw (i_u i)])) as [C1 _]. destruct (IH (pt ++ [e_raw (i_l i)])) as [_ C2].
        destruct (up_last j b (pt ++ [e_raw (i_u i)])) as [t1 Q1]. destruct (down_first j b (pt ++ [e_raw (i_l i)])) as [t2 Q2].
        rewrite Q1 in *. rewrite Q2 in *. apply chain_app; auto.
        exists pt, (e_raw (i_u i)), (e_raw (i_l i)), (e_raw (i_u j) :: low b). rewrite <- !app_assoc. repeat split; auto.
  Qed.

  Lemma NoDup_app' : forall {A} (l m : list A), NoDup l -> NoDup m -> (forall x, In x l -> ~ In x m) -> NoDup (l ++ m).
  Proof using.
    induction l as [|a l IH]; intros m H1 H2 H3; [exact H2|]. inversion H1; subst. cbn. constructor.
    - rewrite in_app_iff. intros [X|X]; [contradiction|]. apply (H3 a); [left; reflexivity|exact X].
    - apply IH; auto. intros x X. apply H3. right. exact X.
  Qed.
  Lemma vertices_nodup : forall b, b <> [] -> Forall proper b -> forall pt,
    NoDup (vertices_up pt b) /\ NoDup (vertices_down pt b).
  Proof using.
    induction b as [|i b IH]; [congruence|]. intros _ F pt. inversion F as [|? ? Pi F']; subst.
    destruct b as [|j b].
    - cbn. unfold proper in Pi. split; (constructor; [intros [X|[]]; apply app_inv_head in X; congruence|constructor; [intros []|constructor]]).
    - specialize (IH ltac:(discriminate) F'). rewrite up_cons, down_cons.
      assert (NE : j :: b <> []) by discriminate.
      split; (apply NoDup_app'; [apply IH|apply IH|]); intros x H1 H2;
        apply (vertices_in (j :: b) NE) in H1; apply (vertices_in (j :: b) NE) in H2;
        destruct H1 as [y [-> _]], H2 as [z [Q _]]; rewrite <- !app_assoc in Q; apply app_inv_head in Q; cbn in Q; unfold proper in Pi; congruence.
  Qed.
  (** The last vertex is one step from the first, when there are at least two coordinates
      or one. *)
  Lemma up_ends : forall i b pt, exists t, vertices_up pt (i :: b) = t ++ [pt ++ e_raw (i_u i) :: low b].
  Proof using. exact up_last. Qed.
End Vertices.

(** ** Products and projections *)
Section Parts.
  Context {E : Type} (o : num_ops E) (good : E -> Prop) (v : E -> Rbar) (K : num_ok o good v).

  Lemma set_nth_app : forall (p q : box E) x y, set_nth (p ++ x :: q) (length p) y = p ++ y :: q.
  Proof using. induction p as [|a p IH]; intros q x y; cbn; [reflexivity|]. f_equal. apply IH. Qed.
  Lemma copy_app : forall (b p q r : box E), length q = length b -> copy_to (p ++ q ++ r) (length p) b = p ++ b ++ r.
  Proof using.
    induction b as [|i b IH]; intros p q r H; [destruct q; [reflexivity|discriminate H]|].
    destruct q as [|x q]; [discriminate H|]. cbn [copy_to app]. rewrite set_nth_app.
    replace (p ++ i :: q ++ r) with ((p ++ [i]) ++ q ++ r) by (rewrite <- app_assoc; reflexivity).
    replace (S (length p)) with (length (p ++ [i])) by (rewrite app_length; cbn; lia).
    rewrite IH by (cbn in H; lia). rewrite <- app_assoc. reflexivity.
  Qed.
  Lemma product_app : forall a b : box E, bx_product o a b = a ++ b.
  Proof using.
    intros a b. unfold bx_product, dimension. rewrite repeat_app.
    pose proof (copy_app a [] (repeat (empty_ivl o) (length a)) (repeat (empty_ivl o) (length b)) (repeat_length _ _)) as H.
    cbn [length app] in H. rewrite H.
    pose proof (copy_app b a (repeat (empty_ivl o) (length b)) [] (repeat_length _ _)) as H2. rewrite !app_nil_r in H2. exact H2.
  Qed.
  Lemma ivl_product_app : forall i (b : box E), ivl_product o i b = i :: b.
  Proof using.
    intros i b. unfold ivl_product, dimension. cbn [repeat Nat.add set_nth].
    pose proof (copy_app b [i] (repeat (empty_ivl o) (length b)) [] (repeat_length _ _)) as H. rewrite !app_nil_r in H. exact H.
  Qed.
  Lemma product_ivl_app : forall (b : box E) i, product_ivl o b i = b ++ [i].
  Proof using.
    intros b i. unfold product_ivl, dimension. rewrite repeat_app.
    pose proof (copy_app b [] (repeat (empty_ivl o) (length b)) (repeat (empty_ivl o) 1) (repeat_length _ _)) as H.
    cbn [length app] in H. rewrite H. apply (set_nth_app b []).
  Qed.
  Lemma product3_app : forall a b c : box E, bx_product3 o a b c = a ++ b ++ c.
  Proof using.
    intros a b c. unfold bx_product3, dimension. rewrite !repeat_app, <- app_assoc.
    pose proof (copy_app a [] (repeat (empty_ivl o) (length a)) (repeat (empty_ivl o) (length b) ++ repeat (empty_ivl o) (length c)) (repeat_length _ _)) as H.
    cbn [length app] in H. rewrite H.
    rewrite (copy_app b a (repeat (empty_ivl o) (length b)) (repeat (empty_ivl o) (length c)) (repeat_length _ _)).
    rewrite app_assoc, <- app_length.
    pose proof (copy_app c (a ++ b) (repeat (empty_ivl o) (length c)) [] (repeat_length _ _)) as H2. rewrite !app_nil_r in H2. rewrite H2. apply eq_sym, app_assoc.
  Qed.
  Lemma product_in : forall (a b : box E) x, in_box v (bx_product o a b) x <->
    exists y z, x = y ++ z /\ in_box v a y /\ in_box v b z.
  Proof using.
    intros a b x. rewrite product_app. unfold in_box. split.
    - intros H. apply Forall2_app_inv_l in H. destruct H as [y [z [A [B C]]]]. exists y, z. auto.
    - intros [y [z [-> [A B]]]]. apply Forall2_app; assumption.
  Qed.
  Lemma project_some : forall (b : box E) rng, Forall (fun k => (k < length b)%nat) rng ->
    exists r, bx_project b rng = Some r /\ length r = length rng /\
      forall n k, nth_error rng n = Some k -> nth_error r n = nth_error b k.
  Proof using.
    intros b rng F. induction F as [|k rng H F IH].
    - exists []. repeat split; auto. intros [|n] k Q; discriminate Q.
    - destruct IH as [r [A [B C]]]. cbn. destruct (nth_error b k) as [i|] eqn:Q; [|apply nth_error_None in Q; lia].
      rewrite A. exists (i :: r). cbn. repeat split; auto. intros [|n] k' X; cbn in *; [injection X as <-; congruence|apply C; exact X].
  Qed.
  Lemma project_none : forall (b : box E) rng, ~ Forall (fun k => (k < length b)%nat) rng -> bx_project b rng = None.
  Proof using.
    intros b rng H. induction rng as [|k rng IH]; [exfalso; apply H; constructor|]. cbn.
    destruct (nth_error b k) as [i|] eqn:Q; [|reflexivity].
    rewrite IH; [reflexivity|]. intro F. apply H. constructor; [|exact F]. apply nth_error_Some. congruence.
  Qed.
  Lemma in_box_nth : forall (b : box E) x, in_box v b x <->
    length x = length b /\ forall n i r, nth_error b n = Some i -> nth_error x n = Some r -> in_ivl v i r.
  Proof using.
    induction b as [|i b IH]; intros x; split.
    - intros H. inversion H; subst. split; auto. intros [|n] ? ? Q; discriminate Q.
    - intros [H _]. destruct x; [constructor|discriminate H].
    - intros H. inversion H as [|? r ? y Hr Hy]; subst. apply IH in Hy. destruct Hy as [L Hy]. split; [cbn; congruence|].
      intros [|n] j s P Q; cbn in *; [congruence|eapply Hy; eassumption].
    - intros [L H]. destruct x as [|r x]; [discriminate L|]. constructor; [apply (H 0%nat); reflexivity|].
      apply IH. split; [cbn in L; congruence|]. intros n j s P Q. apply (H (S n)); assumption.
  Qed.

  (** ** Splitting *)
  Lemma set_nth_nth : forall {A} (l : list A) k x n, (k < length l)%nat ->
    nth_error (set_nth l k x) n = if Nat.eqb n k then Some x else nth_error l n.
  Proof using.
    induction l as [|a l IH]; intros k x n H; [cbn in H; lia|]. destruct k as [|k], n as [|n]; cbn; try reflexivity.
    apply IH. cbn in H. lia.
  Qed.
  Lemma set_nth_length : forall {A} (l : list A) k x, length (set_nth l k x) = length l.
  Proof using. induction l as [|a l IH]; intros [|k] x; cbn; auto. Qed.
  Lemma split_in : forall (b : box E) k i c x, nth_error b k = Some i -> nth_error x k <> None ->
    (forall j, (j = mkI (i_l i) (mkE EX c) \/ j = mkI (mkE EX c) (i_u i)) ->
      (in_box v (set_nth b k j) x <-> length x = length b /\ (forall n i' r, n <> k -> nth_error b n = Some i' -> nth_error x n = Some r -> in_ivl v i' r) /\
         forall r, nth_error x k = Some r -> in_ivl v j r)).
  Proof using.
    intros b k i c x Hk Hx j _. rewrite in_box_nth, set_nth_length.
    assert (Lk : (k < length b)%nat) by (apply nth_error_Some; congruence).
    split.
    - intros [L H]. split; [exact L|]. split.
      + intros n i' r N P Q. apply (H n); [|exact Q]. rewrite set_nth_nth by exact Lk. apply Nat.eqb_neq in N. rewrite N. exact P.
      + intros r Q. apply (H k); [|exact Q]. rewrite set_nth_nth by exact Lk. rewrite Nat.eqb_refl. reflexivity.
    - intros [L [H1 H2]]. split; [exact L|]. intros n i' r P Q. rewrite set_nth_nth in P by exact Lk.
      destruct (Nat.eqb n k) eqn:N.
      + apply Nat.eqb_eq in N. subst n. injection P as <-. apply H2; exact Q.
      + apply Nat.eqb_neq in N. eapply H1; eassumption.
  Qed.
  (** The two parts together are the box, if the split point is in the interval. *)
  Lemma split_cover : forall (b : box E) k i m, nth_error b k = Some i ->
    in_ivl v i m -> forall c, v c = Finite m -> forall x,
    (in_box v b x <-> (in_box v (set_nth b k (mkI (i_l i) (mkE EX c))) x \/ in_box v (set_nth b k (mkI (mkE EX c) (i_u i))) x)).
  Proof using.
    intros b k i m Hk [M1 M2] c Vc x.
    assert (Lk : (k < length b)%nat) by (apply nth_error_Some; congruence).
    destruct (nth_error x k) as [r|] eqn:Hx.
    - rewrite (split_in b k i c x Hk) by (congruence || auto). rewrite (split_in b k i c x Hk) by (congruence || auto).
      rewrite in_box_nth.
      assert (S1 : in_ivl v (mkI (i_l i) (mkE EX c)) r <-> Rbar_le (v (raw_l i)) (Finite r) /\ r <= m).
      { unfold in_ivl, in_set, set_of, raw_l, raw_u. cbn [fst snd i_l i_u e_raw]. rewrite Vc. reflexivity. }
      assert (S2 : in_ivl v (mkI (mkE EX c) (i_u i)) r <-> m <= r /\ Rbar_le (Finite r) (v (raw_u i))).
      { unfold in_ivl, in_set, set_of, raw_l, raw_u. cbn [fst snd i_l i_u e_raw]. rewrite Vc. reflexivity. }
      split.
      + intros [L H]. pose proof (H k i r Hk Hx) as [H1 H2].
        destruct (Rle_or_lt r m) as [C|C]; [left|right]; (split; [exact L|]); (split; [intros n i' s _; apply H|]);
          intros s Q; replace s with r by congruence; [apply S1|apply S2]; split; auto; lra.
      + intros [[L [H1 H2]]|[L [H1 H2]]]; (split; [exact L|]); intros n i' s P Q;
          (destruct (Nat.eq_dec n k) as [-> |N]; [|eapply H1; eassumption]);
          replace s with r by congruence; replace i' with i by congruence.
        * apply S1 in H2; [|congruence]. destruct H2 as [A B]. split; [exact A|]. eapply Rbar_le_trans; [|exact M2]. exact B.
        * apply S2 in H2; [|congruence]. destruct H2 as [A B]. split; [|exact B]. eapply Rbar_le_trans; [exact M1|]. exact A.
    - apply nth_error_None in Hx. split; [|intros [H|H]]; intros; exfalso.
      + apply in_box_nth in H. lia.
      + apply in_box_nth in H. rewrite set_nth_length in H. lia.
      + apply in_box_nth in H. rewrite set_nth_length in H. lia.
  Qed.

  (** ** The widest coordinate *)
  Lemma irmax_loop_spec : forall (w : interval E -> R) (wider : interval E -> interval E -> bool),
    (forall i j, wider i j = true <-> w j < w i) ->
    forall (b pre : box E) imw mw, nth_error pre imw = Some mw ->
    (forall n j, nth_error pre n = Some j -> w j <= w mw /\ ((n < imw)%nat -> w j < w mw)) ->
    exists k i, irmax_loop wider b (length pre) imw mw = k /\ nth_error (pre ++ b) k = Some i /\
      forall n j, nth_error (pre ++ b) n = Some j -> w j <= w i /\ ((n < k)%nat -> w j < w i).
  Proof using.
    intros w wider Hw. induction b as [|j b IH]; intros pre imw mw N H.
    - exists imw, mw. rewrite app_nil_r. auto.
    - cbn [irmax_loop]. destruct (wider j mw) eqn:W.
      + apply Hw in W. destruct (IH (pre ++ [j]) (length pre) j) as [k [i [A [B C]]]].
        * rewrite nth_error_app2, Nat.sub_diag by lia. reflexivity.
        * intros n j' Q. destruct (Nat.lt_ge_cases n (length pre)) as [L|L].
          -- rewrite nth_error_app1 in Q by exact L. apply H in Q. lra.
          -- rewrite nth_error_app2 in Q by exact L. destruct (n - length pre)%nat as [|m] eqn:M; [|destruct m; discriminate Q].
             injection Q as <-. split; [lra|lia].
        * rewrite app_length in A. cbn in A. rewrite Nat.add_1_r in A. rewrite <- app_assoc in B, C. cbn in B, C.
          exists k, i. auto.
      + assert (w j <= w mw). { destruct (Rle_or_lt (w j) (w mw)) as [X|X]; [exact X|]. apply Hw in X. congruence. }
        destruct (IH (pre ++ [j]) imw mw) as [k [i [A [B C]]]].
        * rewrite nth_error_app1; [exact N|]. apply nth_error_Some. congruence.
        * intros n j' Q. destruct (Nat.lt_ge_cases n (length pre)) as [L|L].
          -- rewrite nth_error_app1 in Q by exact L. apply H in Q. exact Q.
          -- rewrite nth_error_app2 in Q by exact L. destruct (n - length pre)%nat as [|m] eqn:M; [|destruct m; discriminate Q].
             injection Q as <-. split; [lra|]. assert (imw < length pre)%nat by (apply nth_error_Some; congruence). lia.
        * rewrite app_length in A. cbn in A. rewrite Nat.add_1_r in A. rewrite <- app_assoc in B, C. cbn in B, C.
          exists k, i. auto.
  Qed.
  Lemma irmax_spec : forall (w : interval E -> R) wider, (forall i j, wider i j = true <-> w j < w i) ->
    forall b : box E, b <> [] -> exists k i, irmax wider b = Some k /\ nth_error b k = Some i /\
      forall n j, nth_error b n = Some j -> w j <= w i /\ ((n < k)%nat -> w j < w i).
  Proof using.
    intros w wider Hw [|i b] N; [congruence|]. destruct (irmax_loop_spec w wider Hw b [i] 0%nat i) as [k [m [A [B C]]]]; auto.
    - intros [|n] j Q; [injection Q as <-; split; [lra|lia]|destruct n; discriminate Q].
    - cbn in A. exists k, m. cbn. rewrite A. auto.
  Qed.
End Parts.
