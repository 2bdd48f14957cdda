From Coq Require Import List Bool ZArith Arith Lia Ascii String.
From Verif Require Import Word_Model.
Import ListNotations.
Local Open Scope list_scope.

Lemma less_irrefl v : word_less v v = false.
Proof. induction v as [|a v IH]; simpl; [reflexivity|]. rewrite eqb_reflx; exact IH. Qed.
Lemma less_trans u : forall v w, word_less u v = true -> word_less v w = true -> word_less u w = true.
Proof.
  induction u as [|a u IH]; intros [|b v] [|c w]; simpl; try discriminate; auto.
  destruct a, b, c; simpl; try discriminate; auto; apply IH.
Qed.
Lemma less_total u : forall v, word_less u v = true \/ u = v \/ word_less v u = true.
Proof.
  induction u as [|a u IH]; intros [|b v]; simpl; auto.
  destruct a, b; simpl; auto; destruct (IH v) as [H|[H|H]]; subst; auto.
Qed.
(** Independent description of the order. *)
Lemma less_characterised u : forall v, word_less u v = true <->
  (exists p s t, u = p ++ false :: s /\ v = p ++ true :: t) \/ (exists x t, v = u ++ x :: t).
Proof.
  induction u as [|a u IH]; intros [|b v]; simpl.
  - split; [discriminate|]. intros [[[|] [s [t [H _]]]]|[x [t H]]]; discriminate.
  - split; [|auto]. intros _. right. exists b, v. reflexivity.
  - split; [discriminate|]. intros [[[|? ?] [s [t [_ H]]]]|[x [t H]]]; discriminate.
  - assert (Hsame : forall a, (word_less u v = true <->
       (exists p s t, a :: u = p ++ false :: s /\ a :: v = p ++ true :: t) \/ (exists x t, a :: v = a :: u ++ x :: t))).
    { intros a0. rewrite IH. split.
      - intros [[p [s [t [-> ->]]]]|[x [t ->]]].
        + left. exists (a0 :: p), s, t. auto.
        + right. exists x, t. reflexivity.
      - intros [[[|a' p] [s [t [H1 H2]]]]|[x [t H]]]; simpl in *.
        + congruence.
        + injection H1 as <- ->. injection H2 as ->. left. exists p, s, t; auto.
        + injection H as ->. right. exists x, t; reflexivity. }
    destruct a, b; simpl; try apply Hsame.
    + split; [discriminate|].
      intros [[[|a p] [s [t [H1 H2]]]]|[x [t H]]]; simpl in *; congruence.
    + split; [|reflexivity]. intros _. left. exists [], u, v. auto.
Qed.

Lemma matches_spec v : forall w, List.length v <= List.length w ->
  exists b, matches v w = Some b /\ (b = true <-> exists t, w = v ++ t).
Proof.
  induction v as [|a v IH]; intros w Hl; simpl.
  - exists true. split; [reflexivity|]. split; [|reflexivity]. intros _. exists w; reflexivity.
  - destruct w as [|b w]; simpl in Hl; [lia|].
    destruct (Bool.eqb a b) eqn:E.
    + apply eqb_prop in E; subst b. destruct (IH w) as [x [Hx Hs]]; [lia|].
      exists x. split; [exact Hx|]. rewrite Hs. split; intros [t Ht]; exists t; congruence.
    + exists false. split; [reflexivity|]. split; [discriminate|].
      intros [t Ht]. injection Ht as <- _. rewrite eqb_reflx in E; discriminate.
Qed.
Lemma is_prefix_spec v w : exists b, is_prefix v w = Some b /\ (b = true <-> exists t, w = v ++ t).
Proof.
  unfold is_prefix. destruct (Nat.ltb_spec (List.length w) (List.length v)) as [H|H].
  - exists false. split; [reflexivity|]. split; [discriminate|].
    intros [t ->]. rewrite app_length in H; lia.
  - apply matches_spec; assumption.
Qed.

Lemma subword_loop_spec v n : forall b, List.length b + 1 = List.length v + n ->
  exists r, subword_loop v b n = Some r /\ (r = true <-> exists p t, b = p ++ v ++ t).
Proof.
  induction n as [|n IH]; intros b Hl; simpl.
  - exists false. split; [reflexivity|]. split; [discriminate|].
    intros [p [t ->]]. rewrite !app_length in Hl; lia.
  - destruct (matches_spec v b) as [x [Hx Hs]]; [lia|]. rewrite Hx. destruct x.
    + exists true. split; [reflexivity|]. split; [|reflexivity]. intros _.
      destruct (proj1 Hs eq_refl) as [t ->]. exists [], t. reflexivity.
    + destruct b as [|b0 b].
      * exists false. split; [reflexivity|]. split; [discriminate|].
        intros [p [t H]]. apply Hs. destruct p; [|discriminate]. exists t; exact H.
      * destruct (IH b) as [r [Hr Hrs]]; [simpl in Hl; lia|]. exists r. split; [exact Hr|].
        rewrite Hrs. split.
        -- intros [p [t ->]]. exists (b0 :: p), t. reflexivity.
        -- intros [[|c p] [t H]].
           ++ exfalso. assert (Hc : false = true) by (apply Hs; exists t; exact H). discriminate.
           ++ injection H as <- ->. exists p, t. reflexivity.
Qed.
Lemma is_subword_spec v b : exists r, is_subword v b = Some r /\ (r = true <-> exists p t, b = p ++ v ++ t).
Proof.
  unfold is_subword. destruct (Nat.ltb_spec (List.length b) (List.length v)) as [H|H].
  - exists false. split; [reflexivity|]. split; [discriminate|].
    intros [p [t ->]]. rewrite !app_length in H; lia.
  - apply subword_loop_spec. lia.
Qed.

Lemma append_word_spec w x : append_word w x = w ++ x.
Proof.
  unfold append_word. revert w. induction x as [|b x IH]; intros w; simpl; [rewrite app_nil_r; reflexivity|].
  rewrite IH. unfold append_bit. rewrite <- app_assoc. reflexivity.
Qed.
Lemma erase_loop_skipn n : forall w, erase_loop n w = skipn n w.
Proof. induction n as [|n IH]; intros [|a w]; simpl; auto. Qed.
Lemma erase_prefix_app p w : erase_prefix (Z.of_nat (List.length p)) (append_word p w) = w.
Proof.
  unfold erase_prefix. rewrite Nat2Z.id, erase_loop_skipn, append_word_spec, skipn_app, skipn_all, Nat.sub_diag. reflexivity.
Qed.
Lemma erase_prefix_spec n w : erase_prefix n w = skipn (Z.to_nat n) w.
Proof. apply erase_loop_skipn. Qed.
Lemma set_back_spec w a x : set_back (w ++ [a]) x = Some (w ++ [x]).
Proof. unfold set_back. rewrite rev_app_distr. simpl. rewrite rev_involutive. reflexivity. Qed.

Lemma digit01 b : is_digit01 (digit b) = true. Proof. destruct b; reflexivity. Qed.
Lemma read_bits_write w : forall c rest, is_digit01 c = false ->
  forall b, read_bits (digit b) (map digit w ++ c :: rest) = (b :: w, c :: rest).
Proof.
  induction w as [|a w IH]; intros c rest Hc b.
  - simpl. rewrite digit01. destruct rest; simpl; rewrite Hc; destruct b; reflexivity.
  - cbn [map app read_bits]. rewrite digit01, IH by assumption. destruct b; reflexivity.
Qed.
Lemma read_bits_write_eof w : forall b, read_bits (digit b) (map digit w) = (b :: w, []).
Proof.
  induction w as [|a w IH]; intros b.
  - destruct b; reflexivity.
  - cbn [map read_bits]. rewrite digit01, IH. destruct b; reflexivity.
Qed.
Lemma read_write w rest : w <> [] ->
  match rest with [] => True | c :: _ => is_digit01 c = false end ->
  read (write w ++ rest) = ReadOk w rest.
Proof.
  intros Hw Hr. destruct w as [|b w]; [congruence|]. unfold read, write.
  assert (E : forall s, skip_space (digit b :: s) = digit b :: s) by (intros; destruct b; reflexivity).
  cbn [map app]. rewrite E.
  replace (Ascii.eqb (digit b) "[") with false by (destruct b; reflexivity).
  destruct rest as [|c rest].
  - rewrite app_nil_r, read_bits_write_eof. reflexivity.
  - rewrite read_bits_write by assumption. reflexivity.
Qed.
Lemma read_write_empty rest : read (write [] ++ rest) = ReadOk [] ("e"%char :: rest).
Proof. destruct rest; reflexivity. Qed.
Lemma read_space s c : is_space c = true -> read (c :: s) = read s.
Proof. intros H. unfold read. simpl. rewrite H. reflexivity. Qed.
