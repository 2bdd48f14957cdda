(** An arithmetic of bounds with dyadic end points, used to show that the hypotheses of the
    theorems about real numbers can be met, and for counterexamples: exact for the linear
    operations; [sqrt] of a negative number is NaN; the other results are not bounded. *)
From Coq Require Import ZArith NArith QArith Qreals Reals List Lia Lra Bool.
From Flocq Require Import Core.
From Coquelicot Require Import Rbar.
From Verif Require Import Exact_Model Exact_Spec Exact_Proofs Exact_Dyadic_Proofs Logical_Model Real_Model Real_Spec Real_Proofs Real_Use_Proofs.
Local Open Scope R_scope.

Definition whole : dbounds := mkDB NInf PInf.
Definition w_arith : arith dyadic dbounds := {|
  a_cnst := fun c => mkDB c c;
  a_of_d := fun b => b;
  a_to_d := fun b => b;
  a_un := fun o x =>
    match o with
    | Pos => x
    | Neg => mkDB (x_neg w_ops (d_u x)) (x_neg w_ops (d_l x))
    | Hlf => mkDB (w_hlf (d_l x)) (w_hlf (d_u x))
    | Sqrt => if w_lt (d_u x) w_zero then mkDB NaN NaN else whole
    | _ => whole
    end;
  a_bin := fun o x y =>
    match o with
    | Add => mkDB (w_add (d_l x) (d_l y)) (w_add (d_u x) (d_u y))
    | Sub => mkDB (w_sub (d_l x) (d_u y)) (w_sub (d_u x) (d_l y))
    | _ => whole
    end;
  a_pow := fun _ _ => whole
|}.
Definition w_val (c : dyadic) : option R := match c with Fin a => Some (dval a) | _ => None end.

Lemma in_whole : forall v, in_dbounds whole v.
Proof. intro v. unfold in_dbounds. cbn. auto. Qed.
Lemma xgoodT : forall x : dyadic, xgood (fun _ : dyadic_fin => True) x.
Proof. intros []; exact I. Qed.

Lemma w_sound : sound_arith w_val w_arith in_dbounds.
Proof.
  split.
  - intros [a| | |] v H; cbn in H; try discriminate. injection H as <-. cbn [a_cnst w_arith]. rewrite in_fin. lra.
  - auto. - auto.
  - intros o x v H Hd. destruct o; cbn [a_un w_arith]; try exact (in_whole _).
    + exact H.
    + apply in_x in H. destruct H as (l & u & E1 & E2 & [L U]). apply in_x. cbn [d_l d_u]. unfold dmean in *.
      rewrite !(neg_sound _ _ _ w_exact), E1, E2 by apply xgoodT.
      do 2 eexists. split; [reflexivity|]. split; [reflexivity|]. destruct l, u; split; cbn in *; auto; lra.
    + apply in_x in H. destruct H as (l & u & E1 & E2 & [L U]). apply in_x. cbn [d_l d_u]. unfold dmean, w_hlf in *.
      rewrite !(hlf_sound _ _ _ w_exact), E1, E2 by apply xgoodT.
      do 2 eexists. split; [reflexivity|]. split; [reflexivity|]. destruct l, u; split; cbn in *; auto; lra.
    + destruct (w_lt (d_u x) w_zero) eqn:W; [|apply in_whole]. exfalso.
      apply in_ends in H. destruct H as (l & u & E1 & E2 & L & U).
      apply (w_lt_sound _ w_zero _ (Finite 0) E2) in W; [|unfold w_zero; cbn; repeat f_equal; unfold dval; cbn; lra].
      cbn in Hd. destruct u; cbn in *; try contradiction; lra.
  - intros o x y v w H G Hd. destruct o; cbn [a_bin w_arith]; try exact (in_whole _).
    + apply in_x in H, G. destruct H as (l & u & E1 & E2 & [L U]), G as (l' & u' & E1' & E2' & [L' U']). apply in_x. cbn [d_l d_u]. unfold dmean, w_add in *.
      rewrite !(add_sound _ _ _ w_exact), E1, E2, E1', E2' by apply xgoodT. cbn [lift2].
      destruct l, u, l', u'; cbn in *; try contradiction; do 2 eexists; (split; [reflexivity|]); (split; [reflexivity|]); split; cbn in *; auto; lra.
    + apply in_x in H, G. destruct H as (l & u & E1 & E2 & [L U]), G as (l' & u' & E1' & E2' & [L' U']). apply in_x. cbn [d_l d_u]. unfold dmean, w_sub in *.
      rewrite !(sub_sound _ _ _ w_exact), E1, E2, E1', E2' by apply xgoodT. cbn [lift2].
      destruct l, u, l', u'; cbn in *; try contradiction; do 2 eexists; (split; [reflexivity|]); (split; [reflexivity|]); split; cbn in *; auto; lra.
  - intros. apply in_whole.
Qed.

Definition linU (o : unop) : bool := match o with Pos | Neg | Hlf => true | _ => false end.
Definition linB (o : binop) : bool := match o with Add | Sub => true | _ => false end.
Definition linP (n : Z) : bool := false.

Lemma w_continuous : continuous_arith w_val (fun _ => w_arith) linU linB linP.
Proof.
  split.
  - intros [a| | |] v eps H He; cbn in H; try discriminate. injection H as <-. exists 0%nat. intros p _.
    exists a, a. split; [reflexivity|]. lra.
  - intros v eps He. exists eps, 0%nat. auto.
  - intros o v eps Ho _ He. exists eps, 0%nat. split; [exact He|]. intros p x _ (l & u & E & L & U). cbn in E. subst x.
    destruct o; cbn in Ho; try discriminate; cbn [a_to_d a_un w_arith d_l d_u usem].
    + exists l, u. auto.
    + do 2 eexists. split; [reflexivity|]. rewrite !(eo_opp _ _ _ w_exact) by exact I. lra.
    + do 2 eexists. split; [reflexivity|]. rewrite !(eo_hlf _ _ _ w_exact) by exact I. lra.
  - intros o v w eps Ho _ He. exists (eps / 2), 0%nat. split; [lra|]. intros p x y _ (l & u & E & L & U) (l' & u' & E' & L' & U'). cbn in E, E'. subst x y.
    destruct o; cbn in Ho; try discriminate; cbn [a_to_d a_bin w_arith d_l d_u bsem].
    + do 2 eexists. split; [reflexivity|]. rewrite !(eo_add _ _ _ w_exact) by exact I. lra.
    + do 2 eexists. split; [reflexivity|]. rewrite !(eo_sub _ _ _ w_exact) by exact I. lra.
  - intros. discriminate.
Qed.
