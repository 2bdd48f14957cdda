(** Properties C03-C06: validated logic. *)
From Coq Require Import List Bool Arith Lia.
From Verif Require Import Logical_Model Logical_Spec Logical_Proofs.
Import ListNotations.

(** C03: a definite answer of a connective is the classical answer. *)
Theorem C03_connectives_sound : forall a b P Q, informs a P -> informs b Q ->
  informs (lv_and a b) (P /\ Q) /\ informs (lv_or a b) (P \/ Q) /\ informs (lv_neg a) (~ P) /\
  informs (lv_eq a b) (P <-> Q) /\ informs (lv_xor a b) (~ (P <-> Q)).
Proof. exact connectives_sound. Qed.
Print Assumptions C03_connectives_sound.

(** C03: and the answer is definite exactly when the operands determine it. *)
Theorem C03_connectives_exact : forall a b,
  (lv_and a b = TRUE <-> a = TRUE /\ b = TRUE) /\ (lv_and a b = FALSE <-> a = FALSE \/ b = FALSE) /\
  (lv_or a b = TRUE <-> a = TRUE \/ b = TRUE) /\ (lv_or a b = FALSE <-> a = FALSE /\ b = FALSE) /\
  (lv_neg a = TRUE <-> a = FALSE) /\ (lv_neg a = FALSE <-> a = TRUE) /\
  (lv_eq a b = TRUE <-> (a = TRUE /\ b = TRUE) \/ (a = FALSE /\ b = FALSE)) /\
  (lv_eq a b = FALSE <-> (a = TRUE /\ b = FALSE) \/ (a = FALSE /\ b = TRUE)) /\
  (lv_xor a b = TRUE <-> (a = TRUE /\ b = FALSE) \/ (a = FALSE /\ b = TRUE)) /\
  (lv_xor a b = FALSE <-> (a = TRUE /\ b = TRUE) \/ (a = FALSE /\ b = FALSE)).
Proof. exact connectives_exact. Qed.
Print Assumptions C03_connectives_exact.

Theorem C03_de_morgan : forall a b,
  lv_neg (lv_and a b) = lv_or (lv_neg a) (lv_neg b) /\ lv_neg (lv_or a b) = lv_and (lv_neg a) (lv_neg b) /\
  lv_neg (lv_neg a) = a /\ lv_and a b = lv_and b a /\ lv_or a b = lv_or b a /\ lv_eq a b = lv_eq b a.
Proof. exact de_morgan. Qed.
Print Assumptions C03_de_morgan.

Theorem C03_guesses_consistent : forall a,
  (definitely a = true -> probably a = true) /\ (probably a = true -> possibly a = true) /\
  probably a = decide_lv a /\ (definitely a = true <-> possibly (lv_neg a) = false) /\
  (possibly a = false <-> a = FALSE) /\ (definitely a = true <-> a = TRUE).
Proof. exact guesses_consistent. Qed.
Print Assumptions C03_guesses_consistent.

(** C03: conversion to the one-sided and approximate types only forgets answers. *)
Theorem C03_conversions_sound : forall a P, informs a P ->
  informs (to_lower a) P /\ informs (to_upper a) P /\ informs (to_approx a) P /\
  (definitely (to_lower a) = definitely a) /\ (possibly (to_upper a) = possibly a) /\
  possibly (to_lower a) = true /\ definitely (to_upper a) = false /\
  possibly (to_approx a) = true /\ definitely (to_approx a) = false.
Proof. exact clamps_sound. Qed.
Print Assumptions C03_conversions_sound.

(** C03: the conversions forget only the answer the target type cannot give; every other
    value, including the guesses, is unchanged. *)
Theorem C03_conversions_exact : forall a,
  (a <> FALSE -> to_lower a = a) /\ (a <> TRUE -> to_upper a = a) /\
  (is_determinate a = false -> to_approx a = a) /\
  probably (to_lower a) = probably a /\ probably (to_upper a) = probably a /\ probably (to_approx a) = probably a.
Proof. intros a; destruct a; repeat split; intros H; try reflexivity; try discriminate; congruence. Qed.
Print Assumptions C03_conversions_exact.
(** C03: a bool converted to a one-sided type: the answer the type can express is
    kept, the other one becomes the corresponding guess. *)
Theorem C03_bool_conversions : forall b,
  (definitely (vsierp_of_bool b) = b /\ probably (vsierp_of_bool b) = b /\ vsierp_of_bool b <> FALSE) /\
  (possibly (vnsierp_of_bool b) = b /\ probably (vnsierp_of_bool b) = b /\ vnsierp_of_bool b <> TRUE).
Proof. intros []; repeat split; discriminate. Qed.
Print Assumptions C03_bool_conversions.

Example C03_nonvacuous : informs LIKELY (1 = 2) /\ informs FALSE (1 = 2) /\
  lv_and LIKELY FALSE = FALSE /\ lv_or LIKELY FALSE = LIKELY.
Proof. repeat split; intros; discriminate || (intro; discriminate). Qed.

(** C04: whatever tree of connectives and countable quantifiers is built over sound
    leaves, every check at every effort is correct information. *)
Theorem C04_checks_sound : forall h P, means h P -> forall e, informs (check h e) P.
Proof. exact means_check. Qed.
Print Assumptions C04_checks_sound.

(** C04: more effort never retracts a definite answer. *)
Theorem C04_checks_persistent : forall h, persistent h ->
  forall e e', e <= e' -> is_determinate (check h e) = true -> check h e' = check h e.
Proof. exact persistent_check. Qed.
Print Assumptions C04_checks_persistent.

(** C04: a countable disjunction with one verified member is eventually verified. *)
Theorem C04_disjunction_complete : forall s, (forall k, persistent (s k)) ->
  forall k e, check (s k) e = TRUE -> exists e0, forall e', e0 <= e' -> check (HSeqOr s) e' = TRUE.
Proof. exact seqor_complete. Qed.
Print Assumptions C04_disjunction_complete.

Theorem C04_conjunction_complete : forall s, (forall k, persistent (s k)) ->
  forall k e, check (s k) e = FALSE -> exists e0, forall e', e0 <= e' -> check (HSeqAnd s) e' = FALSE.
Proof. exact seqand_complete. Qed.
Print Assumptions C04_conjunction_complete.

(** A leaf that verifies "k >= 3" only with effort at least 5. *)
Definition example_leaf (k : nat) : handle :=
  HLeaf (fun e => if 5 <=? e then (if 3 <=? k then TRUE else FALSE) else INDET).
Lemma example_leaf_means k : means (example_leaf k) (3 <= k).
Proof.
  constructor. intros e. destruct (Nat.leb_spec 5 e); [|split; discriminate].
  destruct (Nat.leb_spec 3 k); split; intros; try discriminate; lia.
Qed.
Example C04_nonvacuous :
  means (HSeqOr example_leaf) (exists k, 3 <= k) /\ persistent (HSeqOr example_leaf) /\
  check (HSeqOr example_leaf) 4 = INDET /\ check (HSeqOr example_leaf) 6 = TRUE /\
  check (HSeqAnd example_leaf) 6 = FALSE.
Proof.
  split; [constructor; apply example_leaf_means|]. split; [|repeat split].
  constructor. intros k. constructor. intros e e' He.
  destruct (Nat.leb_spec 5 e); [|discriminate]. destruct (Nat.leb_spec 5 e'); [reflexivity|lia].
Qed.

(** C05: [Sierpinskian || Boolean] ignores the Boolean: a true disjunction is never
    verified. *)
Theorem C05_sierpinskian_or_boolean_refuted : exists (s : handle) (P : Prop) (b : bool),
  means s P /\ (P \/ b = true) /\ forall e, check_lower (sierp_or_bool s b) e <> TRUE /\
  check_lower (bool_or_sierp b s) e <> TRUE.
Proof. exact mixed_or_refuted. Qed.
Print Assumptions C05_sierpinskian_or_boolean_refuted.

(** C05: [NegatedSierpinskian && Boolean] ignores the Boolean: a false conjunction is
    reported (after conversion to Kleenean) as definitely true. *)
Theorem C05_negated_and_boolean_refuted : exists (s : handle) (P : Prop) (b : bool),
  means s P /\ ~ (P /\ b = true) /\ exists e, possibly (check_upper (nsierp_and_bool s b) e) = true /\
  definitely (check_kleenean (nsierp_and_bool s b) e) = true /\
  definitely (check_kleenean (bool_and_nsierp b s) e) = true.
Proof. exact mixed_and_refuted. Qed.
Print Assumptions C05_negated_and_boolean_refuted.

(** C05, true part: for Kleenean operands the mixed connectives are right. Missing: the
    Sierpinskian and NegatedSierpinskian overloads, which are wrong (above). *)
Theorem C05_kleenean_boolean_partial : forall k P b, means k P -> forall e,
  informs (check_kleenean (kleenean_and_bool k b) e) (P /\ b = true) /\
  informs (check_kleenean (kleenean_or_bool k b) e) (P \/ b = true).
Proof. exact mixed_kleenean. Qed.
Print Assumptions C05_kleenean_boolean_partial.
Example C05_nonvacuous : means (example_leaf 4) (3 <= 4) /\
  check_kleenean (kleenean_and_bool (example_leaf 4) true) 5 = TRUE.
Proof. split; [apply example_leaf_means|reflexivity]. Qed.

(** C06: the chosen alternative is true. *)
Theorem C06_choice_is_verified : forall fuel ps e i, choose_index fuel ps e = Some i ->
  exists e' p, e <= e' /\ nth_error ps i = Some p /\ check p e' = TRUE.
Proof. exact choose_index_sound. Qed.
Print Assumptions C06_choice_is_verified.

(** C06: the loop stops, at the latest, at an effort verifying some alternative. *)
Theorem C06_choice_terminates : forall ps p e1, In p ps -> check p e1 = TRUE ->
  forall e, e <= e1 -> exists i, choose_index (S (e1 - e)) ps e = Some i.
Proof. exact choose_index_terminates. Qed.
Print Assumptions C06_choice_terminates.

Theorem C06_choose_bool_is_verified : forall fuel pt pf e b, choose_bool fuel pt pf e = Some b ->
  exists e', check (if b then pt else pf) e' = TRUE.
Proof. exact choose_bool_sound. Qed.
Print Assumptions C06_choose_bool_is_verified.

Theorem C06_choose_bool_terminates : forall pt pf e1, (check pt e1 = TRUE \/ check pf e1 = TRUE) ->
  forall e, e <= e1 -> exists b, choose_bool (S (e1 - e)) pt pf e = Some b.
Proof. exact choose_bool_terminates. Qed.
Print Assumptions C06_choose_bool_terminates.

Example C06_nonvacuous :
  choose_index 10 [example_leaf 1; example_leaf 3; example_leaf 7] 0 = Some 1 /\
  choose_index 5 [example_leaf 1; example_leaf 3; example_leaf 7] 0 = None /\
  choose_bool 10 (example_leaf 1) (example_leaf 3) 0 = Some false.
Proof. repeat split. Qed.
