(** Property C02: binary words. *)
From Coq Require Import Ascii String List Bool ZArith.
From Verif Require Import Word_Model Word_Proofs.
Import ListNotations.
Local Open Scope list_scope.

(** C02: operator< is a strict total order. *)
Theorem C02_order_irreflexive : forall v, word_less v v = false.
Proof. exact less_irrefl. Qed.
Print Assumptions C02_order_irreflexive.
Theorem C02_order_transitive : forall u v w,
  word_less u v = true -> word_less v w = true -> word_less u w = true.
Proof. exact less_trans. Qed.
Print Assumptions C02_order_transitive.
Theorem C02_order_total : forall u v, word_less u v = true \/ u = v \/ word_less v u = true.
Proof. exact less_total. Qed.
Print Assumptions C02_order_total.
(** C02: it is the dictionary order, a proper prefix coming first. *)
Theorem C02_order_is_dictionary_order : forall u v, word_less u v = true <->
  (exists p s t, u = p ++ false :: s /\ v = p ++ true :: t) \/ (exists x t, v = u ++ x :: t).
Proof. exact less_characterised. Qed.
Print Assumptions C02_order_is_dictionary_order.
(** C02: is_prefix and is_subword never read out of range and are exact. *)
Theorem C02_is_prefix_exact : forall v w,
  exists b, is_prefix v w = Some b /\ (b = true <-> exists t, w = v ++ t).
Proof. exact is_prefix_spec. Qed.
Print Assumptions C02_is_prefix_exact.
Theorem C02_is_subword_exact : forall v w,
  exists b, is_subword v w = Some b /\ (b = true <-> exists p t, w = p ++ v ++ t).
Proof. exact is_subword_spec. Qed.
Print Assumptions C02_is_subword_exact.
(** C02: erasing a prefix undoes prepending it. *)
Theorem C02_erase_prefix_append : forall p w,
  erase_prefix (Z.of_nat (List.length p)) (append_word p w) = w.
Proof. exact erase_prefix_app. Qed.
Print Assumptions C02_erase_prefix_append.
Theorem C02_append_concatenates : forall w x, append_word w x = w ++ x.
Proof. exact append_word_spec. Qed.
Print Assumptions C02_append_concatenates.
(** C02: a non-empty word followed by anything but a binary digit is read back, and
    exactly its characters are consumed. *)
Theorem C02_read_write : forall w rest, w <> [] ->
  match rest with [] => True | c :: _ => is_digit01 c = false end ->
  read (write w ++ rest) = ReadOk w rest.
Proof. exact read_write. Qed.
Print Assumptions C02_read_write.
(** The empty word is written as "e", which the reader leaves in the stream. *)
Theorem C02_read_write_empty : forall rest, read (write [] ++ rest) = ReadOk [] ("e"%char :: rest).
Proof. exact read_write_empty. Qed.
Print Assumptions C02_read_write_empty.

Example C02_nonvacuous :
  word_less [false; true] [true] = true /\ word_less [true] [true; false] = true /\
  is_prefix [true; false] [true; false; true] = Some true /\
  is_subword [false; true] [true; false; true] = Some true /\
  is_subword [true; true] [true; false; true] = Some false /\
  read (list_ascii_of_string "0110, 1") = ReadOk [false; true; true; false] (list_ascii_of_string ", 1").
Proof. vm_compute. auto 10. Qed.
