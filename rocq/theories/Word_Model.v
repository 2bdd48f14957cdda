(** Model of [BinaryWord] (source/utility/binary_word.hpp), a [std::vector<bool>]. *)
From Coq Require Import Ascii String List Bool ZArith.
Import ListNotations.
Local Open Scope list_scope.

Definition word := list bool.

(** binary_word.hpp:131-138. The index loop up to the smaller size is recursion over
    both words; [false<true] as for C++ bool. *)
Fixpoint word_less (v w : word) : bool :=
  match v, w with
  | a :: v', b :: w' => if Bool.eqb a b then word_less v' w' else negb a && b
  | [], [] => false        (* sizes compared at the end *)
  | [], _ :: _ => true
  | _ :: _, [] => false
  end.

(** binary_word.hpp:123-129: [prefix_size] is a signed int; the loop runs
    while i < size and i < prefix_size. *)
Fixpoint erase_loop (n : nat) (w : word) : word :=
  match n, w with
  | O, _ => w
  | S n', _ :: w' => erase_loop n' w'
  | S _, [] => []
  end.
Definition erase_prefix (n : Z) (w : word) : word := erase_loop (Z.to_nat n) w.

(** Element-wise comparison loop shared by is_prefix (144-148) and the inner while
    loop of is_subword (157-159): every element of [v] equals the one of [w] at
    the same position. Reading past the end of [w] would be undefined; both callers
    check sizes first, and the model answers [None] there. *)
Fixpoint matches (v w : word) : option bool :=
  match v, w with
  | [], _ => Some true
  | a :: v', b :: w' => if Bool.eqb a b then matches v' w' else Some false
  | _ :: _, [] => None
  end.

(** binary_word.hpp:140-150. *)
Definition is_prefix (v w : word) : option bool :=
  if Nat.ltb (List.length w) (List.length v) then Some false else matches v w.

(** binary_word.hpp:152-166; the loop over i = 0 .. |b|-|v|, [n] iterations left. *)
Fixpoint subword_loop (v b : word) (n : nat) {struct n} : option bool :=
  match n with
  | O => Some false
  | S n' => match matches v b with
            | None => None
            | Some true => Some true
            | Some false => match b with [] => Some false | _ :: b' => subword_loop v b' n' end
            end
  end.
Definition is_subword (v b : word) : option bool :=
  if Nat.ltb (List.length b) (List.length v) then Some false
  else subword_loop v b (List.length b - List.length v + 1).

(** binary_word.hpp:168-176. *)
Definition append_bit (w : word) (x : bool) : word := w ++ [x].
Definition append_word (w x : word) : word := fold_left append_bit x w.

(** binary_word.hpp:106; undefined on the empty word. *)
Definition set_back (w : word) (x : bool) : option word :=
  match rev w with [] => None | _ :: r => Some (rev (x :: r)) end.

(** binary_word.hpp:221-231, as a character list. *)
Definition digit (b : bool) : ascii := if b then "1"%char else "0"%char.
Definition write (w : word) : list ascii :=
  match w with [] => ["e"%char] | _ => map digit w end.

Definition is_space (c : ascii) : bool :=
  let n := nat_of_ascii c in (n =? 32)%nat || ((9 <=? n)%nat && (n <=? 13)%nat).
Definition is_digit01 (c : ascii) : bool := Ascii.eqb c "0" || Ascii.eqb c "1".
Fixpoint skip_space (s : list ascii) : list ascii :=
  match s with c :: s' => if is_space c then skip_space s' else s | [] => [] end.
(** The loop 194-197: [symbol] has been extracted, [s] is what is left. Returns the
    bits and the remaining input after [putback]. At end of input the last [get]
    fails, the loop stops and [putback] on the failed stream does nothing. *)
Fixpoint read_bits (symbol : ascii) (s : list ascii) : word * list ascii :=
  if is_digit01 symbol then
    let b := negb (Ascii.eqb symbol "0") in
    match s with
    | [] => ([b], [])
    | c :: s' => let (w, r) := read_bits c s' in (b :: w, r)
    end
  else ([], symbol :: s).
Inductive read_result :=
| ReadOk (w : word) (rest : list ascii)
| ReadBracketFormat      (* delegated to the vector<bool> reader, not modelled *)
| ReadUninitialised.     (* nothing to read: [symbol] is used uninitialised *)
(** binary_word.hpp:181-203. *)
Definition read (s : list ascii) : read_result :=
  match skip_space s with
  | [] => ReadUninitialised
  | c :: s' => if Ascii.eqb c "[" then ReadBracketFormat
               else let (w, r) := read_bits c s' in ReadOk w r
  end.
