(** Model of products and projections of cells and pavings (source/geometry/grid_paving.cpp
    2989-3096). [None]: read past the end of a word (no check in the code). *)
From Coq Require Import List Bool Arith ZArith QArith.
From Verif Require Import LRU_Model Logical_Model Word_Model Tree_Model Cell_Model Paving_Model.
Import ListNotations.
Local Open Scope nat_scope.

(** The inner loops 3005 and 3010: append [n] bits of the word, advancing its index. *)
Definition take (n : nat) (w : word) : option (word * word) :=
  if n <=? length w then Some (firstn n w, skipn n w) else None.
(** [level%2] as a Bool, 3003 and 3008. *)
Definition level_bit (level : Z) : bool := negb (Z.rem level 2 =? 0)%Z.
(** 3002-3006, and 3007-3011: one block of bits. *)
Definition next_block (level h : Z) (n : nat) (w : word) : option (word * word) :=
  if (h <? - level)%Z then Some (repeat (level_bit level) n, w) else take n w.
(** The loop 3001-3013, [k] turns. *)
Fixpoint product_loop (k : nat) (level h1 h2 : Z) (n1 n2 : nat) (w1 w2 : word) : option word :=
  match k with
  | O => Some []
  | S k' =>
      match next_block level h1 n1 w1 with
      | None => None
      | Some (b1, w1') =>
          match next_block level h2 n2 w2 with
          | None => None
          | Some (b2, w2') =>
              match product_loop k' (level + 1) h1 h2 n1 n2 w1' w2' with
              | None => None
              | Some r => Some (b1 ++ b2 ++ r)
              end
          end
      end
  end.
(** cpp:2989-3015. [Int] arithmetic is exact. *)
Definition product_word (n1 n2 : nat) (c1 c2 : cell) : option word :=
  let extent := Nat.max (c_ext c1) (c_ext c2) in
  let r1 := Z.quot (cell_depth n1 c1) (Z.of_nat n1) in
  product_loop (Z.to_nat (r1 + Z.of_nat extent)) (- Z.of_nat extent) (Z.of_nat (c_ext c1)) (Z.of_nat (c_ext c2)) n1 n2 (c_word c1) (c_word c2).
(** cpp:3018-3027 without the final check (which compares rounded boxes). *)
Definition product_cell (n1 n2 : nat) (c1 c2 : cell) : outcome cell :=
  if (cell_depth n1 c1 * Z.of_nat n2 =? cell_depth n2 c2 * Z.of_nat n1)%Z
  then match product_word n1 n2 c1 c2 with
       | Some w => Ret {| c_ext := Nat.max (c_ext c1) (c_ext c2); c_word := w |}
       | None => UB
       end
  else AssertFail.
(** cpp:3030-3038, over the cells yielded by the iteration ([C28_cells]). *)
Fixpoint adjoin_all (d : nat) (cs : list (outcome cell)) (p : paving) : outcome paving :=
  match cs with
  | [] => Ret p
  | c :: cs' => obind c (fun c => obind (adjoin_cell d c p) (adjoin_all d cs'))
  end.
Definition product_cell_unchecked (n1 n2 : nat) (c1 c2 : cell) : outcome cell :=
  match product_word n1 n2 c1 c2 with
  | Some w => Ret {| c_ext := Nat.max (c_ext c1) (c_ext c2); c_word := w |}
  | None => UB
  end.
Definition product_cells (n1 n2 : nat) (cs1 cs2 : list cell) : outcome paving :=
  adjoin_all (n1 + n2) (flat_map (fun c1 => map (product_cell_unchecked n1 n2 c1) cs2) cs1) (make_paving false).

(** image, cpp:3079-3096: [word[prj[i%m]]] for i below size/d*m. *)
Definition image_word (d : nat) (prj : list nat) (w : word) : option word :=
  let m := length prj in
  fold_right (fun i acc =>
      match acc, nth_error prj (i mod m) with
      | Some r, Some j => match nth_error w j with Some b => Some (b :: r) | None => None end
      | _, _ => None
      end) (Some []) (seq 0 (length w / d * m)).
Definition image_cell (d : nat) (prj : list nat) (c : cell) : outcome cell :=
  if length (c_word c) mod d =? 0
  then match image_word d prj (c_word c) with Some w => Ret {| c_ext := c_ext c; c_word := w |} | None => UB end
  else AssertFail.
Definition image_cells (d : nat) (prj : list nat) (cs : list cell) : outcome paving :=
  obind (adjoin_all (length prj) (map (image_cell d prj) cs) (make_paving false))
        (fun p => Ret {| p_ext := p_ext p; p_tree := recombine (p_tree p) |}).
