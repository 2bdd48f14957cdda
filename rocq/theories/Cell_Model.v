(** Model of grid cells: source/geometry/grid_cell.hpp and the cell part of
    source/geometry/grid_paving.cpp.

    A cell is a root extent and a binary word, on a grid of dimension [d]. Boxes on the
    lattice have rational bounds: the code uses FloatDP, where the bounds of cells are
    dyadic numbers and the midpoints are exact as long as they fit in 53 bits (this is
    the simplification). [Int] corners are integers; [primary_corners32] adds the 32-bit
    overflow. *)
From Coq Require Import List Bool Arith ZArith QArith.
From Verif Require Import LRU_Model Word_Model.
Import ListNotations.
Local Open Scope nat_scope.

Definition box := nat -> Q * Q.   (* coordinates k < d are used *)
Record cell := { c_ext : nat; c_word : word }.

(** grid_cell.hpp:419-425. *)
Definition primary_cell_at_extent (h : nat) (c : Z * Z) : Z * Z :=
  let (l, r) := c in
  if Nat.odd h then ((2 * l - r)%Z, r) else (l, (2 * r - l)%Z).
(** The loop of grid_paving.cpp:52-56. *)
Fixpoint primary_corners (h : nat) : Z * Z :=
  match h with O => (0, 1)%Z | S h' => primary_cell_at_extent h (primary_corners h') end.
(** cpp:51-60. *)
Definition primary_cell_lattice_box (h : nat) : box :=
  fun _ => let (l, r) := primary_corners h in (inject_Z l, inject_Z r).

(** The same corners with C++ [int] arithmetic: overflow is undefined. *)
Definition int32 (z : Z) : outcome Z :=
  if ((-2147483648 <=? z) && (z <=? 2147483647))%Z then Ret z else UB.
Definition obind {A B} (x : outcome A) (f : A -> outcome B) : outcome B :=
  match x with Ret a => f a | AssertFail => AssertFail | UB => UB end.
Definition primary_cell_at_extent32 (h : nat) (c : Z * Z) : outcome (Z * Z) :=
  let (l, r) := c in
  if Nat.odd h then obind (int32 (2 * l)) (fun a => obind (int32 (a - r)) (fun l' => Ret (l', r)))
  else obind (int32 (2 * r)) (fun a => obind (int32 (a - l)) (fun r' => Ret (l, r'))).
Fixpoint primary_corners32 (h : nat) : outcome (Z * Z) :=
  match h with O => Ret (0, 1)%Z | S h' => obind (primary_corners32 h') (primary_cell_at_extent32 h) end.

(** Strict inclusion of a box, interval.inl.hpp:112-113 and box.hpp:428-432. *)
Definition Qlt_bool (a b : Q) : bool := negb (Qle_bool b a).
Fixpoint inside_loop (n k : nat) (b c : box) : bool :=
  match n with
  | O => true
  | S n' => Qlt_bool (fst (c k)) (fst (b k)) && Qlt_bool (snd (b k)) (snd (c k)) && inside_loop n' (S k) b c
  end.
Definition inside (d : nat) (b c : box) : bool := inside_loop d 0 b c.

(** cpp:62-79; the do-while loop starting at extent [h] with corners [c]; [None]: out
    of fuel. *)
Fixpoint enclosing_loop (fuel d h : nat) (c : Z * Z) (b : box) : option (outcome nat) :=
  match fuel with
  | O => None
  | S f => if inside d b (fun _ => (inject_Z (fst c), inject_Z (snd c))) then Some (Ret h)
           else match primary_cell_at_extent32 (S h) c with
                | Ret c' => enclosing_loop f d (S h) c' b
                | AssertFail => Some AssertFail
                | UB => Some UB
                end
  end.
(** 32 turns are enough: turn 32 overflows ([C23_enclosing_total]). *)
Definition smallest_enclosing_primary_cell_extent (d : nat) (b : box) : option (outcome nat) :=
  enclosing_loop 33 d 0 (0, 1)%Z b.

(** cpp:112-131. *)
Fixpoint primary_path_down (d top : nat) (steps : nat) : word :=
  match steps with
  | O => []
  | S s => repeat (Nat.odd top) d ++ primary_path_down d (pred top) s
  end.
Definition primary_cell_path (d top bottom : nat) : word := primary_path_down d top (top - bottom).

(** cpp:222-235: one turn of the loop halves the coordinate [i mod d]. *)
Definition midpoint (c : Q * Q) : Q := ((fst c + snd c) / (2 # 1))%Q.
Definition halve (d i : nat) (right : bool) (b : box) : box :=
  fun k => if k =? i mod d
           then (if right then (midpoint (b k), snd (b k)) else (fst (b k), midpoint (b k)))
           else b k.
Fixpoint box_loop (d i : nat) (w : word) (b : box) : box :=
  match w with [] => b | x :: w' => box_loop d (S i) w' (halve d i x b) end.
(** cpp:217-237. *)
Definition compute_lattice_box (d : nat) (h : nat) (w : word) : box :=
  box_loop d 0 w (primary_cell_lattice_box h).
Definition cell_box (d : nat) (c : cell) : box := compute_lattice_box d (c_ext c) (c_word c).

(** cpp:135-166. *)
Definition compared_words (d : nat) (a b : cell) : word * word :=
  if c_ext a =? c_ext b then (c_word a, c_word b)
  else if c_ext b <? c_ext a
       then (c_word a, append_word (primary_cell_path d (c_ext a) (c_ext b)) (c_word b))
       else (append_word (primary_cell_path d (c_ext b) (c_ext a)) (c_word a), c_word b).
Definition word_eq (v w : word) : bool := if list_eq_dec bool_dec v w then true else false.
Definition cell_equal (d : nat) (a b : cell) : bool := let (v, w) := compared_words d a b in word_eq v w.
Definition cell_less (d : nat) (a b : cell) : bool := let (v, w) := compared_words d a b in word_less v w.

(** cpp:170-182. *)
Definition cell_split (right : bool) (c : cell) : cell :=
  {| c_ext := c_ext c; c_word := append_bit (c_word c) right |}.

(** cpp:239-250; the assertion is [gc.root_extent() <= level]. *)
Definition raise_to_level (d : nat) (c : cell) (level : nat) : outcome cell :=
  if c_ext c <=? level
  then Ret {| c_ext := level; c_word := append_word (primary_path_down d level (level - c_ext c)) (c_word c) |}
  else AssertFail.

(** subset(cell,cell), cpp:335-391; also the two complete paths. [None] is an out-of-range
    read in [is_prefix], see [Word_Model]. *)
Definition aligned_paths (d : nat) (a b : cell) : word * word :=
  if c_ext a <? c_ext b
  then (append_word (append_word [] (primary_cell_path d (c_ext b) (c_ext a))) (c_word a), append_word [] (c_word b))
  else if c_ext b <? c_ext a
       then (append_word [] (c_word a), append_word (append_word [] (primary_cell_path d (c_ext a) (c_ext b))) (c_word b))
       else (append_word [] (c_word a), append_word [] (c_word b)).
Definition cell_subset (d : nat) (a b : cell) : option bool :=
  let (p1, p2) := aligned_paths d a b in is_prefix p2 p1.

(** depth(), grid_cell.hpp:438-440. *)
Definition cell_depth (d : nat) (c : cell) : Z := (Z.of_nat (length (c_word c)) - Z.of_nat (c_ext c * d))%Z.
