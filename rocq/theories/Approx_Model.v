(** Model of the approximations of sets by pavings (source/geometry/grid_paving.cpp).

    A set is seen only through its three-valued tests on the boxes of cells: the tests are
    functions of the cell ([theSet.separated(cell.box())] and so on). An interface the set
    does not have (the code finds it by dynamic_cast) is [None]. [n] is
    max_mince_tree_depth - path.size(). The path is pushed before and popped after each
    recursive call (cpp:2264-2268), so it is an argument here. *)
From Coq Require Import List Bool Arith ZArith QArith.
From Verif Require Import LRU_Model Logical_Model Word_Model Tree_Model Cell_Model Paving_Model.
Import ListNotations.
Local Open Scope nat_scope.

Definition test := cell -> lv.
Definition node_cell (h : nat) (path : word) : cell := {| c_ext := h; c_word := path |}.
Definition holds (t : option test) (c : cell) : bool := match t with Some f => definitely (f c) | None => false end.

(** cpp:2223-2269 and the identical 2271-2317. *)
Fixpoint outer_node (n h : nat) (path : word) (separated : test) (covers_ : option test) (t : tree) : tree :=
  let c := node_cell h path in
  if definitely (separated c) then t
  else if holds covers_ c then make_leaf TRUE t
  else if is_enabled t then t
  else match n with
       | S n' => match split t with
                 | Nd m l r => Nd m (outer_node n' h (path ++ [false]) separated covers_ l)
                                    (outer_node n' h (path ++ [true]) separated covers_ r)
                 | Lf _ => t (* not reached *)
                 end
       | O => if is_leaf t then Lf TRUE (* set_enabled *) else make_leaf TRUE t
       end.
(** cpp:2326-2357, the set is overt but not open. *)
Fixpoint lower_overt_node (n h : nat) (path : word) (overlaps : test) (t : tree) : tree :=
  if definitely (overlaps (node_cell h path)) then
    match n with
    | O => if has_enabled t then t else make_leaf TRUE t
    | S n' => match split t with
              | Nd m l r => Nd m (lower_overt_node n' h (path ++ [false]) overlaps l)
                                 (lower_overt_node n' h (path ++ [true]) overlaps r)
              | Lf _ => t (* not reached *)
              end
    end
  else t.
(** cpp:2359-2393, the set is open. *)
Fixpoint lower_open_node (n h : nat) (path : word) (covers_ overlaps : test) (t : tree) : tree :=
  if definitely (covers_ (node_cell h path)) then mince n (make_leaf TRUE t)
  else if definitely (overlaps (node_cell h path)) then
    match n with
    | O => if is_leaf t then Lf TRUE (* set_enabled *) else t
    | S n' => match split t with
              | Nd m l r => Nd m (lower_open_node n' h (path ++ [false]) covers_ overlaps l)
                                 (lower_open_node n' h (path ++ [true]) covers_ overlaps r)
              | Lf _ => t (* not reached *)
              end
    end
  else t.
(** cpp:2527-2572. *)
Fixpoint inner_node (n h : nat) (path : word) (covers_ : test) (separated : option test) (t : tree) : tree :=
  let c := node_cell h path in
  if is_enabled t then t
  else if definitely (covers_ c) then make_leaf TRUE t
  else match separated with
       | Some sep =>
           if definitely (sep c) then t
           else match n with
                | O => t
                | S n' => match split t with
                          | Nd m l r => Nd m (inner_node n' h (path ++ [false]) covers_ separated l)
                                             (inner_node n' h (path ++ [true]) covers_ separated r)
                          | Lf _ => t (* not reached *)
                          end
                end
       | None => t
       end.

(** cpp:2411-2474. The bounding box is given in lattice coordinates: the division of the
    bounds by the grid lengths (cpp:200-215) is not modelled. *)
Definition adjoin_outer (d : nat) (separated : test) (covers_ : option test) (bounding : box) (n : nat) (p : paving) : outcome paving :=
  match smallest_enclosing_primary_cell_extent d bounding with
  | Some (Ret e) => align_with d (e + d) true false
                      (outer_node (tree_subdivisions d n (e + d) 0) (e + d) [] separated covers_) p
  | _ => UB
  end.
(** cpp:2482-2510 with the given extent. *)
Definition adjoin_lower_overt (d : nat) (overlaps : test) (h n : nat) (p : paving) : outcome paving :=
  align_with d h true false (lower_overt_node (tree_subdivisions d n h 0) h [] overlaps) p.
Definition adjoin_lower_open (d : nat) (covers_ overlaps : test) (h n : nat) (p : paving) : outcome paving :=
  align_with d h true false (lower_open_node (tree_subdivisions d n h 0) h [] covers_ overlaps) p.
(** cpp:2574-2596. *)
Definition adjoin_inner (d : nat) (covers_ : test) (separated : option test) (h n : nat) (p : paving) : outcome paving :=
  align_with d h true false (inner_node (tree_subdivisions d n h 0) h [] covers_ separated) p.
