(** Model of [GridTreeSubpaving] and [GridTreePaving] (source/geometry/grid_paving.cpp,
    grid_paving.hpp).

    All sets and cells are on one grid of dimension [d]; the assertions that grids are
    equal are not modelled. A subpaving is a root cell (extent and word) and the tree
    below it; a paving has the empty word. Trees are values: the code's sub-pavings alias
    the nodes of a paving, and the argument of adjoin/restrict/remove is taken to be a
    different object from the paving modified. *)
From Coq Require Import List Bool Arith ZArith QArith.
From Verif Require Import LRU_Model Logical_Model Word_Model Tree_Model Cell_Model.
Import ListNotations.
Local Open Scope nat_scope.

Record subpaving := { s_ext : nat; s_word : word; s_tree : tree }.
Record paving := { p_ext : nat; p_tree : tree }.
Definition as_sub (p : paving) : subpaving := {| s_ext := p_ext p; s_word := []; s_tree := p_tree p |}.
Definition root_cell (s : subpaving) : cell := {| c_ext := s_ext s; c_word := s_word s |}.

(** cpp:2095-2105 (constructors from a grid and a flag, and from extent and node). *)
Definition make_paving (enable : bool) : paving := {| p_ext := 0; p_tree := Lf (make_lv enable) |}.
Definition empty_at (h : nat) : paving := {| p_ext := h; p_tree := Lf FALSE |}.
(** clear, cpp:2740-2744. *)
Definition clear (p : paving) : paving := make_paving false.

(** cpp:2163-2174; [prepend_tree] is undefined on an empty path. *)
Definition up_to_primary_cell (d to : nat) (p : paving) : outcome paving :=
  match prepend_tree (primary_cell_path d to (p_ext p)) (p_tree p) with
  | Some t => Ret {| p_ext := to; p_tree := t |}
  | None => UB
  end.

(** align_with_cell, cpp:2176-2211, together with what its callers do with the node it
    returns: [f] is applied to the node unless [has_stopped]. *)
Fixpoint align_loop (path : word) (stop_on_enabled stop_on_disabled : bool) (f : tree -> tree) (t : tree) : tree :=
  match path with
  | [] => f t
  | b :: path' =>
      if (is_enabled t && stop_on_enabled) || (is_disabled t && stop_on_disabled) then t
      else match split t with
           | Nd m l r => if b then Nd m l (align_loop path' stop_on_enabled stop_on_disabled f r)
                         else Nd m (align_loop path' stop_on_enabled stop_on_disabled f l) r
           | Lf _ => t (* not reached *)
           end
  end.
Definition align_with (d ext : nat) (stop_on_enabled stop_on_disabled : bool) (f : tree -> tree) (p : paving) : outcome paving :=
  if ext <? p_ext p
  then Ret {| p_ext := p_ext p;
              p_tree := align_loop (primary_cell_path d (p_ext p) ext) stop_on_enabled stop_on_disabled f (p_tree p) |}
  else if p_ext p <? ext
       then obind (up_to_primary_cell d ext p) (fun q => Ret {| p_ext := p_ext q; p_tree := f (p_tree q) |})
       else Ret {| p_ext := p_ext p; p_tree := f (p_tree p) |}.

(** cpp:2050-2061 and _adjoin_cell cpp:2213-2220. *)
Definition adjoin_cell (d : nat) (c : cell) (p : paving) : outcome paving :=
  align_with d (c_ext c) true false (fun t => add_path t (c_word c)) p.
(** cpp:2063-2077. *)
Definition adjoin (d : nat) (s : subpaving) (p : paving) : outcome paving :=
  align_with d (s_ext s) true false (fun t => add_tree_at t (s_tree s) (s_word s)) p.
(** cpp:2106-2109. *)
Definition paving_of_cell (d : nat) (c : cell) : outcome paving := adjoin_cell d c (empty_at (c_ext c)).

(** restrict_to_lower, cpp:2626-2691; the loop 2643-2673, then 2674-2690. *)
Fixpoint restrict_down (path : word) (other t : tree) : tree :=
  match path with
  | [] => if is_enabled t then other          (* copy_from *)
          else if is_disabled t then t else restrict t other
  | b :: path' =>
      if is_leaf t && is_disabled t then t
      else match split t with
           | Nd m l r => if b then Nd m (make_leaf FALSE l) (restrict_down path' other r)
                         else Nd m (restrict_down path' other l) (make_leaf FALSE r)
           | Lf _ => t (* not reached *)
           end
  end.
Definition restrict_to_lower (d : nat) (s : subpaving) (p : paving) : paving :=
  {| p_ext := p_ext p;
     p_tree := restrict_down (append_word (primary_cell_path d (p_ext p) (s_ext s)) (s_word s)) (s_tree s) (p_tree p) |}.
(** remove_from_lower, cpp:2693-2738. *)
Fixpoint remove_down (path : word) (other t : tree) : tree :=
  match path with
  | [] => if is_disabled t then t else remove t other
  | b :: path' =>
      if is_leaf t && is_disabled t then t
      else match split t with
           | Nd m l r => if b then Nd m l (remove_down path' other r) else Nd m (remove_down path' other l) r
           | Lf _ => t (* not reached *)
           end
  end.
Definition remove_from_lower (d : nat) (s : subpaving) (p : paving) : paving :=
  {| p_ext := p_ext p;
     p_tree := remove_down (append_word (primary_cell_path d (p_ext p) (s_ext s)) (s_word s)) (s_tree s) (p_tree p) |}.
(** cpp:2747-2762 and 2812-2827. *)
Definition restrict_paving (d : nat) (s : subpaving) (p : paving) : outcome paving :=
  obind (if p_ext p <? s_ext s then up_to_primary_cell d (s_ext s) p else Ret p)
        (fun q => Ret (restrict_to_lower d s q)).
Definition remove_paving (d : nat) (s : subpaving) (p : paving) : outcome paving :=
  obind (if p_ext p <? s_ext s then up_to_primary_cell d (s_ext s) p else Ret p)
        (fun q => Ret (remove_from_lower d s q)).

(** remove(cell), cpp:2764-2810. The first loop follows the path to a leaf; an enabled
    leaf is split along the rest of the path (second loop). *)
Fixpoint disable_at (path : word) (t : tree) : tree :=
  match path with
  | [] => Lf FALSE                             (* set_disabled on a leaf *)
  | b :: path' => match split t with
                  | Nd m l r => if b then Nd m l (disable_at path' r) else Nd m (disable_at path' l) r
                  | Lf _ => t (* not reached *)
                  end
  end.
Fixpoint remove_path (path : word) (t : tree) : tree :=
  match t with
  | Lf m => if is_enabled t then disable_at path t else t
  | Nd m l r => match path with
                | [] => make_leaf FALSE t
                | b :: path' => if b then Nd m l (remove_path path' r) else Nd m (remove_path path' l) r
                end
  end.
Definition remove_cell (d : nat) (c : cell) (p : paving) : outcome paving :=
  align_with d (c_ext c) false true (remove_path (c_word c)) p.

(** restrict_to_extent, cpp:2829-2864. *)
Fixpoint keep_path (path : word) (t : tree) : tree :=
  match path with
  | [] => t
  | b :: path' =>
      if is_leaf t && negb (is_enabled t) then t
      else match split t with
           | Nd m l r => if b then Nd m (make_leaf FALSE l) (keep_path path' r)
                         else Nd m (keep_path path' l) (make_leaf FALSE r)
           | Lf _ => t (* not reached *)
           end
  end.
Definition restrict_to_extent (d h : nat) (p : paving) : paving :=
  if h <? p_ext p
  then {| p_ext := p_ext p; p_tree := keep_path (primary_cell_path d (p_ext p) h) (p_tree p) |}
  else p.

(** join, intersection, difference: cpp:2919-2979. *)
Definition max_ext (a b : subpaving) : nat := if s_ext a <? s_ext b then s_ext b else s_ext a.
Definition join (d : nat) (a b : subpaving) : outcome paving :=
  obind (adjoin d a (empty_at (max_ext a b))) (adjoin d b).
Definition intersection (d : nat) (a b : subpaving) : outcome paving :=
  obind (adjoin d a (empty_at (max_ext a b))) (restrict_paving d b).
Definition difference (d : nat) (a b : subpaving) : outcome paving :=
  obind (adjoin d a (empty_at (max_ext a b))) (remove_paving d b).

(** mince, mince_to_depth, recombine: cpp:1111-1134, 1022. Integer arithmetic is exact
    (no wrap-around). *)
Definition tree_subdivisions (d n h len : nat) : nat := (h + n) * d - len.
Definition mince_sub (d n : nat) (s : subpaving) : subpaving :=
  {| s_ext := s_ext s; s_word := s_word s;
     s_tree := mince (tree_subdivisions d n (s_ext s) (length (s_word s))) (s_tree s) |}.
Definition mince_to_depth (d depth : nat) (s : subpaving) : subpaving :=
  {| s_ext := s_ext s; s_word := s_word s; s_tree := mince (s_ext s * d + depth - length (s_word s)) (s_tree s) |}.
Definition recombine_sub (s : subpaving) : subpaving :=
  {| s_ext := s_ext s; s_word := s_word s; s_tree := recombine (s_tree s) |}.
(** operator==, cpp:1030-1033. *)
Definition sub_equal (d : nat) (a b : subpaving) : bool :=
  cell_equal d (root_cell a) (root_cell b) && tree_equal (s_tree a) (s_tree b).
(** branch, cpp:1189-1194, with child_node (binary_tree.hpp:344-350): null on a leaf. *)
Definition branch (right : bool) (s : subpaving) : option subpaving :=
  match s_tree s with
  | Lf _ => None
  | Nd _ l r => Some {| s_ext := s_ext s; s_word := append_bit (s_word s) right; s_tree := if right then r else l |}
  end.
(** clone of a sub-paving, cpp:1183-1186: the node pointer converts to [Bool] and the call
    is the constructor cpp:2095-2097. The pointer is not null. *)
Definition clone_sub (s : subpaving) : paving := make_paving true.
(** clone of a paving, cpp:2152-2154, the copy constructor. *)
Definition clone_paving (p : paving) : paving := {| p_ext := p_ext p; p_tree := p_tree p |}.

(** ** Queries. [None]: out-of-range read in [is_prefix]. *)
(** subset(cell,set), cpp:1684-1707. *)
Definition cell_in_sub (d : nat) (c : cell) (s : subpaving) : option bool :=
  let (p1, p2) := aligned_paths d c (root_cell s) in
  match is_prefix p2 p1 with
  | None => None
  | Some true => Some (is_enabled_path (s_tree s) (skipn (length p2) p1))
  | Some false => Some false
  end.
(** locate_node, cpp:1816-1830. *)
Fixpoint locate_node (t : tree) (path : word) : tree :=
  match t with
  | Lf _ => t
  | Nd _ l r => match path with [] => t | b :: path' => locate_node (if b then r else l) path' end
  end.
(** intersect(cell,set), cpp:1709-1784; the loop 1757-1765 is [locate_node]. *)
Definition cell_meets_sub (d : nat) (c : cell) (s : subpaving) : option bool :=
  let wc := if c_ext c <? s_ext s
            then {| c_ext := s_ext s; c_word := append_word (primary_cell_path d (s_ext s) (c_ext c)) (c_word c) |}
            else c in
  let ps := append_word (primary_cell_path d (c_ext wc) (s_ext s)) (s_word s) in
  match is_prefix (c_word wc) ps with
  | None => None
  | Some true => Some (has_enabled (s_tree s))
  | Some false =>
      match is_prefix ps (c_word wc) with
      | None => None
      | Some true => Some (has_enabled (locate_node (s_tree s) (skipn (length ps) (c_word wc))))
      | Some false => Some false
      end
  end.
(** common_primary_cell_path, cpp:1792-1812. *)
Definition common_paths (d : nat) (a b : subpaving) : word * word :=
  if s_ext a <? s_ext b
  then (append_word (primary_cell_path d (s_ext b) (s_ext a)) (s_word a), s_word b)
  else (s_word a, append_word (primary_cell_path d (s_ext a) (s_ext b)) (s_word b)).
(** subset(sub,super,path), cpp:1836-1865: is [sub], hung below [path], a subset of [super]? *)
Definition subset_below (sub super : tree) (path : word) : bool :=
  if has_enabled sub then
    if has_enabled super then
      let n := locate_node super path in
      if is_leaf n then is_enabled n else subset sub n
    else false
  else true.
(** subset(super,path,sub), cpp:1872-1933: is [super] a subset of [sub] hung below [path]? *)
Fixpoint subset_above (super : tree) (path : word) (sub : tree) {struct path} : bool :=
  match path with
  | [] => if is_leaf super then (if is_enabled super then subset super sub else true) else subset super sub
  | b :: path' =>
      match super with
      | Lf _ => negb (is_enabled super)     (* leaf before the end of the path *)
      | Nd _ l r => if b then (if has_enabled l then false else subset_above r path' sub)
                    else (if has_enabled r then false else subset_above l path' sub)
      end
  end.
(** cpp:1935-1974. *)
Definition sub_subset (d : nat) (a b : subpaving) : option bool :=
  let (p1, p2) := common_paths d a b in
  match is_prefix p1 p2 with
  | None => None
  | Some true => Some (subset_above (s_tree a) (erase_prefix (Z.of_nat (length p1)) p2) (s_tree b))
  | Some false =>
      match is_prefix p2 p1 with
      | None => None
      | Some true => Some (subset_below (s_tree a) (s_tree b) (erase_prefix (Z.of_nat (length p2)) p1))
      | Some false => Some false
      end
  end.
(** intersect(super,path,sub), cpp:1980-2001. *)
Definition meets_below (super : tree) (path : word) (sub : tree) : bool :=
  if has_enabled super && has_enabled sub then
    let n := locate_node super path in
    if is_leaf n then is_enabled n else intersect n sub
  else false.
(** cpp:2003-2035. *)
Definition sub_intersect (d : nat) (a b : subpaving) : option bool :=
  let (p1, p2) := common_paths d a b in
  match is_prefix p1 p2 with
  | None => None
  | Some true => Some (meets_below (s_tree a) (erase_prefix (Z.of_nat (length p1)) p2) (s_tree b))
  | Some false =>
      match is_prefix p2 p1 with
      | None => None
      | Some true => Some (meets_below (s_tree b) (erase_prefix (Z.of_nat (length p2)) p1) (s_tree a))
      | Some false => Some false
      end
  end.

(** ** Iteration. A cursor (cpp:690-870) is the reversed path from the root node to the
    current node; its stack of node pointers is the sequence of nodes on that path, and
    node pointers are compared by position. [None]: null node or NotAllowedMove. *)
Definition cursor := word.
Fixpoint node_at (t : tree) (path : word) {struct path} : option tree :=
  match path with
  | [] => Some t
  | b :: path' => match t with Lf _ => None | Nd _ l r => node_at (if b then r else l) path' end
  end.
Definition at_cursor (root : tree) (c : cursor) : option tree := node_at root (rev c).
Definition is_root (c : cursor) : bool := match c with [] => true | _ => false end.
Definition move_up (c : cursor) : option cursor := match c with [] => None | _ :: c' => Some c' end.
Definition move_down (root : tree) (right : bool) (c : cursor) : option cursor :=
  match at_cursor root c with Some (Nd _ _ _) => Some (right :: c) | _ => None end.
(** navigate_to, cpp:930-966. *)
Fixpoint navigate_to (fuel : nat) (root : tree) (first : bool) (c : cursor) : option (bool * cursor) :=
  match fuel with
  | O => None
  | S f =>
    match (match at_cursor root c with
           | None => None
           | Some (Lf m) => Some (definitely m, c)
           | Some (Nd _ _ _) =>
               match move_down root (negb first) c with
               | None => None
               | Some c1 =>
                   match navigate_to f root first c1 with
                   | None => None
                   | Some (true, c2) => Some (true, c2)
                   | Some (false, c2) =>
                       match move_down root first c2 with
                       | None => None
                       | Some c3 => navigate_to f root first c3
                       end
                   end
               end
           end) with
    | None => None
    | Some (found, c') =>
        if negb found && negb (is_root c')
        then match move_up c' with None => None | Some c'' => Some (found, c'') end
        else Some (found, c')
    end
  end.
(** find_next_enabled_leaf, cpp:904-928; the result is [Some None] in the end state. *)
Fixpoint find_next (fuel : nat) (root : tree) (c : cursor) : option (option cursor) :=
  match fuel with
  | O => None
  | S f =>
    match c with
    | false :: p =>                                (* is_left_child *)
        match move_down root true p with           (* move_up; move_right *)
        | None => None
        | Some c1 => match navigate_to f root true c1 with
                     | None => None
                     | Some (true, c2) => Some (Some c2)
                     | Some (false, c2) => find_next f root c2
                     end
        end
    | true :: p => find_next f root p              (* is_right_child; move_up *)
    | [] => Some None
    end
  end.
(** begin(), cpp:889-902 and 1136-1138. *)
Definition begin (fuel : nat) (root : tree) : option (option cursor) :=
  match navigate_to fuel root true [] with
  | None => None
  | Some (true, c) => Some (Some c)
  | Some (false, _) => Some None
  end.
(** for(iter=begin(); iter!=end(); ++iter): the words, relative to the root cell, visited.
    The end iterator is in the end state, so the loop stops in the end state. *)
Fixpoint visit (n fuel : nat) (root : tree) (c : option cursor) : option (list word) :=
  match c with
  | None => Some []
  | Some c =>
      match n with
      | O => None
      | S n' => match find_next fuel root c with
                | None => None
                | Some c' => match visit n' fuel root c' with None => None | Some ws => Some (rev c :: ws) end
                end
      end
  end.
Definition iterate (n fuel : nat) (root : tree) : option (list word) :=
  match begin fuel root with None => None | Some c => visit n fuel root c end.
(** The cells yielded by iterating a sub-paving, cpp:809-818. *)
Definition iterate_cells (n fuel : nat) (s : subpaving) : option (list cell) :=
  match iterate n fuel (s_tree s) with
  | None => None
  | Some ws => Some (map (fun w => {| c_ext := s_ext s; c_word := s_word s ++ w |}) ws)
  end.
(** size(), cpp:1010-1012. *)
Definition sub_size (s : subpaving) : nat := count_enabled (s_tree s).
