(** Model of [BinaryTreeNode] (source/geometry/binary_tree.hpp, binary_tree.cpp).

    A node owns its children, so a tree of pointers is an inductive tree and
    in-place modification returns the new tree. Copies (copy constructor hpp:289-296,
    copy_from hpp:374-382, operator= hpp:432-445) are deep, hence the identity.
    A node either has both children or none (hpp:69-73); nothing in the class creates
    a node with one child. Memory management is not modelled, except that [set] is
    undefined on non-leaves. Depths and sizes are unbounded (the code uses 32-bit
    [Nat]). *)
From Coq Require Import List Bool Arith.
From Verif Require Import Logical_Model Word_Model.
Import ListNotations.

(** binary_tree.hpp:65-75. The mark is the [ValidatedKleenean _isEnabled]. *)
Inductive tree := Lf (m : lv) | Nd (m : lv) (l r : tree).

Definition mark (t : tree) : lv := match t with Lf m => m | Nd m _ _ => m end.
(** hpp:332-342. *)
Definition is_enabled (t : tree) : bool := definitely (mark t).
Definition is_disabled (t : tree) : bool := negb (possibly (mark t)).
Definition is_leaf (t : tree) : bool := match t with Lf _ => true | Nd _ _ _ => false end.

(** hpp:406-412, with set_unknown hpp:392-398. *)
Definition split (t : tree) : tree :=
  match t with Lf m => Nd INDET (Lf m) (Lf m) | Nd _ _ _ => t end.
(** hpp:400-404. *)
Definition make_leaf (m : lv) (t : tree) : tree := Lf m.
(** hpp:366-372; [None] is the NotALeafNodeException. *)
Definition set_enabled (t : tree) : option tree :=
  match t with Lf _ => Some (Lf TRUE) | Nd _ _ _ => None end.
(** hpp:356-364: deletes the children but keeps the pointers to them, so on a
    non-leaf the node is left dangling: [None] stands for undefined. *)
Definition set (b : bool) (t : tree) : option tree :=
  match t with Lf _ => Some (Lf (make_lv b)) | Nd _ _ _ => None end.

(** cpp:42-48 and 50-56. *)
Fixpoint has_enabled (t : tree) : bool :=
  match t with Lf m => definitely m | Nd _ l r => has_enabled l || has_enabled r end.
Fixpoint all_enabled (t : tree) : bool :=
  match t with Lf m => definitely m | Nd _ l r => all_enabled l && all_enabled r end.

(** cpp:58-85; [position] is the part of the path already followed. *)
Fixpoint is_enabled_path (t : tree) (path : word) : bool :=
  match t with
  | Lf m => definitely m
  | Nd _ l r => match path with
                | b :: path' => if b then is_enabled_path r path' else is_enabled_path l path'
                | [] => all_enabled t
                end
  end.

(** cpp:87-112. *)
Fixpoint tree_equal (t u : tree) : bool :=
  (definitely (lv_eq (mark t) (mark u))
   || (negb (is_determinate (mark t)) && negb (is_determinate (mark u))))
  && match t, u with
     | Lf _, Lf _ => true
     | Nd _ l r, Nd _ l' r' => tree_equal l l' && tree_equal r r'
     | _, _ => false
     end.

(** cpp:114-145. *)
Fixpoint restrict (t o : tree) : tree :=
  match t, o with
  | Lf m, Lf mo => Lf (lv_and m mo)
  | Nd _ _ _, Lf mo => if definitely mo then t else make_leaf FALSE t
  | Lf m, Nd _ _ _ => if definitely m then o else t
  | Nd m l r, Nd _ ol or => Nd m (restrict l ol) (restrict r or)
  end.

(** cpp:147-186; recursion is on the other node since [t] may be split on the way. *)
Fixpoint remove (t o : tree) : tree :=
  match o with
  | Lf mo => match t with
             | Lf m => if definitely m && definitely mo then Lf FALSE else t
             | Nd _ _ _ => if definitely mo then make_leaf FALSE t else t
             end
  | Nd _ ol or =>
      match t with
      | Lf m => if definitely m then
                  match split t with
                  | Nd m' l r => Nd m' (remove l ol) (remove r or)
                  | Lf _ => t (* not reached: split never returns a leaf *)
                  end
                else t
      | Nd m l r => Nd m (remove l ol) (remove r or)
      end
  end.

(** cpp:210-229. *)
Fixpoint mince (depth : nat) (t : tree) : tree :=
  match depth with
  | O => t
  | S d => if is_disabled t then t
           else match split t with
                | Nd m l r => Nd m (mince d l) (mince d r)
                | Lf _ => t (* not reached *)
                end
  end.

(** cpp:231-254. *)
Fixpoint recombine (t : tree) : tree :=
  match t with
  | Lf _ => t
  | Nd m l r =>
      let l' := recombine l in
      let r' := recombine r in
      match l', r' with
      | Lf a, Lf b => if definitely (lv_eq a b) then make_leaf a (Nd m l' r') else Nd m l' r'
      | _, _ => Nd m l' r'
      end
  end.

(** cpp:256-270 and 272-279. *)
Fixpoint depth (t : tree) : nat :=
  match t with Lf _ => 0 | Nd _ l r => Nat.max (depth l) (depth r) + 1 end.
Fixpoint count_enabled (t : tree) : nat :=
  match t with Lf m => if definitely m then 1 else 0 | Nd _ l r => count_enabled l + count_enabled r end.

(** cpp:281-290: the two arrays are appended to. *)
Fixpoint to_words (t : tree) (acc : word * word) : word * word :=
  match t with
  | Lf m => (fst acc ++ [false], snd acc ++ [definitely m])
  | Nd _ l r => to_words r (to_words l (fst acc ++ [true], snd acc))
  end.

(** cpp:188-208. [ai] and [lc] are the reference parameters. Reading
    [theEnabledCells] out of range is undefined. Fuel bounds the recursion depth. *)
Inductive restored := ROk (t : tree) (ai lc : nat) | RUndefined | ROutOfFuel.
Definition set_mark (m : lv) (t : tree) : tree :=
  match t with Lf _ => Lf m | Nd _ l r => Nd m l r end.
Fixpoint restore_node (fuel : nat) (node : tree) (ai lc : nat) (T L : word) : restored :=
  match fuel with
  | O => ROutOfFuel
  | S f =>
    match nth_error T ai with
    | None => ROk node ai lc       (* arr_index >= size *)
    | Some true =>
        match split node with
        | Lf _ => RUndefined (* not reached *)
        | Nd m l r =>
            match restore_node f l (S ai) lc T L with
            | ROk l' ai1 lc1 =>
                match restore_node f r (S ai1) lc1 T L with
                | ROk r' ai2 lc2 => ROk (Nd m l' r') ai2 lc2
                | e => e
                end
            | e => e
            end
        end
    | Some false =>
        match nth_error L lc with
        | None => RUndefined
        | Some b => ROk (set_mark (make_lv b) node) ai (S lc)
        end
    end
  end.
(** The constructor from two arrays, hpp:298-312. The recursion always moves
    [arr_index] forward, so size+1 levels are enough. *)
Definition from_words (T L : word) : restored :=
  if Nat.ltb 0 (length T) && Nat.ltb 0 (length L)
  then restore_node (S (length T)) (Lf FALSE) 0 0 T L
  else ROk (Lf FALSE) 0 0.

(** add_enabled(to,from), cpp:311-350. *)
Fixpoint add_tree (t from : tree) : tree :=
  match t with
  | Lf m => if definitely m then t
            else match from with
                 | Lf mf => if definitely mf then Lf TRUE else t
                 | Nd _ fl fr => Nd INDET fl fr
                 end
  | Nd m l r => match from with
                | Lf mf => if definitely mf then make_leaf TRUE t else t
                | Nd _ fl fr => Nd m (add_tree l fl) (add_tree r fr)
                end
  end.

(** add_enabled(subtree,path), cpp:292-309: follow the path, splitting, until its end
    or an enabled node. *)
Fixpoint add_tree_at (t sub : tree) (path : word) : tree :=
  match path with
  | [] => if is_enabled t then t else add_tree t sub
  | b :: path' =>
      if is_enabled t then t
      else match split t with
           | Nd m l r => if b then Nd m l (add_tree_at r sub path') else Nd m (add_tree_at l sub path') r
           | Lf _ => t (* not reached *)
           end
  end.

(** add_enabled(root,path,position), cpp:352-377. *)
Fixpoint add_path (t : tree) (path : word) : tree :=
  match path with
  | [] => match t with Lf _ => Lf TRUE | Nd _ _ _ => make_leaf TRUE t end
  | b :: path' =>
      match t with
      | Lf m => if definitely m then t
                else match split t with
                     | Nd m' l r => if b then Nd m' l (add_path r path') else Nd m' (add_path l path') r
                     | Lf _ => t (* not reached *)
                     end
      | Nd m l r => if b then Nd m l (add_path r path') else Nd m (add_path l path') r
      end
  end.

(** cpp:379-401. For an empty path [size()-1] wraps around and the path is read out of
    range: [None]. *)
Fixpoint prepend_loop (path : word) (old : tree) : tree :=
  match path with
  | [] => old
  | b :: path' =>
      if b then Nd INDET (Lf FALSE) (prepend_loop path' old)
      else Nd INDET (prepend_loop path' old) (Lf FALSE)
  end.
Definition prepend_tree (path : word) (old : tree) : option tree :=
  match path with [] => None | _ => Some (prepend_loop path old) end.

(** cpp:403-432. *)
Fixpoint intersect (t u : tree) : bool :=
  match t, u with
  | Lf m, Lf n => definitely m && definitely n
  | Nd _ _ _, Lf n => definitely n && has_enabled t
  | Lf m, Nd _ _ _ => definitely m && has_enabled u
  | Nd _ l r, Nd _ l' r' => intersect l l' || intersect r r'
  end.

(** cpp:434-472. *)
Fixpoint subset (t u : tree) : bool :=
  match t, u with
  | Lf m, Lf n => negb (definitely m) || definitely n
  | Nd _ _ _, Lf n => definitely n || negb (has_enabled t)
  | Lf m, Nd _ _ _ => negb (definitely m) || all_enabled u
  | Nd _ l r, Nd _ l' r' => subset l l' && subset r r'
  end.
