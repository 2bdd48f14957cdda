(** Model of spaces of named variables and of points, boxes and constraint sets in named variables:
    source/symbolic/space.{hpp,cpp}, expression_set.{hpp,cpp}, valuation.hpp.
    A variable is a natural number which stands for its name (variables of one type are compared by name).  Intervals and values are of
    any type; expressions are functions of valuations together with the list of their arguments. *)
From Coq Require Import List Bool Arith.
From Verif Require Import HybridPaving_Model HybridSet_Model.
Import ListNotations.

(** space.hpp:107: _variables *)
Definition space := list nat.
(** space.cpp:99-102: contains. *)
Fixpoint contains (s : space) (v : nat) : bool := match s with [] => false | u :: s' => if Nat.eqb v u then true else contains s' v end.
(** space.cpp:103-106: contains for a set of variables. *)
Fixpoint contains_all (s : space) (vs : list nat) : bool := match vs with [] => true | v :: vs' => if negb (contains s v) then false else contains_all s vs' end.
(** space.cpp:111-120: index.  None is the failed assertion. *)
Fixpoint index_from (i : nat) (s : space) (v : nat) : option nat := match s with [] => None | u :: s' => if Nat.eqb v u then Some i else index_from (S i) s' v end.
Definition index (s : space) (v : nat) : option nat := index_from 0 s v.
(** space.cpp:121-124: insert. *)
Definition insert_variable (s : space) (v : nat) : space := if contains s v then s else s ++ [v].
(** space.cpp:126-129: adjoin, and space.hpp:112-113: join. *)
Definition adjoin (s t : space) : space := fold_left insert_variable t s.
(** space.cpp:131-136: append.  None is the failed assertion. *)
Definition append (s : space) (v : nat) : option space := if contains s v then None else Some (s ++ [v]).
(** space.cpp:43-59: the constructors from a list. *)
Fixpoint append_all (s : space) (vs : list nat) : option space := match vs with [] => Some s | v :: vs' => match append s v with None => None | Some s' => append_all s' vs' end end.
Definition make_space (vs : list nat) : option space := append_all [] vs.
(** space.cpp:73, 76: operator[], variable.  None is the exception of at(). *)
Definition variable (s : space) (i : nat) : option nat := nth_error s i.
(** space.cpp:82-97: indices_from_names, indices.  None is the failed assertion. *)
Fixpoint indices_from (i : nat) (s : space) (m : list (nat * nat)) : option (list (nat * nat)) :=
  match s with [] => Some m | v :: s' => if has_key v m then None else indices_from (S i) s' (insert v i m) end.
Definition indices (s : space) : option (list (nat * nat)) := indices_from 0 s [].

Section BOX.
  Variable I : Type.
  (** expression_set.hpp:242: _bnds of VariablesBox; also _vals of VariablesPoint and the bounds of a bounded constraint set *)
  Definition vbox := list (nat * I).
  (** expression_set.hpp:254-256 and 60-69 of expression_set.cpp: the constructor from a list of bounds, make_key_value_map. *)
  Definition of_bounds (l : list (nat * I)) : vbox := fold_left (fun m e => insert (fst e) (snd e) m) l [].
  (** expression_set.cpp:47-58: unique_keys. *)
  Fixpoint unique_keys_from (seen : list nat) (l : list (nat * I)) : bool :=
    match l with [] => true | e :: l' => if existsb (Nat.eqb (fst e)) seen then false else unique_keys_from (fst e :: seen) l' end.
  Definition unique_keys (l : list (nat * I)) : bool := unique_keys_from [] l.
  (** expression_set.hpp:228-233, 267-272: VariablesPoint(spc,pt), VariablesBox(spc,bx).  None is the failed precondition. *)
  Definition named (s : space) (bx : list I) : option vbox := if Nat.eqb (length s) (length bx) then Some (of_bounds (combine s bx)) else None.
  (** expression_set.hpp:220-222, 259-260: euclidean_set(spc).  None is the failed assertion. *)
  Fixpoint euclidean (b : vbox) (s : space) : option (list I) :=
    match s with [] => Some [] | v :: s' => match find v b, euclidean b s' with Some i, Some r => Some (i :: r) | _, _ => None end end.
  (** expression_set.hpp:328-341: LabelledSet for boxes and points: euclidean_set(vars), with project (box.tpl.hpp:187-194).  None is the failed
      assertion of index, or a coordinate out of range (not possible, as the dimensions agree). *)
  Record labelled := { l_space : space; l_box : list I }.
  Fixpoint euclidean_labelled (l : labelled) (vars : space) : option (list I) :=
    match vars with
    | [] => Some []
    | v :: vars' =>
        match index (l_space l) v with
        | None => None
        | Some k => match nth_error (l_box l) k, euclidean_labelled l vars' with Some i, Some r => Some (i :: r) | _, _ => None end
        end
    end.
  (** expression_set.hpp:332: the constructor *)
  Definition label (s : space) (bx : list I) : option labelled := if Nat.eqb (length s) (length bx) then Some {| l_space := s; l_box := bx |} else None.
  (** expression_set.hpp:372-380: the conversion to LabelledSet: the variables in the order of the map. *)
  Definition to_labelled (b : vbox) : option labelled :=
    match make_space (map fst b) with None => None | Some s => match euclidean b s with None => None | Some bx => label s bx end end.
  (** expression_set.hpp:382-383: the conversion from LabelledSet *)
  Definition of_labelled (l : labelled) : option vbox := named (l_space l) (l_box l).
  (** expression_set.hpp:362-366: operator==; the sets of variables are compared first.  None is the failed assertion. *)
  Variable same : list I -> list I -> bool.
  Definition equal (l m : labelled) : option bool :=
    if negb (contains_all (l_space l) (l_space m) && contains_all (l_space m) (l_space l)) then Some false
    else if list_eq_dec Nat.eq_dec (l_space l) (l_space m) then Some (same (l_box l) (l_box m)) else None.
End BOX.

(** valuation.hpp *)
Section VALUATION.
  Variable X : Type.
  (** valuation.hpp:84: insert (std::map::insert); 85-86: set; 87-88, 91: get, operator[] const.  None is the failed assertion. *)
  Definition v_insert (m : list (nat * X)) (v : nat) (x : X) : list (nat * X) := insert v x m.
  Fixpoint v_set (m : list (nat * X)) (v : nat) (x : X) : list (nat * X) :=
    match m with [] => [(v, x)] | (u, y) :: m' => if Nat.eqb v u then (u, x) :: m' else if Nat.ltb v u then (v, x) :: m else (u, y) :: v_set m' v x end.
  Definition v_get (m : list (nat * X)) (v : nat) : option X := find v m.
  (** valuation.hpp:80-81: Valuation(ary,spc).  None is the exception of spc[i]. *)
  Fixpoint of_array_from (i : nat) (ary : list X) (s : space) (m : list (nat * X)) : option (list (nat * X)) :=
    match ary with [] => Some m | x :: ary' => match variable s i with None => None | Some v => of_array_from (S i) ary' s (v_insert m v x) end end.
  Definition of_array (ary : list X) (s : space) : option (list (nat * X)) := of_array_from 0 ary s [].
End VALUATION.

(** constraint sets in named variables *)
Section CONSTRAINTS.
  Variables (I X : Type) (dflt : X).
  (** a constraint: its arguments, and whether its indicator is at most zero (expression_set.cpp:150, 227; the indicator is the
      subject of C46) *)
  Record constraint := { c_args : list nat; c_holds : (nat -> X) -> bool }.
  (** function.cpp:348-349: make_function(spc,expr): the variable v is the coordinate index(v).  A variable not in the space fails an assertion of index, which the
      callers exclude; [dflt] stands for it. *)
  Definition make_function (s : space) (c : constraint) (x : list X) : bool :=
    c_holds c (fun v => match index s v with Some i => nth i x dflt | None => dflt end).
  Definition arguments (cs : list constraint) : list nat := flat_map c_args cs.
  (** expression_set.cpp:145-155: RealExpressionConstraintSet::euclidean_set: the functions which have to be at most zero. *)
  Definition constraint_set (cs : list constraint) (s : space) : option (list (list X -> bool)) :=
    if contains_all s (arguments cs) then Some (map (make_function s) cs) else None.
  (** expression_set.cpp:189-205: the constructors of RealExpressionBoundedConstraintSet from a list of bounds and from a map.  None is a failed assertion. *)
  Definition bounded_of_map (b : vbox I) (cs : list constraint) : option (vbox I * list constraint) :=
    if contains_all (map fst b) (arguments cs) then Some (b, cs) else None.
  Definition bounded_of_list (l : list (nat * I)) (cs : list constraint) : option (vbox I * list constraint) :=
    match bounded_of_map (of_bounds I l) cs with None => None | Some r => if unique_keys I l then Some r else None end.
  (** expression_set.cpp:218-229: RealExpressionBoundedConstraintSet::euclidean_set: the box and the functions. *)
  Definition bounded_set (b : vbox I) (cs : list constraint) (s : space) : option (list I * list (list X -> bool)) :=
    if contains_all (map fst b) s && contains_all s (map fst b)
    then match euclidean I b s with None => None | Some bx => Some (bx, map (make_function s) cs) end else None.
End CONSTRAINTS.
