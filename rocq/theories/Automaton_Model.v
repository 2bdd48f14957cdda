(** Model of discrete locations, hybrid automata and their composition.

    Sources (paths relative to /repo/source):
    - hybrid/discrete_location.hpp, hybrid/discrete_location.cpp
    - hybrid/hybrid_automaton.hpp, hybrid/hybrid_automaton.cpp
    - hybrid/hybrid_automaton-composite.hpp, hybrid/hybrid_automaton-composite.cpp
    - utility/container.hpp (Map, Set), symbolic/space.cpp, function/function.cpp

    Simplifications, valid for the whole file:
    - Names of discrete variables, their values, events and real variables are numbers.
    - A [Map] is a list of pairs sorted by key, a [Set] a sorted list; the comparison of keys
      is a parameter.
    - Expressions and predicates are those of Expr_Model.v.
    - A function made from expressions is the list of the variables of its argument space and
      the list of its component expressions; [Formula] is not modelled separately (C47 treats
      compilation).
    - The messages of exceptions are dropped; [None] is any exception, unless the type of the
      exception matters, where it is an [err].
    - The name of an automaton only matters in the check of a composition, which has the list
      of the names of the components as an argument.
    - What is computed for logging only is dropped. *)
From Coq Require Import List Bool Arith.
From Verif Require Import Logical_Model Expr_Model LRU_Model.
Import ListNotations.

(** ** Map and Set: utility/container.hpp *)
Section MAP.
  Context {K V : Type} (lt : K -> K -> bool).
  (** container.hpp:222-225: [std::map::insert] does not replace an element *)
  Fixpoint minsert (k : K) (v : V) (m : list (K * V)) : list (K * V) :=
    match m with
    | [] => [(k, v)]
    | (k', v') :: m' => if lt k k' then (k, v) :: m else if lt k' k then (k', v') :: minsert k v m' else m
    end.
  (** container.hpp:208: [m[k]=v] does *)
  Fixpoint mset (k : K) (v : V) (m : list (K * V)) : list (K * V) :=
    match m with
    | [] => [(k, v)]
    | (k', v') :: m' => if lt k k' then (k, v) :: m else if lt k' k then (k', v') :: mset k v m' else (k', v) :: m'
    end.
  (** container.hpp:209-220: [find], [has_key], [get], [value]; keys are equal when neither is less *)
  Fixpoint mfind (k : K) (m : list (K * V)) : option V :=
    match m with
    | [] => None
    | (k', v') :: m' => if lt k k' || lt k' k then mfind k m' else Some v'
    end.
  Definition mhas (k : K) (m : list (K * V)) : bool := match mfind k m with Some _ => true | None => false end.
  (** container.hpp:226-227 *)
  Definition adjoin (m m2 : list (K * V)) : list (K * V) := fold_left (fun m kv => minsert (fst kv) (snd kv) m) m2 m.
  (** Applying a change to the value of a key, as through the reference returned by [value]. *)
  Fixpoint mupdate (k : K) (f : V -> V) (m : list (K * V)) : list (K * V) :=
    match m with
    | [] => []
    | (k', v') :: m' => if lt k k' || lt k' k then (k', v') :: mupdate k f m' else (k', f v') :: m'
    end.
End MAP.
Section SET.
  Context {K : Type} (lt : K -> K -> bool).
  Fixpoint sinsert (k : K) (s : list K) : list K :=
    match s with
    | [] => [k]
    | k' :: s' => if lt k k' then k :: s else if lt k' k then k' :: sinsert k s' else s
    end.
  Definition smem (k : K) (s : list K) : bool := existsb (fun k' => negb (lt k k') && negb (lt k' k)) s.
  Definition sadjoin (s t : list K) : list K := fold_left (fun s k => sinsert k s) t s.
End SET.

Notation nmap V := (list (nat * V)).
Definition ninsert {V} := @minsert nat V Nat.ltb.
Definition nset {V} := @mset nat V Nat.ltb.
Definition nfind {V} := @mfind nat V Nat.ltb.
Definition nhas {V} := @mhas nat V Nat.ltb.
Definition nkeys {V} (m : nmap V) : list nat := map fst m.
(** container.hpp:148-175 on sets of numbers, where only membership matters *)
Definition subset (s t : list nat) : bool := forallb (fun v => mem v t) s.
(** container.hpp:252-257 [unique_elements], hybrid_automaton-composite.cpp:552-563 [unique] *)
Fixpoint unique (l : list nat) : bool := match l with [] => true | v :: r => negb (mem v r) && unique r end.

(** ** Locations: hybrid/discrete_location.cpp *)
Definition loc := nmap nat.
(** discrete_location.cpp:37-58: [operator==]; [None] is the IndistinguishableLocationsError *)
Fixpoint loc_eq_go (q1 : loc) : loc -> bool -> option bool :=
  fix go (q2 : loc) (identical : bool) {struct q2} : option bool :=
    match q1, q2 with
    | [], [] => if identical then Some true else None
    | [], _ :: _ => None
    | _ :: _, [] => None
    | (k1, v1) :: r1, (k2, v2) :: r2 =>
        if Nat.eqb k1 k2 then if Nat.eqb v1 v2 then loc_eq_go r1 r2 identical else Some false
        else if Nat.ltb k1 k2 then loc_eq_go r1 q2 false else go r2 false
    end.
Definition loc_eq (q1 q2 : loc) : option bool := loc_eq_go q1 q2 true.
(** discrete_location.cpp:64-80: [operator<] *)
Fixpoint loc_lt (q1 q2 : loc) : bool :=
  match q1, q2 with
  | (k1, v1) :: r1, (k2, v2) :: r2 =>
      if negb (Nat.eqb k1 k2) then Nat.ltb k1 k2 else if negb (Nat.eqb v1 v2) then Nat.ltb v1 v2 else loc_lt r1 r2
  | _, [] => false
  | [], _ :: _ => true
  end.
(** discrete_location.cpp:82-89 *)
Definition are_distinguishable (q1 q2 : loc) : bool :=
  existsb (fun kv => match nfind (fst kv) q2 with Some v => negb (Nat.eqb v (snd kv)) | None => false end) q1.
(** discrete_location.cpp:91-93: [std::map] equality, element by element *)
Fixpoint are_same (q1 q2 : loc) : bool :=
  match q1, q2 with
  | [], [] => true
  | (k1, v1) :: r1, (k2, v2) :: r2 => Nat.eqb k1 k2 && Nat.eqb v1 v2 && are_same r1 r2
  | _, _ => false
  end.
(** discrete_location.cpp:95-102 *)
Definition is_restriction (part full : loc) : bool :=
  forallb (fun kv => match nfind (fst kv) full with Some v => Nat.eqb v (snd kv) | None => false end) part.
(** discrete_location.cpp:104-107, container.hpp:240-244; [None] is the failed assertion *)
Definition restrict_loc (q : loc) (vars : list nat) : option loc :=
  if subset (nkeys q) vars then Some (filter (fun kv => mem (fst kv) vars) q) else None.
(** discrete_location.cpp:30-32, discrete_location.hpp:53 *)
Definition join_loc (q1 q2 : loc) : loc := adjoin Nat.ltb q1 q2.

Section AUTOMATON.
Context {C : RealConst}.
Notation expr := (expr C).
Notation pred := (pred C).
Notation assignments := (list (nat * expr)).

(** hybrid_automaton_interface.hpp:51 *)
Inductive kind := INVARIANT | PROGRESS | PERMISSIVE | URGENT | IMPACT.

(** Arguments of a predicate: symbolic/templates.tpl.hpp:421-436 *)
Fixpoint pred_arguments (p : pred) : list nat :=
  match p with
  | KCst _ => [] | KVar _ => []
  | KNot q => pred_arguments q
  | KAnd q r | KOr q r => pred_arguments q ++ pred_arguments r
  | KSgn e => arguments e
  | KCmp _ a b => arguments a ++ arguments b
  end.

(** hybrid_automaton.hpp:136-166 *)
Record mode := mkMode {
  m_location : loc;
  m_auxiliary : assignments;
  m_sorted : assignments;
  m_dynamic : assignments;
  m_invariants : nmap pred;
  m_guards : nmap pred;
  m_kinds : nmap kind;
  m_targets : nmap loc;
  m_resets : nmap assignments }.
(** hybrid_automaton.hpp:239 *)
Definition automaton := list (loc * mode).

Inductive err := NonExistentMode | IndistinguishableMode | MultipleGuard | MultipleTransition | OverspecifiedReset
  | OverspecifiedDynamic | UnderspecifiedDynamic | UnderspecifiedConstraint | UnderspecifiedReset
  | SystemSpecification | AlgebraicLoop | MultipleUrgent | UrgentWithGuards | MissingGuard | AssertFailure.
Inductive result (A : Type) := Ok (a : A) | Throw (e : err).
Arguments Ok {A} _. Arguments Throw {A} _.

(** ** algebraic_sort: hybrid_automaton.cpp:179-223 *)
(** The first variable of the list with no dependencies left; [dependencies[name]] of a
    variable which has none is an empty set. *)
Fixpoint first_free (deps : nmap (list nat)) (l : list nat) : option nat :=
  match l with
  | [] => None
  | v :: r => match nfind v deps with None | Some [] => Some v | Some (_ :: _) => first_free deps r end
  end.
Fixpoint remove_first (v : nat) (l : list nat) : list nat :=
  match l with [] => [] | w :: r => if Nat.eqb w v then r else w :: remove_first v r end.
(** One turn of the loop removes one variable from [lhs_list], so the length of that list is
    enough [fuel]; returns what remains of the list with the sorted equations. *)
Fixpoint sort_loop (fuel : nat) (aux : assignments) (deps : nmap (list nat)) (lhs : list nat) (sorted : assignments) : list nat * assignments :=
  match fuel with
  | O => (lhs, sorted)
  | S fuel' =>
    match first_free deps lhs with
    | None => (lhs, sorted)
    | Some v =>
      let deps1 := map (fun d => (fst d, filter (fun w => negb (Nat.eqb w v)) (snd d))) deps in
      let sorted1 := match List.find (fun a => Nat.eqb (fst a) v) aux with Some a => sorted ++ [a] | None => sorted end in
      sort_loop fuel' aux (filter (fun d => negb (Nat.eqb (fst d) v)) deps1) (remove_first v lhs) sorted1
    end
  end.
Definition algebraic_sort (aux : assignments) : result assignments :=
  let lhs := map fst aux in
  let deps := fold_left (fun m a => ninsert (fst a) (filter (fun w => mem w lhs) (arguments (snd a))) m) aux [] in
  let (rest, sorted) := sort_loop (length lhs) aux deps lhs [] in
  match lhs with
  | [] => Ok sorted
  | _ :: _ =>
    if Nat.eqb (length rest) (length lhs) then Throw AlgebraicLoop
    else if Nat.eqb (length aux) (length sorted) then Ok sorted else Throw AssertFailure
  end.

(** ** Functions made from expressions *)
Record fn := mkFn { fn_space : list nat; fn_components : list expr }.
(** space.cpp:42-46,137-141 (a repeated variable fails an assertion), function.cpp:348-351,
    expression.cpp:499-500 (a variable which is not in the space fails an assertion) *)
Definition make_function (space : list nat) (es : list expr) : option fn :=
  if unique space && forallb (fun e => subset (arguments e) space) es then Some (mkFn space es) else None.
(** space.cpp:107-111 *)
Fixpoint index (v : nat) (space : list nat) : option nat :=
  match space with [] => None | w :: r => if Nat.eqb v w then Some 0 else option_map S (index v r) end.
Fixpoint lset {A} (i : nat) (x : A) (l : list A) : list A :=
  match i, l with O, _ :: r => x :: r | S i', y :: r => y :: lset i' x r | _, [] => [] end.
(** The loops [results[space.index(a.lhs)]=substitute(a.rhs,algebraic)]: an assignment to a
    component outside the vector is undefined, [None]. *)
Fixpoint set_results (space : list nat) (algebraic : assignments) (eqs : assignments) (results : list expr) : option (list expr) :=
  match eqs with
  | [] => Some results
  | (v, rhs) :: r =>
    match index v space with
    | None => None
    | Some i => if Nat.ltb i (length results) then set_results space algebraic r (lset i (subst_list rhs algebraic) results) else None
    end
  end.
(** hybrid_automaton.cpp:243-253 *)
Definition make_dynamic_function (space : list nat) (algebraic differential : assignments) : option fn :=
  match set_results space algebraic differential (repeat (num BinNums.Z0) (length differential)) with
  | None => None | Some es => make_function space es end.
(** hybrid_automaton.cpp:255-265 *)
Definition make_reset_function (space : list nat) (algebraic primed : assignments) : option fn :=
  make_function space (map (fun a => subst_list (snd a) algebraic) primed).
(** hybrid_automaton.cpp:226-241; [sorted_auxiliary_space[j]] is the [j]-th sorted variable *)
Definition make_auxiliary_function (space : list nat) (algebraic : assignments) : option fn :=
  match algebraic_sort algebraic with
  | Throw _ => None
  | Ok sorted =>
    match set_results (map fst algebraic) sorted sorted (repeat (num BinNums.Z0) (length sorted)) with
    | None => None
    | Some es => if unique (map fst algebraic) && unique (map fst sorted) then make_function space es else None
    end
  end.
(** hybrid_automaton.cpp:267-275 *)
Definition make_constraint_function (space : list nat) (algebraic : assignments) (p : pred) (s : sign) : option fn :=
  match indicator p s with None => None | Some e => make_function space [subst_list e algebraic] end.

(** ** Building an automaton *)
Definition new_record (l : loc) (aux sorted dyn : assignments) : mode := mkMode l aux sorted dyn [] [] [] [] [].
(** The loops over the equations, hybrid_automaton.cpp:313-335: is some variable defined twice? *)
Definition twice_defined (aux dyn : assignments) : bool := negb (unique (map fst aux ++ map fst dyn)).
(** hybrid_automaton.cpp:301-341 *)
Definition new_mode (a : automaton) (l : loc) (aux dyn : assignments) : automaton * option err :=
  if existsb (fun lm => negb (are_distinguishable l (fst lm))) a then (a, Some IndistinguishableMode)
  else if twice_defined aux dyn then (a, Some SystemSpecification)
  else match algebraic_sort aux with
       | Throw e => (a, Some e)
       | Ok sorted => (minsert loc_lt l (new_record l aux sorted dyn) a, None)
       end.
(** hybrid_automaton.cpp:469-472 *)
Definition has_location (a : automaton) (l : loc) : bool := mhas loc_lt l a.
Definition add_constraint (inv grd : option pred) (e : nat) (k : kind) (m : mode) : mode :=
  mkMode (m_location m) (m_auxiliary m) (m_sorted m) (m_dynamic m)
    (match inv with Some p => ninsert e p (m_invariants m) | None => m_invariants m end)
    (match grd with Some p => ninsert e p (m_guards m) | None => m_guards m end)
    (ninsert e k (m_kinds m)) (m_targets m) (m_resets m).
(** Common part of hybrid_automaton.cpp:344-358 (_new_invariant), 360-374 (_new_guard) and
    377-399 (_new_action). *)
Definition new_constraint (a : automaton) (l : loc) (inv grd : option pred) (e : nat) (k : kind) : automaton * option err :=
  match mfind loc_lt l a with
  | None => (a, Some NonExistentMode)
  | Some m => if nhas e (m_kinds m) then (a, Some MultipleGuard) else (mupdate loc_lt l (add_constraint inv grd e k) a, None)
  end.
Definition new_invariant (a : automaton) (l : loc) (inv : pred) (e : nat) := new_constraint a l (Some inv) None e INVARIANT.
Definition new_guard (a : automaton) (l : loc) (e : nat) (grd : pred) (k : kind) := new_constraint a l None (Some grd) e k.
Definition new_action (a : automaton) (l : loc) (inv : pred) (e : nat) (grd : pred) (k : kind) := new_constraint a l (Some inv) (Some grd) e k.

(** hybrid_automaton.cpp:540-553: [mode(location)], the first mode whose location is a
    restriction of the given one; [None] is the SystemSpecificationError *)
Definition mode_at (a : automaton) (l : loc) : option mode :=
  match List.find (fun lm => is_restriction (fst lm) l) a with Some lm => Some (snd lm) | None => None end.
Fixpoint update_at (a : automaton) (l : loc) (f : mode -> mode) : automaton :=
  match a with
  | [] => []
  | (l', m) :: r => if is_restriction l' l then (l', f m) :: r else (l', m) :: update_at r l f
  end.
Definition add_update (e : nat) (tgt : loc) (rst : assignments) (m : mode) : mode :=
  mkMode (m_location m) (m_auxiliary m) (m_sorted m) (m_dynamic m) (m_invariants m) (m_guards m) (m_kinds m)
    (ninsert e tgt (m_targets m)) (ninsert e rst (m_resets m)).
(** hybrid_automaton.cpp:402-446 *)
Definition new_update (a : automaton) (src : loc) (e : nat) (tgt : loc) (rst : assignments) : automaton * option err :=
  if negb (has_location a src) then (a, Some NonExistentMode)
  else if negb (has_location a tgt) then (a, Some NonExistentMode)
  else match mode_at a src, mode_at a tgt with
       | Some sm, Some tm =>
         if nhas e (m_targets sm) then (a, Some MultipleTransition)
         else if existsb (fun v => mem v (map fst (m_auxiliary tm))) (map fst rst) then (a, Some OverspecifiedReset)
         else if negb (unique (map fst rst)) then (a, Some OverspecifiedReset)
         else (update_at a src (add_update e tgt rst), None)
       | _, _ => (a, Some SystemSpecification)
       end.
(** hybrid_automaton.cpp:448-464 *)
Definition new_transition (a : automaton) (src : loc) (e : nat) (tgt : loc) (rst : assignments) (grd : pred) (k : kind) : automaton * option err :=
  let r := match k with
           | URGENT | IMPACT => new_action a src (KNot grd) e grd k
           | PERMISSIVE => new_guard a src e grd k
           | INVARIANT | PROGRESS => (a, Some AssertFailure)
           end in
  match snd r with Some _ => r | None => new_update (fst r) src e tgt rst end.

(** The calls with which a client builds an automaton. *)
Inductive build :=
  | NewMode (l : loc) (aux dyn : assignments)
  | NewInvariant (l : loc) (inv : pred) (e : nat)
  | NewGuard (l : loc) (e : nat) (grd : pred) (k : kind)
  | NewAction (l : loc) (inv : pred) (e : nat) (grd : pred) (k : kind)
  | NewUpdate (src : loc) (e : nat) (tgt : loc) (rst : assignments)
  | NewTransition (src : loc) (e : nat) (tgt : loc) (rst : assignments) (grd : pred) (k : kind).
Definition build_step (a : automaton) (b : build) : automaton * option err :=
  match b with
  | NewMode l aux dyn => new_mode a l aux dyn
  | NewInvariant l inv e => new_invariant a l inv e
  | NewGuard l e grd k => new_guard a l e grd k
  | NewAction l inv e grd k => new_action a l inv e grd k
  | NewUpdate src e tgt rst => new_update a src e tgt rst
  | NewTransition src e tgt rst grd k => new_transition a src e tgt rst grd k
  end.
(** An automaton after a history of calls, whether they succeeded or threw. *)
Definition build_all (bs : list build) : automaton := fold_left (fun a b => fst (build_step a b)) bs [].

(** ** Queries *)
(** hybrid_automaton.cpp:474-485, 487-498 *)
Definition has_mode (a : automaton) (l : loc) : bool := existsb (fun lm => are_same (fst lm) l) a.
Definition has_partial_mode (a : automaton) (l : loc) : bool := existsb (fun lm => is_restriction (fst lm) l) a.
(** hybrid_automaton.cpp:500-517 *)
Definition in_mode {V} (f : mode -> nmap V) (a : automaton) (l : loc) (e : nat) : bool :=
  match mode_at a l with Some m => nhas e (f m) | None => false end.
Definition has_transition := in_mode m_targets.
Definition has_invariant := in_mode m_invariants.
Definition has_guard := in_mode m_guards.
(** hybrid_automaton.cpp:592-610 *)
Definition state_variables (a : automaton) (l : loc) : option (list nat) := option_map (fun m => map fst (m_dynamic m)) (mode_at a l).
Definition auxiliary_variables (a : automaton) (l : loc) : option (list nat) := option_map (fun m => map fst (m_auxiliary m)) (mode_at a l).
(** hybrid_automaton.cpp:650-657 *)
Definition target (a : automaton) (src : loc) (e : nat) : loc :=
  match mode_at a src with
  | Some m => match nfind e (m_targets m) with Some t => t | None => src end
  | None => src
  end.
(** hybrid_automaton.cpp:659-690 *)
Definition auxiliary_assignments (a : automaton) (l : loc) : option assignments := option_map m_auxiliary (mode_at a l).
Definition dynamic_assignments (a : automaton) (l : loc) : option assignments := option_map m_dynamic (mode_at a l).
Definition reset_assignments (a : automaton) (src : loc) (e : nat) : option assignments :=
  match mode_at a src with
  | None => None
  | Some m => if nhas e (m_targets m) then nfind e (m_resets m) else Some (map (fun d => (fst d, Var (fst d))) (m_dynamic m))
  end.
(** hybrid_automaton.cpp:692-710; ContinuousPredicate(true) *)
Definition predicate_of (f : mode -> nmap pred) (a : automaton) (l : loc) (e : nat) : option pred :=
  match mode_at a l with
  | None => None
  | Some m => Some (match nfind e (f m) with Some p => p | None => KCst TRUE end)
  end.
Definition invariant_predicate := predicate_of m_invariants.
Definition guard_predicate := predicate_of m_guards.
(** hybrid_automaton.cpp:730-733 *)
Definition mode_events (m : mode) : list nat := sadjoin Nat.ltb (sadjoin Nat.ltb (nkeys (m_invariants m)) (nkeys (m_guards m))) (nkeys (m_targets m)).
Definition events (a : automaton) (l : loc) : option (list nat) := option_map mode_events (mode_at a l).
(** hybrid_automaton.cpp:746-748 *)
Definition event_kind (a : automaton) (l : loc) (e : nat) : option kind := match mode_at a l with Some m => nfind e (m_kinds m) | None => None end.
(** hybrid_automaton.cpp:738-744, 750-776; a space with a repeated variable fails an assertion
    in [make_function] *)
Definition auxiliary_function (a : automaton) (l : loc) : option fn :=
  match mode_at a l with Some m => make_auxiliary_function (map fst (m_dynamic m)) (m_sorted m) | None => None end.
Definition dynamic_function (a : automaton) (l : loc) : option fn :=
  match mode_at a l with Some m => make_dynamic_function (map fst (m_dynamic m)) (m_sorted m) (m_dynamic m) | None => None end.
Definition reset_function (a : automaton) (l : loc) (e : nat) : option fn :=
  match mode_at a l with
  | Some m => match nfind e (m_resets m) with Some r => make_reset_function (map fst (m_dynamic m)) (m_sorted m) r | None => None end
  | None => None
  end.
Definition invariant_function (a : automaton) (l : loc) (e : nat) : option fn :=
  match mode_at a l with
  | Some m => match nfind e (m_invariants m) with
              | Some p => make_constraint_function (map fst (m_dynamic m)) (m_auxiliary m) p false | None => None end
  | None => None
  end.
Definition guard_function (a : automaton) (l : loc) (e : nat) : option fn :=
  match mode_at a l with
  | Some m => match nfind e (m_guards m) with
              | Some p => make_constraint_function (map fst (m_dynamic m)) (m_sorted m) p true | None => None end
  | None => None
  end.

(** ** check_mode: hybrid_automaton.cpp:779-846 *)
Definition check_each {A} (f : A -> option err) (l : list A) : option err :=
  fold_left (fun r x => match r with Some _ => r | None => f x end) l None.
Definition first_error (l : list (option err)) : option err := check_each (fun r => r) l.
Definition args_within (vars : list nat) (e : err) (s : assignments) : option err :=
  check_each (fun a => if subset (arguments (snd a)) vars then None else Some e) s.
Definition preds_within (vars : list nat) (s : nmap pred) : option err :=
  check_each (fun p => if subset (pred_arguments (snd p)) vars then None else Some UnderspecifiedConstraint) s.
(** [None] is a check that passes. *)
Definition check_mode (a : automaton) (l : loc) : option err :=
  match mode_at a l with
  | None => Some SystemSpecification
  | Some m =>
    let vars := map fst (m_dynamic m) ++ map fst (m_auxiliary m) in
    first_error
      [ args_within vars UnderspecifiedDynamic (m_auxiliary m);
        args_within vars UnderspecifiedDynamic (m_dynamic m);
        preds_within vars (m_invariants m);
        preds_within vars (m_guards m);
        check_each (fun r => args_within vars UnderspecifiedReset (snd r)) (m_resets m);
        check_each (fun r =>
          match nfind (fst r) (m_targets m) with
          | None => Some AssertFailure
          | Some tgt =>
            match state_variables a tgt with
            | None => Some SystemSpecification
            | Some tv => if negb (subset (map fst (snd r)) tv) then Some UnderspecifiedDynamic
                         else if negb (subset tv (map fst (snd r))) then Some UnderspecifiedReset else None
            end
          end) (m_resets m) ]
  end.

(** ** discrete_reachability: hybrid_automaton.cpp:857-896 and hybrid_automaton-composite.cpp:751-806 *)
(** The loop over the events of one location: [(found, reached)]. *)
Definition reach_target (fr : list loc * list loc) (t : loc) : list loc * list loc :=
  let (found, reached) := fr in if smem loc_lt t reached then fr else (sinsert loc_lt t found, sinsert loc_lt t reached).
(** The loop over the working locations; [succ] gives the targets of the events of a location. *)
Fixpoint reach_sources (succ : loc -> option (list loc)) (working : list loc) (fr : list loc * list loc) : option (list loc * list loc) :=
  match working with
  | [] => Some fr
  | l :: r => match succ l with None => None | Some ts => reach_sources succ r (fold_left reach_target ts fr) end
  end.
Inductive reached := Reached (s : list loc) | ReachThrows | ReachFuel.
Fixpoint reach_loop (succ : loc -> option (list loc)) (fuel : nat) (working all : list loc) : reached :=
  match working with
  | [] => Reached all
  | _ :: _ =>
    match fuel with
    | O => ReachFuel
    | S fuel' =>
      match reach_sources succ working ([], all) with
      | None => ReachThrows
      | Some (found, all') => reach_loop succ fuel' found all'
      end
    end
  end.
Definition targets_of (a : automaton) (l : loc) : option (list loc) := option_map (map (target a l)) (events a l).
Definition discrete_reachability (a : automaton) (fuel : nat) (initial : list loc) : reached := reach_loop (targets_of a) fuel initial initial.

(** ** Composition: hybrid_automaton-composite.cpp *)
Definition composite := list automaton.
(** All components, or an exception. *)
Fixpoint all_some {A} (l : list (option A)) : option (list A) :=
  match l with
  | [] => Some []
  | Some x :: r => match all_some r with Some xs => Some (x :: xs) | None => None end
  | None :: _ => None
  end.
Definition modes_at (c : composite) (l : loc) : option (list mode) := all_some (map (fun a => mode_at a l) c).

(** hybrid_automaton-composite.cpp:140-151; the assertion always holds *)
Definition c_has_mode (c : composite) (l : loc) : bool :=
  match modes_at c l with
  | None => false
  | Some ms => let q := fold_left (fun q m => join_loc q (m_location m)) ms [] in is_restriction q l && are_same q l
  end.
(** hybrid_automaton-composite.cpp:153-195 *)
Definition c_has_partial_mode (c : composite) (l : loc) : bool := forallb (fun a => has_partial_mode a l) c.
Definition c_has_invariant (c : composite) (l : loc) (e : nat) : bool := existsb (fun a => has_invariant a l e) c.
Definition c_has_guard (c : composite) (l : loc) (e : nat) : bool := existsb (fun a => has_guard a l e) c.
Definition c_has_transition (c : composite) (l : loc) (e : nat) : bool := existsb (fun a => has_transition a l e) c.

(** hybrid_automaton-composite.cpp:204-281: the mode of the composition before it is put
    into the cache.  In the code [_targets] and [_resets] go through [operator[]]. *)
Definition set_of (l : list nat) : list nat := sadjoin Nat.ltb [] l.
Definition same_set (s t : list nat) : bool := subset s t && subset t s.
Definition join_mode (m cm : mode) : mode :=
  mkMode (join_loc (m_location m) (m_location cm))
    (m_auxiliary m ++ m_auxiliary cm) (m_sorted m) (m_dynamic m ++ m_dynamic cm)
    (adjoin Nat.ltb (m_invariants m) (m_invariants cm))
    (adjoin Nat.ltb (m_guards m) (m_guards cm))
    (adjoin Nat.ltb (m_kinds m) (m_kinds cm))
    (fold_left (fun ts et => nset (fst et) (join_loc (match nfind (fst et) ts with Some t => t | None => [] end) (snd et)) ts) (m_targets cm) (m_targets m))
    (fold_left (fun rs er => nset (fst er) ((match nfind (fst er) rs with Some r => r | None => [] end) ++ snd er) rs) (m_resets cm) (m_resets m)).
Definition compute_mode (c : composite) (l : loc) : result mode :=
  match modes_at c l with
  | None => Throw SystemSpecification
  | Some ms =>
    let m := fold_left join_mode ms (mkMode [] [] [] [] [] [] [] [] []) in
    if negb (same_set (nkeys (m_invariants m) ++ nkeys (m_guards m)) (nkeys (m_kinds m))) then Throw AssertFailure
    else if negb (same_set (nkeys (m_targets m)) (nkeys (m_resets m))) then Throw AssertFailure
    else if negb (subset (nkeys (m_guards m)) (nkeys (m_resets m))) then Throw AssertFailure
    else if negb (same_set (nkeys (m_guards m)) (nkeys (m_resets m))) then Throw MissingGuard
    else Ok m
  end.
(** hybrid_automaton-composite.cpp:198-202,280: [mode(location)] through the cache; a cache is
    the one of LRU_Model.v.  The cache does not change when an exception is thrown. *)
Fixpoint loc_eqb (q1 q2 : loc) : bool :=
  match q1, q2 with
  | [], [] => true
  | (k1, v1) :: r1, (k2, v2) :: r2 => Nat.eqb k1 k2 && Nat.eqb v1 v2 && loc_eqb r1 r2
  | _, _ => false
  end.
Definition cached_mode (c : composite) (k : cache loc mode) (l : loc) : cache loc mode * option mode :=
  let filled := if has_label loc_eqb k l then Ret k
                else match compute_mode c l with Throw _ => AssertFail | Ok m => put loc_eqb k l m end in
  match filled with
  | Ret k' => match get loc_eqb k' l with Ret (k'', m) => (k'', Some m) | _ => (k', None) end
  | _ => (k, None)
  end.
Fixpoint cached_modes (c : composite) (k : cache loc mode) (ls : list loc) : list (option mode) :=
  match ls with [] => [] | l :: r => let (k', m) := cached_mode c k l in m :: cached_modes c k' r end.

Definition c_mode (c : composite) (l : loc) : option mode := match compute_mode c l with Ok m => Some m | Throw _ => None end.
(** hybrid_automaton-composite.cpp:284-296 *)
Definition c_events (c : composite) (l : loc) : option (list nat) := option_map mode_events (c_mode c l).
Definition c_event_kind (c : composite) (l : loc) (e : nat) : option kind := match c_mode c l with Some m => nfind e (m_kinds m) | None => None end.
(** hybrid_automaton-composite.cpp:300-312 *)
Definition c_target (c : composite) (src : loc) (e : nat) : option loc :=
  option_map (fun ms => fold_left (fun q m => join_loc q (match nfind e (m_targets m) with Some t => t | None => m_location m end)) ms []) (modes_at c src).
(** hybrid_automaton-composite.cpp:348-402 *)
Definition concat_some {A} (l : list (option (list A))) : option (list A) := option_map (@concat A) (all_some l).
Definition c_state_variables (c : composite) (l : loc) : option (list nat) := concat_some (map (fun a => state_variables a l) c).
Definition c_auxiliary_assignments (c : composite) (l : loc) : option assignments := concat_some (map (fun a => auxiliary_assignments a l) c).
Definition c_dynamic_assignments (c : composite) (l : loc) : option assignments := concat_some (map (fun a => dynamic_assignments a l) c).
Definition c_reset_assignments (c : composite) (l : loc) (e : nat) : option assignments := concat_some (map (fun a => reset_assignments a l e) c).
(** hybrid_automaton-composite.cpp:405-427 *)
Definition conjoin (result guard : pred) : pred :=
  if is_kconstant result true || is_kconstant guard false then guard
  else if is_kconstant guard true || is_kconstant result false then result
  else KAnd result guard.
Definition c_predicate (f : automaton -> loc -> nat -> option pred) (c : composite) (l : loc) (e : nat) : option pred :=
  option_map (fun ps => fold_left conjoin ps (KCst TRUE)) (all_some (map (fun a => f a l e) c)).
Definition c_invariant_predicate := c_predicate invariant_predicate.
Definition c_guard_predicate := c_predicate guard_predicate.
(** hybrid_automaton-composite.cpp:429-475 *)
Definition c_auxiliary_function (c : composite) (l : loc) : option fn :=
  match c_state_variables c l, c_auxiliary_assignments c l with
  | Some sv, Some aux => match algebraic_sort aux with Ok sorted => make_auxiliary_function sv sorted | Throw _ => None end
  | _, _ => None
  end.
Definition c_dynamic_function (c : composite) (l : loc) : option fn :=
  match c_state_variables c l, c_auxiliary_assignments c l, c_dynamic_assignments c l with
  | Some sv, Some aux, Some dyn => if unique sv then make_dynamic_function sv aux dyn else None
  | _, _, _ => None
  end.
Definition c_reset_function (c : composite) (src : loc) (e : nat) : option fn :=
  match c_target c src e with
  | None => None
  | Some tgt =>
    match c_state_variables c src, c_state_variables c tgt, c_auxiliary_assignments c src, c_reset_assignments c src e with
    | Some sv, Some tv, Some aux, Some upd =>
      if unique tv then
        match set_results tv aux upd (repeat (num BinNums.Z0) (length upd)) with None => None | Some es => make_function sv es end
      else None
    | _, _, _, _ => None
    end
  end.
Definition c_constraint_function (p : composite -> loc -> nat -> option pred) (s : sign) (c : composite) (l : loc) (e : nat) : option fn :=
  match c_state_variables c l, c_auxiliary_assignments c l, p c l e with
  | Some sv, Some aux, Some q => make_constraint_function sv aux q s
  | _, _, _ => None
  end.
Definition c_invariant_function := c_constraint_function c_invariant_predicate false.
Definition c_guard_function := c_constraint_function c_guard_predicate true.

(** hybrid_automaton-composite.cpp:582-623: [order], only whether it throws: repeatedly remove
    a variable all of whose dependencies are resolved. *)
Fixpoint order_loop (fuel : nat) (unresolved : nmap (list nat)) : bool :=
  match fuel with
  | O => match unresolved with [] => true | _ => false end
  | S fuel' =>
    match List.find (fun d => match snd d with [] => true | _ => false end) unresolved with
    | None => match unresolved with [] => true | _ => false end
    | Some (v, _) =>
      order_loop fuel' (map (fun d => (fst d, filter (fun w => negb (Nat.eqb w v)) (snd d)))
                          (filter (fun d => negb (Nat.eqb (fst d) v)) unresolved))
    end
  end.
Definition can_order (aux : assignments) (inputs : list nat) : bool :=
  order_loop (length aux) (fold_left (fun m a => ninsert (fst a) (filter (fun w => negb (mem w inputs)) (arguments (snd a))) m) aux []).

(** hybrid_automaton-composite.cpp:627-738 *)
Definition urgent_kind (k : kind) : bool := match k with URGENT | IMPACT => true | _ => false end.
(** The sets [urgent_in] and [permissive_in] contain the names of components, which need not
    be different. *)
Definition named_in (f : automaton -> bool) (names : list nat) (c : composite) : nat :=
  length (set_of (map fst (filter (fun na => f (snd na)) (combine names c)))).
Definition urgent_in (names : list nat) (c : composite) (l : loc) (e : nat) : nat :=
  named_in (fun a => has_guard a l e && match event_kind a l e with Some k => urgent_kind k | None => false end) names c.
Definition permissive_in (names : list nat) (c : composite) (l : loc) (e : nat) : nat :=
  named_in (fun a => has_guard a l e && match event_kind a l e with Some k => negb (urgent_kind k) | None => false end &&
                     match guard_predicate a l e with Some p => negb (is_kconstant p true) | None => false end) names c.
Definition check_event (names : list nat) (c : composite) (l : loc) (vars : list nat) (e : nat) : option err :=
  match c_target c l e, c_guard_predicate c l e, c_reset_assignments c l e with
  | Some tgt, Some grd, Some rst =>
    match c_state_variables c tgt with
    | None => Some AssertFailure
    | Some tv =>
      let rv := map fst rst in
      if Nat.ltb 1 (urgent_in names c l e) then Some MultipleUrgent
      else if Nat.eqb (urgent_in names c l e) 1 && Nat.ltb 0 (permissive_in names c l e) then Some UrgentWithGuards
      else if negb (subset (pred_arguments grd) vars) then Some UnderspecifiedConstraint
      else if negb (subset (concat (map (fun a => arguments (snd a)) rst)) vars) then Some UnderspecifiedReset
      else if negb (unique rv) then Some OverspecifiedReset
      else if negb (subset rv tv) then Some SystemSpecification
      else if negb (subset tv rv) then Some UnderspecifiedReset
      else None
    end
  | _, _, _ => Some SystemSpecification
  end.
Definition c_check_mode (names : list nat) (c : composite) (l : loc) : option err :=
  match c_auxiliary_assignments c l, c_dynamic_assignments c l with
  | Some aux, Some dyn =>
    let sv := map fst dyn in let vars := sv ++ map fst aux in
    if negb (unique vars) then Some OverspecifiedDynamic
    else if negb (subset (concat (map (fun a => arguments (snd a)) aux)) vars) then Some UnderspecifiedDynamic
    else if negb (subset (concat (map (fun a => arguments (snd a)) dyn)) vars) then Some UnderspecifiedDynamic
    else if negb (can_order aux sv) then Some AlgebraicLoop
    else match c_events c l with
         | None => Some AssertFailure
         | Some evs =>
           match check_each (fun e => match c_invariant_predicate c l e with
                                      | Some p => if subset (pred_arguments p) vars then None else Some UnderspecifiedConstraint
                                      | None => Some SystemSpecification end) evs with
           | Some er => Some er
           | None => check_each (check_event names c l vars) evs
           end
         end
  | _, _ => Some SystemSpecification
  end.
Definition c_targets_of (c : composite) (l : loc) : option (list loc) :=
  match c_events c l with None => None | Some es => all_some (map (c_target c l) es) end.
Definition c_discrete_reachability (c : composite) (fuel : nat) (initial : list loc) : reached := reach_loop (c_targets_of c) fuel initial initial.
End AUTOMATON.
Arguments Ok {A} _. Arguments Throw {A} _.
