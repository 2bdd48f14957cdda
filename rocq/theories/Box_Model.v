(** Model of intervals, boxes and unions of intervals: source/geometry/interval.hpp,
    interval.inl.hpp, interval.cpp, box.hpp, box.tpl.hpp, box.cpp and
    union_of_intervals.hpp.

    The types are templates over the type of the end points.  The end points used in
    the library are the exact numbers (FloatDP, FloatMP, Dyadic, Rational), and the
    one-sided bounds LowerBound<F>, UpperBound<F> of a float.  Real end points and
    approximations are not modelled. *)
From Coq Require Import ZArith List Bool Arith.
From Verif Require Import Logical_Model.
Import ListNotations.

(** The operations of an exact number type which are used on end points. *)
Record num_ops (E : Type) := {
  n_lt : E -> E -> bool;  (** [x<y], the C operator; [x>y] is [y<x] *)
  n_le : E -> E -> bool;  (** [x<=y]; [x>=y] is [y<=x] *)
  n_eq : E -> E -> bool;
  n_max : E -> E -> E;
  n_min : E -> E -> E;
  n_pinf : E;
  n_ninf : E
}.
Arguments n_lt {E}. Arguments n_le {E}. Arguments n_eq {E}. Arguments n_max {E}. Arguments n_min {E}.
Arguments n_pinf {E}. Arguments n_ninf {E}.

(** Kinds of end points: an exact number, a lower bound, an upper bound for a number. *)
Inductive kind := EX | LB | UB.

Section Geometry.
  Context {E : Type} (o : num_ops E).

  (** An end point: an exact number or a bound; its raw value. *)
  Record endpoint := mkE { e_kind : kind; e_raw : E }.

  (** float_upper_bound.hpp:193-195, float_lower_bound.hpp:198-200, floatdp.hpp:256: the
      comparison of an exact number with a bound converts the number to the opposite
      bound.  Two lower or two upper bounds cannot be compared ([INDET] below). *)
  Definition e_lt (a b : endpoint) : lv :=
    match e_kind a, e_kind b with
    | EX, EX => make_lv (n_lt o (e_raw a) (e_raw b))
    | UB, LB | UB, EX | EX, LB => if n_lt o (e_raw a) (e_raw b) then TRUE else UNLIKELY
    | LB, UB | LB, EX | EX, UB => if n_le o (e_raw b) (e_raw a) then FALSE else LIKELY
    | LB, LB | UB, UB => INDET
    end.
  (** arithmetic.hpp:694-704; for exact numbers the C operator. *)
  Definition e_gt (a b : endpoint) : lv := e_lt b a.
  Definition e_le (a b : endpoint) : lv :=
    match e_kind a, e_kind b with
    | EX, EX => make_lv (n_le o (e_raw a) (e_raw b))
    | _, _ => lv_neg (e_lt b a)
    end.
  Definition e_ge (a b : endpoint) : lv := e_le b a.
  (** float_upper_bound.hpp:190-192, float_lower_bound.hpp:195-197. *)
  Definition e_eq (a b : endpoint) : lv :=
    match e_kind a, e_kind b with
    | EX, EX => make_lv (n_eq o (e_raw a) (e_raw b))
    | UB, LB | UB, EX | EX, LB => if n_lt o (e_raw a) (e_raw b) then FALSE else INDET
    | LB, UB | LB, EX | EX, UB => if n_lt o (e_raw b) (e_raw a) then FALSE else INDET
    | LB, LB | UB, UB => INDET
    end.
  (** Kind of the maximum or minimum: exact with exact is exact, a bound stays a bound
      of its direction (float_upper_bound.hpp:180-183, float_lower_bound.hpp:187-190). *)
  Definition k_join (a b : kind) : kind := match a with EX => b | _ => a end.
  Definition e_max (a b : endpoint) : endpoint := mkE (k_join (e_kind a) (e_kind b)) (n_max o (e_raw a) (e_raw b)).
  Definition e_min (a b : endpoint) : endpoint := mkE (k_join (e_kind a) (e_kind b)) (n_min o (e_raw a) (e_raw b)).

  (** ** Intervals, interval.hpp:178-300.  The constructor checks nothing. *)
  Record interval := mkI { i_l : endpoint; i_u : endpoint }.

  Definition exact_ivl (l u : E) : interval := mkI (mkE EX l) (mkE EX u).
  (** Interval<UpperBound<F>>: an over-approximation; the lower end is a LowerBound<F>. *)
  Definition upper_ivl (l u : E) : interval := mkI (mkE LB l) (mkE UB u).

  (** interval.inl.hpp:37-41. *)
  Definition empty_ivl : interval := exact_ivl (n_pinf o) (n_ninf o).
  Definition entire_ivl : interval := exact_ivl (n_ninf o) (n_pinf o).

  (** interval.inl.hpp:56,58,77-78. *)
  Definition i_is_empty (i : interval) : lv := e_gt (i_l i) (i_u i).
  Definition i_is_singleton (i : interval) : lv := e_eq (i_l i) (i_u i).
  (** interval.inl.hpp:80: [-l.raw()<inf && u.raw()<inf]; [-l<inf] is [-inf<l]. *)
  Definition i_is_bounded (i : interval) : bool :=
    n_lt o (n_ninf o) (e_raw (i_l i)) && n_lt o (e_raw (i_u i)) (n_pinf o).

  (** interval.inl.hpp:84-88, with an exact number. *)
  Definition i_contains (i : interval) (x : E) : lv :=
    lv_and (e_le (i_l i) (mkE EX x)) (e_ge (i_u i) (mkE EX x)).
  (** interval.inl.hpp:90-91. *)
  Definition i_equal (i j : interval) : lv := lv_and (e_le (i_l i) (i_l j)) (e_eq (i_u i) (i_u j)).
  (** interval.inl.hpp:93-94. *)
  Definition i_subset (i j : interval) : lv := lv_and (e_ge (i_l i) (i_l j)) (e_le (i_u i) (i_u j)).
  (** interval.inl.hpp:96-97. *)
  Definition i_superset (i j : interval) : lv := lv_and (e_le (i_l i) (i_l j)) (e_ge (i_u i) (i_u j)).
  (** interval.inl.hpp:99-100. *)
  Definition i_disjoint (i j : interval) : lv := lv_or (e_gt (i_l i) (i_u j)) (e_lt (i_u i) (i_l j)).
  (** interval.inl.hpp:102-103. *)
  Definition i_intersect (i j : interval) : lv := lv_and (e_le (i_l i) (i_u j)) (e_ge (i_u i) (i_l j)).
  (** interval.inl.hpp:106-107. *)
  Definition i_separated (i j : interval) : lv := lv_or (e_gt (i_l i) (i_u j)) (e_lt (i_u i) (i_l j)).
  (** interval.inl.hpp:109-110. *)
  Definition i_overlap (i j : interval) : lv := lv_and (e_lt (i_l i) (i_u j)) (e_gt (i_u i) (i_l j)).
  (** interval.inl.hpp:112-113. *)
  Definition i_inside (i j : interval) : lv := lv_and (e_gt (i_l i) (i_l j)) (e_lt (i_u i) (i_u j)).
  (** interval.inl.hpp:115-116. *)
  Definition i_covers (i j : interval) : lv := lv_and (e_lt (i_l i) (i_l j)) (e_gt (i_u i) (i_u j)).
  (** interval.inl.hpp:162-165. *)
  Definition i_eq (i j : interval) : lv := lv_and (e_eq (i_l i) (i_l j)) (e_eq (i_u i) (i_u j)).
  Definition i_neq (i j : interval) : lv := lv_or (lv_neg (e_eq (i_l i) (i_l j))) (lv_neg (e_eq (i_u i) (i_u j))).

  (** interval.inl.hpp:119-122. *)
  Definition i_intersection (i j : interval) : interval := mkI (e_max (i_l i) (i_l j)) (e_min (i_u i) (i_u j)).
  (** interval.inl.hpp:125-138. *)
  Definition i_hull (i j : interval) : interval := mkI (e_min (i_l i) (i_l j)) (e_max (i_u i) (i_u j)).
  Definition i_hull_pt (i : interval) (x : E) : interval := mkI (e_min (i_l i) (mkE EX x)) (e_max (i_u i) (mkE EX x)).
  Definition pt_hull_i (x : E) (i : interval) : interval := mkI (e_min (mkE EX x) (i_l i)) (e_max (mkE EX x) (i_u i)).

  (** interval.inl.hpp:155-158 and 142-147, with the split point [c] as parameter. *)
  Definition i_split (i : interval) (c : E) : interval * interval :=
    (mkI (i_l i) (mkE EX c), mkI (mkE EX c) (i_u i)).

  (** interval.inl.hpp:175-180, on intervals of upper bounds. *)
  Definition i_refinement (i j : interval) : interval :=
    upper_ivl (n_max o (e_raw (i_l i)) (e_raw (i_l j))) (n_min o (e_raw (i_u i)) (e_raw (i_u j))).
  Definition i_refines (i j : interval) : bool :=
    n_le o (e_raw (i_l j)) (e_raw (i_l i)) && n_le o (e_raw (i_u i)) (e_raw (i_u j)).
  Definition i_same (i j : interval) : bool :=
    n_eq o (e_raw (i_l i)) (e_raw (i_l j)) && n_eq o (e_raw (i_u i)) (e_raw (i_u j)).

  (** ** Boxes, box.hpp:90-250: a vector of intervals. *)
  Definition box := list interval.
  Definition dimension (b : box) : nat := length b.

  (** box.tpl.hpp:36-45 (the early return does not change the result). *)
  Definition bx_is_empty (b : box) : lv := fold_left (fun r i => lv_or r (i_is_empty i)) b FALSE.
  (** box.tpl.hpp:48-56. *)
  Definition bx_is_bounded (b : box) : bool := fold_left (fun r i => r && i_is_bounded i) b true.

  (** The loops [for(i=0; i!=bx1.dimension(); ++i) { res = res OP f(bx1[i],bx2[i]); }];
      [None] when the second operand is shorter, so that [bx2[i]] is out of range. *)
  Fixpoint loop2 {A B : Type} (op : lv -> lv -> lv) (f : A -> B -> lv) (r : lv) (a : list A) (b : list B) : option lv :=
    match a with
    | [] => Some r
    | x :: a' => match b with [] => None | y :: b' => loop2 op f (op r (f x y)) a' b' end
    end.
  (** The loops [for(...) { r[i]=f(bx1[i],bx2[i]); }]. *)
  Fixpoint map2 {A B C : Type} (f : A -> B -> C) (a : list A) (b : list B) : option (list C) :=
    match a with
    | [] => Some []
    | x :: a' => match b with [] => None | y :: b' => option_map (cons (f x y)) (map2 f a' b') end
    end.

  (** box.hpp:351-369; [element] runs over the dimension of the box, too. *)
  Definition bx_contains (b : box) (x : list E) : option lv := loop2 lv_and i_contains TRUE b x.
  (** box.hpp:372-433. *)
  Definition bx_disjoint (a b : box) : option lv := loop2 lv_or i_disjoint FALSE a b.
  Definition bx_intersect (a b : box) : option lv := loop2 lv_and i_intersect TRUE a b.
  Definition bx_equal (a b : box) : option lv := loop2 lv_and i_equal TRUE a b.
  Definition bx_subset (a b : box) : option lv := loop2 lv_and i_subset TRUE a b.
  Definition bx_superset (a b : box) : option lv := loop2 lv_and i_superset TRUE a b.
  Definition bx_covers (a b : box) : option lv := loop2 lv_and i_covers TRUE a b.
  Definition bx_overlap (a b : box) : option lv := loop2 lv_and i_overlap TRUE a b.
  Definition bx_separated (a b : box) : option lv := loop2 lv_or i_separated FALSE a b.
  Definition bx_inside (a b : box) : option lv := loop2 lv_and i_inside TRUE a b.
  (** box.hpp:292-303. *)
  Definition bx_eq (a b : box) : option lv :=
    if Nat.eqb (dimension a) (dimension b) then loop2 lv_and i_eq TRUE a b else Some FALSE.
  (** box.hpp:436-442, for dimensions which agree (asserted). *)
  Fixpoint bx_refines (a b : box) : option bool :=
    match a, b with
    | [], [] => Some true
    | i :: a', j :: b' => match bx_refines a' b' with
                          | Some r => Some (i_refines i j && r) | None => None end
    | _, _ => None
    end.

  (** box.hpp:314-341 (dimensions asserted equal), 344-348 (nothing asserted). *)
  Definition bx_hull (a b : box) : option box :=
    if Nat.eqb (dimension a) (dimension b) then map2 i_hull a b else None.
  Definition bx_hull_pt (a : box) (x : list E) : option box :=
    if Nat.eqb (dimension a) (length x) then map2 i_hull_pt a x else None.
  Definition bx_intersection (a b : box) : option box := map2 i_intersection a b.

  (** box.tpl.hpp:187-202. *)
  Fixpoint bx_project (b : box) (rng : list nat) : option box :=
    match rng with
    | [] => Some []
    | k :: rng' => match nth_error b k, bx_project b rng' with
                   | Some i, Some r => Some (i :: r) | _, _ => None end
    end.
  (** [r[k]=i]. *)
  Fixpoint set_nth {A} (l : list A) (k : nat) (x : A) : list A :=
    match l, k with
    | [], _ => []
    | _ :: t, O => x :: t
    | h :: t, S k' => h :: set_nth t k' x
    end.
  (** The loops [for(i=0; i!=bx.dimension(); ++i) { r[i+off]=bx[i]; }]. *)
  Fixpoint copy_to (r : box) (off : nat) (b : box) : box :=
    match b with [] => r | i :: b' => copy_to (set_nth r off i) (S off) b' end.
  (** box.tpl.hpp:205-249; a box is created with empty intervals (box.hpp:474-475). *)
  Definition bx_product (a b : box) : box :=
    copy_to (copy_to (repeat empty_ivl (dimension a + dimension b)) 0 a) (dimension a) b.
  Definition ivl_product (i : interval) (b : box) : box :=
    copy_to (set_nth (repeat empty_ivl (1 + dimension b)) 0 i) 1 b.
  Definition product_ivl (b : box) (i : interval) : box :=
    set_nth (copy_to (repeat empty_ivl (dimension b + 1)) 0 b) (dimension b) i.
  Definition bx_product3 (a b c : box) : box :=
    copy_to (copy_to (copy_to (repeat empty_ivl (dimension a + dimension b + dimension c)) 0 a) (dimension a) b)
            (dimension a + dimension b) c.

  (** box.tpl.hpp:79-88, with the function computing the midpoint of an interval as
      parameter. *)
  Definition bx_split (mid : interval -> E) (b : box) (k : nat) : option (box * box) :=
    match nth_error b k with
    | Some i => Some (set_nth b k (fst (i_split i (mid i))), set_nth b k (snd (i_split i (mid i))))
    | None => None
    end.
  (** box.tpl.hpp:60-67; [wider i j] is [decide(i.width()>j.width())].  The box of
      dimension 0 has no [bx[0]]. *)
  Fixpoint irmax_loop (wider : interval -> interval -> bool) (b : box) (i imw : nat) (mw : interval) : nat :=
    match b with
    | [] => imw
    | j :: b' => if wider j mw then irmax_loop wider b' (S i) i j else irmax_loop wider b' (S i) imw mw
    end.
  Definition irmax (wider : interval -> interval -> bool) (b : box) : option nat :=
    match b with [] => None | i :: b' => Some (irmax_loop wider b' 1 0 i) end.
  (** box.tpl.hpp:95-98. *)
  Definition bx_split_widest (wider : interval -> interval -> bool) (mid : interval -> E) (b : box) : option (box * box) :=
    match irmax wider b with Some k => bx_split mid b k | None => None end.

  (** box.cpp:126-170: the first components [pt] of the vertex are fixed; the two
      functions append the vertices to the list, here the list of those appended.
      [rest] are the intervals from the current index on. *)
  Fixpoint vertices_up (pt : list E) (rest : box) : list (list E) :=
    match rest with
    | [] => []
    | [i] => [pt ++ [e_raw (i_l i)]; pt ++ [e_raw (i_u i)]]
    | i :: rest' => vertices_up (pt ++ [e_raw (i_l i)]) rest' ++ vertices_down (pt ++ [e_raw (i_u i)]) rest'
    end
  with vertices_down (pt : list E) (rest : box) : list (list E) :=
    match rest with
    | [] => []
    | [i] => [pt ++ [e_raw (i_u i)]; pt ++ [e_raw (i_l i)]]
    | i :: rest' => vertices_up (pt ++ [e_raw (i_u i)]) rest' ++ vertices_down (pt ++ [e_raw (i_l i)]) rest'
    end.
  Definition bx_vertices (b : box) : list (list E) := vertices_up [] b.

  (** ** UnionOfIntervals, union_of_intervals.hpp: a list of intervals with exact end
      points, here as pairs. *)
  Definition ival := (E * E)%type.
  Definition union := list ival.

  (** union_of_intervals.hpp:36-40. *)
  Definition lu_less (i j : ival) : bool :=
    n_lt o (fst i) (fst j) || (n_eq o (fst i) (fst j) && n_lt o (snd i) (snd j)).
  (** union_of_intervals.hpp:195-197: [std::sort]; here insertion sort.  Intervals which
      [std::sort] may order otherwise have equal end points. *)
  Fixpoint sort_insert (i : ival) (s : union) : union :=
    match s with
    | [] => [i]
    | j :: t => if lu_less j i then j :: sort_insert i t else i :: s
    end.
  Fixpoint un_sort (s : union) : union :=
    match s with [] => [] | i :: t => sort_insert i (un_sort t) end.
  (** union_of_intervals.hpp:199-214: [curr] is the interval being extended. *)
  Fixpoint combine_loop (curr : ival) (next : union) : union :=
    match next with
    | [] => [curr]
    | j :: t => if n_le o (fst j) (snd curr)
                then combine_loop (fst curr, n_max o (snd curr) (snd j)) t
                else curr :: combine_loop j t
    end.
  Definition un_combine (s : union) : union :=
    match s with [] => [] | i :: t => combine_loop i t end.
  (** union_of_intervals.hpp:51, 60: from a list of intervals. *)
  Definition un_make (s : union) : union := un_combine (un_sort s).
  (** union_of_intervals.hpp:53-58, 61-63: from a list of intervals of another type,
      whose end points are converted by [conv]: neither sorted nor combined. *)
  Definition un_convert {E'} (convl convu : E' -> E) (s : list (E' * E')) : union :=
    map (fun i => (convl (fst i), convu (snd i))) s.

  (** union_of_intervals.hpp:124-140. *)
  Fixpoint intersection_loop (fuel : nat) (a b : union) : option union :=
    match fuel with
    | O => None
    | S fuel' =>
      match a, b with
      | i :: a', j :: b' =>
        if n_le o (snd j) (fst i) then intersection_loop fuel' a' b
        else if n_le o (snd i) (fst j) then intersection_loop fuel' a b'
        else option_map (cons (n_max o (fst i) (fst j), n_min o (snd i) (snd j)))
               (if n_lt o (snd i) (snd j) then intersection_loop fuel' a' b else intersection_loop fuel' a b')
      | _, _ => Some []
      end
    end.
  Definition un_intersection (a b : union) : option union :=
    option_map un_make (intersection_loop (S (length a + length b)) a b).
  (** union_of_intervals.hpp:142-145. *)
  Definition un_join (a b : union) : union := un_make (a ++ b).

  (** union_of_intervals.hpp:147-160. *)
  Fixpoint intersect_loop (fuel : nat) (a b : union) : option bool :=
    match fuel with
    | O => None
    | S fuel' =>
      match a, b with
      | i :: a', j :: b' =>
        if n_le o (snd j) (fst i) then intersect_loop fuel' a b'
        else if n_le o (snd i) (fst j) then intersect_loop fuel' a' b
        else Some true
      | _, _ => Some false
      end
    end.
  Definition un_intersect (a b : union) : option bool := intersect_loop (S (length a + length b)) a b.

  (** union_of_intervals.hpp:162-180. *)
  Fixpoint subset_loop (fuel : nat) (a b : union) : option bool :=
    match fuel with
    | O => None
    | S fuel' =>
      match a, b with
      | i :: a', j :: b' =>
        if n_le o (snd j) (fst i) then subset_loop fuel' a b'
        else if n_le o (fst j) (fst i) && n_le o (snd i) (snd j) then subset_loop fuel' a' b
        else Some false
      | [], _ => Some true
      | _ :: _, [] => Some false
      end
    end.
  Definition un_subset (a b : union) : option bool := subset_loop (S (length a + length b)) a b.

  (** union_of_intervals.hpp:81-84, with the box already converted. *)
  Definition un_separated (a : union) (i : ival) : option bool := option_map negb (un_intersect a (un_make [i])).
  Definition un_overlaps (a : union) (i : ival) : option bool := un_intersect a (un_make [i]).
  Definition un_covers (a : union) (i : ival) : option bool := un_subset (un_make [i]) a.
  Definition un_inside (a : union) (i : ival) : option bool := un_subset a (un_make [i]).

  (** union_of_intervals.hpp:190-193; the assertion fails for no intervals. *)
  Definition un_bounding_box (a : union) : option ival :=
    match a with [] => None | i :: _ => Some (fst i, snd (last a i)) end.
  (** union_of_intervals.hpp:182-188; [_data[0]] does not exist for no intervals. *)
  Definition un_measure {W} (zero : W) (width : ival -> W) (plus : W -> W -> W) (a : union) : option W :=
    match a with [] => None | _ => Some (fold_left (fun r i => plus r (width i)) a zero) end.
End Geometry.
Arguments endpoint : clear implicits. Arguments interval : clear implicits.
Arguments box : clear implicits. Arguments union : clear implicits. Arguments ival : clear implicits.
Arguments mkE {E}. Arguments mkI {E}.
