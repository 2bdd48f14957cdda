(** * Automatic differentiation

    Models /repo/source/algebra/differential.{hpp,tpl.hpp},
    univariate_differential.{hpp,tpl.hpp} and series.hpp.

    Simplifications:
    - the number type [X] of the coefficients is a record of operations, as
      the C++ classes are templates in [X]; [x_sort] is the [std::sort] of the
      terms, whose treatment of terms with the same index is left open;
    - precisions, and the zero carried by each object, are not modelled:
      [x_nul] stands for [nul(c)], [c*0], [zero_coefficient()];
    - failed assertions and thrown exceptions are [AssertFail];
    - [solve], [min], [max], [operator==], printing and the fixed-degree
      classes are not modelled. *)

From Coq Require Import NArith List Bool Arith.
From Verif Require Import LRU_Model Poly_Model.
Import ListNotations.

Record scalar := mkScalar {
  carrier :> Type;
  x_nul : carrier;
  x_nat : N -> carrier;
  x_add : carrier -> carrier -> carrier;
  x_sub : carrier -> carrier -> carrier;
  x_mul : carrier -> carrier -> carrier;
  x_div : carrier -> carrier -> carrier;
  x_neg : carrier -> carrier;
  x_hlf : carrier -> carrier;
  x_rec : carrier -> carrier;
  x_sqrt : carrier -> carrier;
  x_exp : carrier -> carrier;
  x_log : carrier -> carrier;
  x_sin : carrier -> carrier;
  x_cos : carrier -> carrier;
  x_tan : carrier -> carrier;
  x_atan : carrier -> carrier;
  (** [decide(c==0)], [decide(c>0)]. *)
  x_is0 : carrier -> bool;
  x_pos : carrier -> bool;
  x_sort : list (mi * carrier) -> list (mi * carrier)
}.

Section Differential.
Context (X : scalar).
Notation terms := (list (mi * X)).

(** ** Power series of elementary functions, series.hpp *)
(** numeric/operators.hpp:471 [UnaryElementaryOperator]. *)
Inductive uop := Nul | Pos | Neg | Sqr | Hlf | Rec | Sqrt | Exp | Log | Sin | Cos | Tan | Asin | Acos | Atan | Abs.

(** The loop of the series of tan, series.hpp:89-91: [r+=y[i]*y[d-1-i]]. *)
Definition tan_sum (d : nat) (y : list X) : X :=
  fold_left (fun r i => x_add X r (x_mul X (nth i y (x_nul X)) (nth (d - 1 - i) y (x_nul X))))
            (seq 1 (d - 1)) (x_mul X (nth 0 y (x_nul X)) (nth (d - 1) y (x_nul X))).

(** series.hpp:56-104 [next_series_coefficient(op,d,c,y)]: the coefficient of
    degree [d] given the earlier ones [y].  [None]: ARIADNE_NOT_IMPLEMENTED.
    The integers of the formulae are converted to [X]. *)
Definition next_coefficient (op : uop) (d : nat) (c : X) (y : list X) : option X :=
  let k (n : nat) := x_nat X (N.of_nat n) in
  let Y (i : nat) := nth i y (x_nul X) in
  let nul := x_nul X in
  match op with
  | Nul => Some nul
  | Pos => Some match d with 0 => c | 1 => x_add X nul (k 1) | _ => nul end
  | Neg => Some match d with 0 => x_neg X c | 1 => x_sub X nul (k 1) | _ => nul end
  | Hlf => Some match d with 0 => x_hlf X c | 1 => x_hlf X (x_add X nul (k 1)) | _ => nul end
  | Sqr => Some match d with 0 => x_mul X c c | 1 => x_mul X (k 2) c | 2 => x_add X nul (k 1) | _ => nul end
  | Rec => Some match d with 0 => x_rec X c | _ => x_mul X (Y (d - 1)) (x_neg X (Y 0)) end
  | Sqrt => Some match d with
                 | 0 => x_sqrt X c
                 | _ => (* ((2*(Int)d-3)*(-1/c)/2)/d*y[d-1] *)
                   let f := match d with 1 => x_neg X (k 1) | _ => k (2 * d - 3) end in
                   x_mul X (x_div X (x_div X (x_mul X f (x_div X (x_neg X (k 1)) c)) (k 2)) (k d)) (Y (d - 1))
                 end
  | Exp => Some match d with 0 => x_exp X c | _ => x_div X (Y (d - 1)) (k d) end
  | Log => Some match d with
                | 0 => x_log X c | 1 => x_div X (k 1) c
                | _ => x_div X (x_mul X (x_mul X (x_neg X (Y (d - 1))) (Y 1)) (k (d - 1))) (k d)
                end
  | Sin => Some match d with 0 => x_sin X c | 1 => x_cos X c | _ => x_div X (x_neg X (Y (d - 2))) (k (d * (d - 1))) end
  | Cos => Some match d with 0 => x_cos X c | 1 => x_neg X (x_sin X c) | _ => x_div X (x_neg X (Y (d - 2))) (k (d * (d - 1))) end
  | Tan => Some match d with
                | 0 => x_tan X c | 1 => x_add X (k 1) (x_mul X (Y 0) (Y 0)) | 2 => x_mul X (Y 0) (Y 1)
                | _ => x_div X (tan_sum d y) (k d)
                end
  | Atan => Some match d with
                 | 0 => x_atan X c | 1 => x_rec X (x_add X (k 1) (x_mul X c c))
                 | 2 => x_mul X (x_neg X c) (x_mul X (Y 1) (Y 1))
                 | _ => x_div X (x_mul X (x_neg X (Y 1))
                                         (x_add X (x_mul X (k (d - 2)) (Y (d - 2)))
                                                  (x_mul X (x_mul X (k (2 * (d - 1))) c) (Y (d - 1))))) (k d)
                 end
  | Asin | Acos | Abs => None
  end.

(** series.hpp:155-157 [Series::_compute]: appends coefficients until there
    are [n]. *)
Fixpoint series (op : uop) (c : X) (n : nat) : option (list X) :=
  match n with
  | O => Some []
  | S n' => match series op c n' with
            | None => None
            | Some y => match next_coefficient op n' c y with None => None | Some v => Some (y ++ [v]) end
            end
  end.

(** ** Differentials in several variables *)
(** differential.hpp:98-99: [_expansion], [_degree]; the number of arguments
    is kept by the expansion. *)
Record diff := mkDiff { d_as : nat; d_deg : N; d_exp : terms }.

Definition zeros (n : nat) : mi := repeat 0%N n.
(** multi_index.inl.hpp:80 [MultiIndex::unit]. *)
Definition unit_mi (n j : nat) : mi := map (fun i => if i =? j then 1%N else 0%N) (seq 0 n).
(** multi_index.inl.hpp:85-89 [operator+]: 16-bit entries. *)
Fixpoint madd (a b : mi) : mi := match a, b with x :: a, y :: b => w16 (x + y) :: madd a b | _, _ => [] end.

(** differential.tpl.hpp:87-91, 93-101. *)
Definition d_zero (n : nat) (k : N) : diff := mkDiff n k [].
Definition d_constant (n : nat) (k : N) (c : X) : diff := mkDiff n k [(zeros n, c)].
Definition d_variable (n : nat) (k : N) (v : X) (j : nat) : diff :=
  mkDiff n k [(zeros n, v); (unit_mi n j, x_nat X 1)].
(** differential.tpl.hpp:103-114; [g] has [n] entries, as asserted. *)
Definition d_affine (n : nat) (k : N) (x : X) (g : list X) : diff :=
  mkDiff n k ((zeros n, x) :: map (fun j => (unit_mi n j, nth j g (x_nul X))) (seq 0 n)).
(** differential.tpl.hpp:137-147 [variables]. *)
Definition d_variables (k : N) (v : list X) : list diff :=
  map (fun i => mkDiff (length v) k [(zeros (length v), nth i v (x_nul X)); (unit_mi (length v) i, x_nat X 1)])
      (seq 0 (length v)).
(** differential.tpl.hpp:149-161 [affine(deg,v,G)]: line 157 sets [a[i]=1]
    where the row is [i] and the column [j]; zero entries are left out. *)
Definition v_affine (k : N) (v : list X) (G : list (list X)) : list diff :=
  map (fun i => mkDiff (length v) k
         ((zeros (length v), nth i v (x_nul X)) ::
          concat (map (fun j => let g := nth j (nth i G []) (x_nul X) in
                                if x_is0 X g then [] else [(unit_mi (length v) i, g)])
                      (seq 0 (length v)))))
      (seq 0 (length v)).

(** differential.tpl.hpp:275-280: the sorted search is commented out in
    expansion.tpl.hpp:547-556, so [find] is the linear one. *)
Definition d_get (d : diff) (a : mi) : X := e_get (x_nul X) (d_exp d) a.
(** differential.tpl.hpp:226-238 [value], [gradient]. *)
Definition d_value (d : diff) : X := d_get d (zeros (d_as d)).
Definition d_gradient (d : diff) : list X := map (fun j => d_get d (unit_mi (d_as d) j)) (seq 0 (d_as d)).
(** differential.tpl.hpp:270-273, 295-297: [operator[]=] and [set_value], by
    the sorted [at]. *)
Definition d_set (d : diff) (a : mi) (c : X) : diff := mkDiff (d_as d) (d_deg d) (s_set graded_less (d_exp d) a c).
Definition d_set_value (d : diff) (c : X) : diff := d_set d (zeros (d_as d)) c.

(** differential.tpl.hpp:283-293 [set_degree]: cuts at the first term of
    higher degree. *)
Fixpoint cut (k : N) (e : terms) : terms :=
  match e with [] => [] | (a, c) :: e' => if (k <? degree a)%N then [] else (a, c) :: cut k e' end.
Definition d_set_degree (d : diff) (k : N) : diff :=
  mkDiff (d_as d) k (if (k <? d_deg d)%N then cut k (d_exp d) else d_exp d).

(** differential.tpl.hpp:342-346 [cleanup]. *)
Definition cleanup (e : terms) : terms := remove_zeros (x_is0 X) (combine_terms (x_add X) (x_sort X e)).

(** differential.tpl.hpp:70-77: construction from an expansion. *)
Definition d_of_expansion (n : nat) (e : terms) (k : N) : diff :=
  mkDiff n k (cleanup (filter (fun m => (degree (fst m) <=? k)%N) e)).

(** differential.tpl.hpp:367-375 [neg]; 357-365 [pos] returns the argument up
    to [+xa]. *)
Definition d_neg (x : diff) : diff := mkDiff (d_as x) (d_deg x) (map (fun m => (fst m, x_neg X (snd m))) (d_exp x)).
(** differential.tpl.hpp:377-389. *)
Definition d_addc (x : diff) (c : X) : diff :=
  mkDiff (d_as x) (d_deg x)
    match d_exp x with
    | [] => [(zeros (d_as x), c)]
    | (a, d) :: e => if mi_eqb a (zeros (d_as x)) then (a, x_add X d c) :: e else (zeros (d_as x), c) :: (a, d) :: e
    end.
(** differential.tpl.hpp:391-402. *)
Definition d_mulc (x : diff) (c : X) : diff :=
  mkDiff (d_as x) (d_deg x) (if x_is0 X c then [] else map (fun m => (fst m, x_mul X (snd m) c)) (d_exp x)).

(** The loops of differential.tpl.hpp:415-435 and 448-468. *)
Fixpoint d_merge (f : X -> X -> X) (g : X -> X) (k : N) (e1 : terms) : terms -> terms :=
  fix go (e2 : terms) : terms :=
    match e1, e2 with
    | (a, c) :: e1', (b, d) :: e2' =>
      if mi_eqb a b then (a, f c d) :: d_merge f g k e1' e2'
      else if graded_less a b then (a, c) :: d_merge f g k e1' e2
      else (b, g d) :: go e2'
    | _, [] => cut k e1
    | [], _ => cut k (map (fun m => (fst m, g (snd m))) e2)
    end.
(** differential.tpl.hpp:406-437, 439-470. *)
Definition d_add (x y : diff) : diff :=
  mkDiff (d_as x) (N.min (d_deg x) (d_deg y)) (d_merge (x_add X) (fun c => c) (N.min (d_deg x) (d_deg y)) (d_exp x) (d_exp y)).
Definition d_sub (x y : diff) : diff :=
  mkDiff (d_as x) (N.min (d_deg x) (d_deg y)) (d_merge (x_sub X) (x_neg X) (N.min (d_deg x) (d_deg y)) (d_exp x) (d_exp y)).

(** differential.tpl.hpp:472-492. *)
Fixpoint mul_row (k : N) (a : mi) (c : X) (e : terms) : terms :=
  match e with
  | [] => []
  | (b, d) :: e' => if (k <? degree a + degree b)%N then [] else (madd a b, x_mul X c d) :: mul_row k a c e'
  end.
Fixpoint mul_rows (k : N) (e1 e2 : terms) : terms :=
  match e1 with
  | [] => []
  | (a, c) :: e1' => if (k <? degree a)%N then [] else mul_row k a c e2 ++ mul_rows k e1' e2
  end.
Definition d_mul (x y : diff) : diff :=
  let k := N.min (d_deg x) (d_deg y) in mkDiff (d_as x) k (cleanup (mul_rows k (d_exp x) (d_exp y))).

(** The three with the assertion on the numbers of arguments. *)
Definition checked (f : diff -> diff -> diff) (x y : diff) : outcome diff :=
  if d_as x =? d_as y then Ret (f x y) else AssertFail.

(** ** Composition with a power series, differential.tpl.hpp:574-589 *)
(** [n] iterations of the loop remain; the coefficient added is [x[n-1]]. *)
Fixpoint horner (w : diff) (x : list X) (n : nat) (r : diff) : diff :=
  match n with O => r | S n' => horner w x n' (d_addc (d_mul r w) (nth n' x (x_nul X))) end.
(** [x] has [d+1] coefficients, with [d] at least the degree of [y] when it
    comes from a series; [w.begin()] is dereferenced without a test: [UB] when
    there are no terms. *)
Definition compose_series (x : list X) (y : diff) : outcome diff :=
  let d := N.min (N.of_nat (length x - 1)) (d_deg y) in
  match d_exp y with
  | [] => UB
  | (a, c) :: e =>
    let w := mkDiff (d_as y) (d_deg y) ((a, if (degree a =? 0)%N then x_nul X else c) :: e) in
    Ret (horner w x (N.to_nat d) (mkDiff (d_as y) d [(zeros (d_as y), nth (N.to_nat d) x (x_nul X))]))
  end.

(** differential.hpp:304-305: every unary operation other than [pos], [neg]
    and [abs]. *)
Definition d_unary (op : uop) (x : diff) : outcome diff :=
  match series op (d_value x) (S (N.to_nat (d_deg x))) with
  | None => AssertFail
  | Some s => compose_series s x
  end.
(** differential.tpl.hpp:525-531 [abs]: [decide(x>0)] otherwise. *)
Definition d_abs (x : diff) : outcome diff :=
  if x_is0 X (d_value x) then AssertFail else Ret (if x_pos X (d_value x) then x else d_neg x).
(** differential.tpl.hpp:494-498 [div]. *)
Definition d_div (x y : diff) : outcome diff :=
  match d_unary Rec y with Ret r => checked d_mul x r | AssertFail => AssertFail | UB => UB end.
(** numeric/arithmetic.hpp:46-49 [generic_pow], used by differential.tpl.hpp:500-504. *)
Fixpoint pow_loop (m : positive) (r p : diff) : diff :=
  match m with
  | xH => d_mul r p
  | xO m' => pow_loop m' r (d_mul p p)
  | xI m' => pow_loop m' (d_mul r p) (d_mul p p)
  end.
Definition d_pow_nat (x : diff) (m : N) : diff :=
  let r := d_addc (d_mulc x (x_nat X 0)) (x_nat X 1) in
  match m with N0 => r | Npos p => pow_loop p r x end.
Definition d_pow (x : diff) (n : Z) : outcome diff :=
  match n with
  | Z0 => Ret (d_pow_nat x 0)
  | Zpos p => Ret (d_pow_nat x (Npos p))
  | Zneg p => d_unary Rec (d_pow_nat x (Npos p))
  end.

(** ** Composition in several variables *)
(** differential.hpp:393-394: a vector keeps the number of arguments and the
    degree apart from its elements. *)
Record dvec := mkVec { v_as : nat; v_deg : N; v_elt : list diff }.
(** differential.hpp:430 [zero_element]. *)
Definition v_zero (y : dvec) : diff := d_constant (v_as y) (v_deg y) (x_nul X).

(** differential.tpl.hpp:547-555: [val[j][k]]. *)
Fixpoint val_pow (one a : diff) (k : nat) : diff :=
  match k with O => one | 1 => a | S k' => d_mul (val_pow one a k') a end.
(** differential.tpl.hpp:562-565: [t=t*val[k][j[k]]] for every k. *)
Fixpoint val_monomial (one t : diff) (j : mi) (a : list diff) : diff :=
  match j, a with
  | n :: j, x :: a => val_monomial one (d_mul t (val_pow one x (N.to_nat n))) j a
  | _, _ => t
  end.
(** differential.tpl.hpp:536-571 [_evaluate]; the sizes are asserted equal and
    the degree at least 1. *)
Definition d_evaluate (x : diff) (a : dvec) : outcome diff :=
  if negb (d_as x =? length (v_elt a)) then AssertFail
  else if (d_deg x <? 1)%N then AssertFail
  else
    let zero := v_zero a in
    let one := d_constant (d_as zero) (d_deg zero) (x_nat X 1) in
    Ret (fold_left (fun r m => d_add r (d_mulc (val_monomial one one (fst m) (v_elt a)) (snd m))) (d_exp x) zero).
Definition zeroed (y : dvec) : dvec := mkVec (v_as y) (v_deg y) (map (fun d => d_set_value d (x_nul X)) (v_elt y)).
Definition restored (y y' : dvec) : dvec :=
  mkVec (v_as y') (v_deg y') (map (fun p => d_set_value (fst p) (d_value (snd p))) (combine (v_elt y') (v_elt y))).
(** differential.tpl.hpp:591-603 [_compose]: the values of [y] are set to zero
    in place, and put back afterwards unless the evaluation fails.  The second
    component is [y] after the call. *)
Definition d_compose (x : diff) (y : dvec) : outcome diff * dvec :=
  match d_evaluate x (zeroed y) with
  | Ret r => (Ret (d_set_degree r (N.min (d_deg x) (v_deg y))), restored y (zeroed y))
  | AssertFail => (AssertFail, zeroed y)
  | UB => (UB, zeroed y)
  end.
(** The same call when [x] is the element [i] of [y]: [compose(y[i],y)]. *)
Definition d_compose_own (i : nat) (y : dvec) : outcome diff * dvec :=
  match d_evaluate (nth i (v_elt (zeroed y)) (v_zero y)) (zeroed y) with
  | Ret r => (Ret (d_set_degree r (N.min (d_deg (nth i (v_elt y) (v_zero y))) (v_deg y))), restored y (zeroed y))
  | AssertFail => (AssertFail, zeroed y)
  | UB => (UB, zeroed y)
  end.
(** differential.tpl.hpp:746-751 [Vector::_compose]: the vector built from
    [y.zero_element()] keeps the degree of [y]; only its elements have their
    degree set. *)
Fixpoint outcomes {A} (l : list (outcome A)) : outcome (list A) :=
  match l with
  | [] => Ret []
  | Ret x :: l' => match outcomes l' with Ret r => Ret (x :: r) | e => e end
  | AssertFail :: _ => AssertFail
  | UB :: _ => UB
  end.
Definition v_compose (x y : dvec) : outcome dvec :=
  match outcomes (map (fun xi => fst (d_compose xi y)) (v_elt x)) with
  | Ret r => Ret (mkVec (v_as y) (v_deg y) r) | AssertFail => AssertFail | UB => UB
  end.
(** [compose(x,x)]: both arguments are the same object. *)
Definition v_compose_self (x : dvec) : outcome dvec :=
  match outcomes (map (fun i => fst (d_compose_own i x)) (seq 0 (length (v_elt x)))) with
  | Ret r => Ret (mkVec (v_as x) (v_deg x) r) | AssertFail => AssertFail | UB => UB
  end.

(** ** Derivatives and integrals *)
Fixpoint mi_upd (a : mi) (i : nat) (v : N) : mi :=
  match a, i with
  | [], _ => []
  | _ :: a, O => v :: a
  | x :: a, S i => x :: mi_upd a i v
  end.
(** differential.tpl.hpp:622-640. *)
Definition d_derivative (x : diff) (i : nat) : diff :=
  if (d_deg x =? 0)%N then d_zero (d_as x) 0 else
  fold_left (fun r m => let a := fst m in let n := nth i a 0%N in
                        if (n =? 0)%N then r else d_set r (mi_upd a i (n - 1)) (x_mul X (d_get x a) (x_nat X n)))
            (d_exp x) (d_zero (d_as x) (d_deg x - 1)).
(** differential.tpl.hpp:642-659. *)
Definition d_antiderivative (x : diff) (i : nat) : diff :=
  fold_left (fun r m => let a := fst m in let n := w16 (nth i a 0%N + 1)%N in
                        d_set r (mi_upd a i n) (x_div X (d_get x a) (x_nat X n)))
            (d_exp x) (d_zero (d_as x) (w16 (d_deg x + 1))).
(** differential.tpl.hpp:753-770. *)
Definition v_antiderivative (x : dvec) (i : nat) : dvec :=
  mkVec (v_as x) (w16 (v_deg x + 1)) (map (fun d => d_antiderivative d i) (v_elt x)).
Definition v_derivative (x : dvec) (i : nat) : dvec :=
  mkVec (v_as x) (N.max (v_deg x) 1 - 1) (map (fun d => d_derivative d i) (v_elt x)).

(** differential.tpl.hpp:774-800 [lie_derivative]: one component. *)
Definition lie_terms (e : terms) (j : nat) : terms :=
  concat (map (fun m => let a := fst m in let n := nth j a 0%N in
                        if (n =? 0)%N then [] else [(mi_upd a j (n - 1), x_mul X (snd m) (x_nat X n))]) e).
Definition d_lie (n : nat) (k : N) (f : diff) (g : list diff) : diff :=
  fold_left (fun r j => d_add r (d_mul (mkDiff n (k - 1) (lie_terms (d_exp f) j)) (nth j g (d_zero n k))))
            (seq 0 n) (d_zero n (k - 1)).

(** The first and second derivatives of a vector, differential.tpl.hpp:719-729. *)
Definition v_jacobian (x : dvec) : list (list X) := map (fun d => map (fun j => d_get d (unit_mi (d_as d) j)) (seq 0 (v_as x))) (v_elt x).

(** ** Flows *)
(** differential.tpl.hpp:901-919: [dphi=dx0+antiderivative(compose(df,join(dphi,da)),n)];
    the sum takes its characteristics from its first element. *)
Definition v_join (x y : dvec) : dvec :=
  mkVec (v_as x) (match v_elt x with d :: _ => d_deg d | [] => v_deg x end) (v_elt x ++ v_elt y).
Definition v_add (x y : dvec) : dvec :=
  let r := map (fun p => d_add (fst p) (snd p)) (combine (v_elt x) (v_elt y)) in
  mkVec (v_as x) (match r with d :: _ => d_deg d | [] => v_deg x end) r.
Fixpoint flow_loop (df dx0 da : dvec) (n m : nat) (dphi : dvec) : outcome dvec :=
  match m with
  | O => Ret dphi
  | S m' => match v_compose df (v_join dphi da) with
            | Ret c => flow_loop df dx0 da n m' (v_add dx0 (v_antiderivative c n))
            | AssertFail => AssertFail | UB => UB
            end
  end.
Definition v_flow_gen (df dx0 da : dvec) : outcome dvec :=
  let n := length (v_elt dx0) in
  let k := N.min (N.min (v_deg df) (v_deg da) + 1) (v_deg dx0) in
  flow_loop df dx0 da n (N.to_nat k) (mkVec (v_as dx0) 0 (repeat (d_zero (v_as dx0) 0) n)).
(** differential.tpl.hpp:834-850: no other arguments. *)
Definition v_flow (df : dvec) (x0 : list X) : outcome dvec :=
  let n := length x0 in
  let k := w16 (v_deg df + 1) in
  let dx0 := mkVec (n + 1) k (map (fun i => d_variable (n + 1) k (nth i x0 (x_nul X)) i) (seq 0 n)) in
  flow_loop df dx0 (mkVec (n + 1) k []) n (N.to_nat (v_deg df + 1)) (mkVec (n + 1) 0 (repeat (d_zero (n + 1) 0) n)).
(** differential.tpl.hpp:852-865: a time-dependent vector field. *)
Definition v_flow_time (df : dvec) (x0 : list X) (t0 : X) : outcome dvec :=
  let n := length x0 in
  let k := w16 (v_deg df + 1) in
  v_flow_gen df (mkVec (n + 1) k (map (fun i => d_variable (n + 1) k (nth i x0 (x_nul X)) i) (seq 0 n)))
                (mkVec (n + 1) k [d_variable (n + 1) k t0 n]).
(** differential.tpl.hpp:867-882: a vector field with parameters; line 879
    makes the parameter [i] the variable [n+i], and [n] is the time. *)
Definition v_flow_params (df : dvec) (x0 a : list X) : outcome dvec :=
  let n := length x0 in let m := length a in
  let k := w16 (v_deg df + 1) in
  v_flow_gen df (mkVec (n + 1 + m) k (map (fun i => d_variable (n + 1 + m) k (nth i x0 (x_nul X)) i) (seq 0 n)))
                (mkVec (n + 1 + m) k (map (fun i => d_variable (n + 1 + m) k (nth i a (x_nul X)) (n + i)) (seq 0 m))).
(** differential.tpl.hpp:884-899: time and parameters. *)
Definition v_flow_all (df : dvec) (x0 : list X) (t0 : X) (a : list X) : outcome dvec :=
  let n := length x0 in let m := length a in
  let k := w16 (v_deg df + 1) in
  v_flow_gen df (mkVec (n + 1 + m) k (map (fun i => d_variable (n + 1 + m) k (nth i x0 (x_nul X)) i) (seq 0 n)))
                (mkVec (n + 1 + m) k (map (fun i => d_variable (n + 1 + m) k (nth i (t0 :: a) (x_nul X)) (n + i)) (seq 0 (m + 1)))).

(** ** One variable, univariate_differential.{hpp,tpl.hpp} *)
(** The array of coefficients; the degree is its size minus one. *)
Definition udiff := list X.
Definition u_deg (x : udiff) : nat := length x - 1.
Definition u_get (x : udiff) (i : nat) : X := nth i x (x_nul X).
(** univariate_differential.hpp:161-183. *)
Definition u_add (x y : udiff) : udiff := map (fun i => x_add X (u_get x i) (u_get y i)) (seq 0 (S (Nat.min (u_deg x) (u_deg y)))).
Definition u_sub (x y : udiff) : udiff := map (fun i => x_sub X (u_get x i) (u_get y i)) (seq 0 (S (Nat.min (u_deg x) (u_deg y)))).
Definition u_neg (x : udiff) : udiff := map (x_neg X) x.
(** The product: entry [n] receives [x[i]*y[n-i]] for i = 0..n, in this order. *)
Definition u_mul (x y : udiff) : udiff :=
  map (fun n => fold_left (fun r i => x_add X r (x_mul X (u_get x i) (u_get y (n - i)))) (seq 0 (S n)) (x_nul X))
      (seq 0 (S (Nat.min (u_deg x) (u_deg y)))).
(** univariate_differential.tpl.hpp:99-115. *)
Definition u_set0 (x : udiff) (c : X) : udiff := match x with [] => [] | _ :: x => c :: x end.
Fixpoint u_horner (y : udiff) (x : udiff) (n : nat) (r : udiff) : udiff :=
  match n with O => r | S n' => let r' := u_mul r y in u_horner y x n' (u_set0 r' (x_add X (u_get r' 0) (u_get x n'))) end.
Definition u_compose (x y : udiff) : udiff :=
  let d := Nat.min (u_deg x) (u_deg y) in
  u_horner (u_set0 y (x_nul X)) x d (u_get x d :: repeat (x_nul X) d).
(** The call [compose(x,x)] on one object: the value is zero during it. *)
Definition u_compose_self (x : udiff) : udiff := u_compose (u_set0 x (x_nul X)) x.
(** univariate_differential.hpp:194-195: every unary operation other than
    [pos], [neg] and [sqr]; univariate_differential.tpl.hpp:49-58, 81-92. *)
Definition u_unary (op : uop) (x : udiff) : outcome udiff :=
  match series op (u_get x 0) (S (u_deg x)) with None => AssertFail | Some s => Ret (u_compose s x) end.
Definition u_constant (d : nat) (c : X) : udiff := c :: repeat (x_nul X) d.
Definition u_variable (d : nat) (c : X) : udiff := match d with O => [c] | S d' => c :: x_nat X 1 :: repeat (x_nul X) d' end.
Definition u_addc (x : udiff) (c : X) : udiff := u_set0 x (x_add X (u_get x 0) c).
Definition u_mulc (x : udiff) (c : X) : udiff := map (fun a => x_mul X a c) x.
(** univariate_differential.tpl.hpp:117-128: the result has [min(n,1)-1+1]
    coefficients (as 16-bit numbers) and [n] are written. *)
Definition u_derivative (x : udiff) : outcome udiff :=
  match u_deg x with
  | O => Ret (x_mul X (u_get x 0) (x_nat X 0) :: repeat (x_nul X) (N.to_nat 65535))
  | S O => Ret [x_mul X (x_nat X 1) (u_get x 1)]
  | _ => UB
  end.
(** univariate_differential.tpl.hpp:130-153. *)
Definition u_antiderivative (x : udiff) (c : X) : udiff :=
  c :: map (fun i => x_div X (u_get x i) (x_nat X (N.of_nat (i + 1)))) (seq 0 (S (u_deg x))).
End Differential.
