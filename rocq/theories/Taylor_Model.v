(** * Taylor models with float coefficients

    Models /repo/source/function/taylor_model.tpl.hpp for
    TaylorModel<ValidatedTag,FloatDP> and TaylorModel<ValidatedTag,FloatMP>.

    A Taylor model is its expansion (Poly_Model) and its error bound.
    Simplifications:
    - every rounded operation is correctly rounded in the mode current at that
      point of the code; the rounding mode itself is not a state component
      (the functions set it before every operation they perform);
    - all coefficients and errors have the same precision;
    - a sweeper is its discard predicate, which may depend on the whole
      expansion and the error (this covers every class of sweeper.hpp,
      including the relative sweepers, which first compute a norm). *)

From Coq Require Import ZArith NArith List Bool.
From Flocq Require Import Core IEEE754.BinarySingleNaN.
From Verif Require Import Float_Model Bounds_Model ErrBound_Model LRU_Model Poly_Model.
Import ListNotations.

Section Taylor.
Context {prec emax : Z}
        {Hprec : Prec_gt_0 prec} {Hemax : Prec_lt_emax prec emax}.
Notation fl := (binary_float prec emax).
Notation bnd := (bounds prec emax).

Definition fexpn := list (mi * fl).
Record tm := mkTM { t_exp : fexpn; t_err : fl }.
Definition policy := fexpn -> fl -> mi -> fl -> bool.

(** ** Operations which add their rounding error to an accumulator *)
(** Each returns the result and the updated accumulator.  The last three
    operations of each function run in upward mode, [hlf] included. *)
(** 618-627. *)
Definition add_err (x1 x2 e : fl) : fl * fl :=
  let r := fadd near x1 x2 in
  let u := fadd up x1 x2 in
  let ml := fsub up (fneg x1) x2 in
  (r, fadd up e (fhlf up (fadd up u ml))).
(** 629-646: the constant is a Bounds; its approximation is its value (573). *)
Definition add_err_b (x : fl) (c : bnd) (e : fl) : fl * fl :=
  let rv := fadd near x (b_value c) in
  let u := fadd up x (b_u c) in
  let ml := fsub up (fneg x) (b_l c) in
  (rv, fadd up e (fhlf up (fadd up u ml))).
(** 664-673. *)
Definition sub_err (x1 x2 e : fl) : fl * fl :=
  let r := fsub near x1 x2 in
  let u := fsub up x1 x2 in
  let ml := fadd up (fneg x1) x2 in
  (r, fadd up e (fhlf up (fadd up u ml))).
(** 702-711. *)
Definition mul_err (x1 x2 e : fl) : fl * fl :=
  let r := fmul near x1 x2 in
  let u := fmul up x1 x2 in
  let ml := fmul up (fneg x1) x2 in
  (r, fadd up e (fhlf up (fadd up u ml))).
(** 713-738. *)
Definition mul_err_b (x : fl) (c : bnd) (e : fl) : fl * fl :=
  let rv := fmul near x (b_value c) in
  if ge0 x then
    let u := fmul up x (b_u c) in
    let ml := fmul up x (fneg (b_l c)) in
    (rv, fadd up e (fhlf up (fadd up u ml)))
  else
    let u := fmul up x (b_l c) in
    let ml := fmul up x (fneg (b_u c)) in
    (rv, fadd up e (fhlf up (fadd up u ml))).
(** 772-781. *)
Definition div_err (x1 x2 e : fl) : fl * fl :=
  let r := fdiv near x1 x2 in
  let u := fdiv up x1 x2 in
  let ml := fdiv up (fneg x1) x2 in
  (r, fadd up e (fhlf up (fadd up u ml))).
(** 815-828: two roundings in each line. *)
Definition fma_err (x y z e : fl) : fl * fl :=
  let rv := fadd near (fmul near x y) z in
  let u := fadd up (fmul up x y) z in
  let ml := fsub up (fmul up x (fneg y)) z in
  (rv, fadd up e (fhlf up (fadd up u ml))).
(** 740-742, 783-785 with [F(n,pr)], exact for the degrees that occur. *)
Definition mul_err_n (x : fl) (n : N) (e : fl) : fl * fl := mul_err x (fnat near n) e.
Definition div_err_n (x : fl) (n : N) (e : fl) : fl * fl := div_err x (fnat near n) e.
(** 547-549. *)
Definition set_err (c : bnd) (e : fl) : fl * fl := (b_value c, fadd up e (b_error c)).

(** ** Sweeping *)
(** 213-237 and 325-351: coefficients in F. *)
Fixpoint sweep_terms (d : mi -> fl -> bool) (p : fexpn) (te : fl) : fexpn * fl :=
  match p with
  | [] => ([], te)
  | (a, c) :: p' =>
    if d a c then sweep_terms d p' (fadd up te (fabs c))
    else let '(q, te') := sweep_terms d p' te in ((a, c) :: q, te')
  end.
Definition sweep (swp : policy) (t : tm) : tm :=
  let '(q, te) := sweep_terms (swp (t_exp t) (t_err t)) (t_exp t) fzero in
  mkTM q (fadd up (t_err t) te).

(** 354-381 (RelativeSweeperBase) and 240-264 (SweeperBase; 285-309 is the same for
    interval coefficients): coefficients in
    Bounds<F>.  The first accumulates the magnitude; the second evaluates
    [te+mag(c)] and discards the result. *)
Definition bexpn := list (mi * bnd).
Fixpoint sweep_bounds_rel (d : mi -> fl -> bool) (p : bexpn) (te : fl) : bexpn * fl :=
  match p with
  | [] => ([], te)
  | (a, c) :: p' =>
    if d a (b_mag c) then sweep_bounds_rel d p' (fadd up te (b_mag c))
    else let '(q, te') := sweep_bounds_rel d p' te in ((a, c) :: q, te')
  end.
Fixpoint sweep_bounds_abs (d : mi -> fl -> bool) (p : bexpn) (te : fl) : bexpn * fl :=
  match p with
  | [] => ([], te)
  | (a, c) :: p' =>
    if d a (b_mag c) then sweep_bounds_abs d p' te
    else let '(q, te') := sweep_bounds_abs d p' te in ((a, c) :: q, te')
  end.
Definition sweep_rel (d : mi -> fl -> bool) (p : bexpn) (e : fl) : bexpn * fl :=
  let '(q, te) := sweep_bounds_rel d p fzero in (q, fadd up e te).
Definition sweep_abs (d : mi -> fl -> bool) (p : bexpn) (e : fl) : bexpn * fl :=
  let '(q, te) := sweep_bounds_abs d p fzero in (q, fadd up e te).

(** ** Arithmetic *)
(** 876-883. *)
Fixpoint apply_terms (op : fl -> fl -> fl * fl) (p : fexpn) (e : fl) : fexpn * fl :=
  match p with
  | [] => ([], e)
  | (a, c) :: p' =>
    let '(v, e1) := op c e in
    let '(q, e2) := apply_terms op p' e1 in ((a, v) :: q, e2)
  end.
Definition sparse_apply (op : fl -> fl -> fl * fl) (t : tm) : tm :=
  let '(q, e) := apply_terms op (t_exp t) fzero in mkTM q (fadd up (t_err t) e).

(** 885-918; [operator<] on multi-indices is the reverse lexicographic order.
    [g] is the action on a term of [y] alone. *)
Fixpoint merge (op : fl -> fl -> fl -> fl * fl) (g : fl -> fl) (x : fexpn) {struct x} : fexpn -> fl -> fexpn * fl :=
  match x with
  | [] => fun y e => (map (fun m => (fst m, g (snd m))) y, e)
  | (xa, xv) :: x' =>
    fix merge_y (y : fexpn) (e : fl) {struct y} : fexpn * fl :=
      match y with
      | [] => ((xa, xv) :: x', e)
      | (ya, yv) :: y' =>
        if reverse_lexicographic_less xa ya then
          let '(q, e') := merge op g x' ((ya, yv) :: y') e in ((xa, xv) :: q, e')
        else if reverse_lexicographic_less ya xa then
          let '(q, e') := merge_y y' e in ((ya, g yv) :: q, e')
        else
          let '(v, e1) := op xv yv e in
          let '(q, e2) := merge op g x' y' e1 in ((xa, v) :: q, e2)
      end
  end.

(** 952-955. *)
Definition tm_neg (t : tm) : tm := sparse_apply (fun c e => (fneg c, e)) t.
(** 963-966 for C=F and C=Bounds<F>. *)
Definition tm_scal (t : tm) (c : fl) : tm :=
  sparse_apply (fun v e => mul_err v c e) (mkTM (t_exp t) (fmul up (t_err t) (fabs c))).
Definition tm_scal_b (t : tm) (c : bnd) : tm :=
  sparse_apply (fun v e => mul_err_b v c e) (mkTM (t_exp t) (fmul up (t_err t) (b_mag c))).

(** 993-1008 for C=Bounds<F> in [n] variables. *)
Definition tm_acc (n : nat) (t : tm) (c : bnd) : tm :=
  if flt_eq (b_l c) fzero && flt_eq (b_u c) fzero then t else
  match rev (t_exp t) with
  | (a, v) :: p =>
    if (0 <? degree a)%N then
      let '(rv, e) := set_err c (t_err t) in mkTM (t_exp t ++ [(repeat 0%N n, rv)]) e
    else
      let '(rv, e) := add_err_b v c (t_err t) in mkTM (rev p ++ [(a, rv)]) e
  | [] => let '(rv, e) := set_err c (t_err t) in mkTM (t_exp t ++ [(repeat 0%N n, rv)]) e
  end.

(** 1017-1036; the result starts with error zero. *)
Definition tm_add (swp : policy) (x y : tm) : tm :=
  let '(q, e) := merge add_err (fun v => v) (t_exp x) (t_exp y) fzero in
  sweep swp (mkTM q (fadd up (fadd up fzero e) (fadd up (t_err x) (t_err y)))).
Definition tm_sub (swp : policy) (x y : tm) : tm :=
  let '(q, e) := merge sub_err fneg (t_exp x) (t_exp y) fzero in
  sweep swp (mkTM q (fadd up (fadd up fzero e) (fadd up (t_err x) (t_err y)))).

(** multi_index.inl.hpp:91: the sum of two indices of the same size. *)
Fixpoint mi_plus (a b : mi) : mi :=
  match a, b with x :: a, y :: b => w16 (x + y) :: mi_plus a b | _, _ => [] end.

(** 1077-1109: the loop over [r] and [y] for one term of [x]. *)
Fixpoint fma_row (xa : mi) (xv : fl) (r : fexpn) {struct r} : fexpn -> fl -> fexpn * fl :=
  match r with
  | [] => fix mul_row (y : fexpn) (e : fl) {struct y} : fexpn * fl :=
      match y with
      | [] => ([], e)
      | (ya, yv) :: y' =>
        let '(v, e1) := mul_err xv yv e in
        let '(q, e2) := mul_row y' e1 in ((mi_plus xa ya, v) :: q, e2)
      end
  | (ra, rv) :: r' =>
    fix row_y (y : fexpn) (e : fl) {struct y} : fexpn * fl :=
      match y with
      | [] => ((ra, rv) :: r', e)
      | (ya, yv) :: y' =>
        let ta := mi_plus xa ya in
        if mi_eqb ra ta then
          let '(v, e1) := fma_err xv yv rv e in
          let '(q, e2) := fma_row xa xv r' y' e1 in ((ta, v) :: q, e2)
        else if reverse_lexicographic_less ra ta then
          let '(q, e') := fma_row xa xv r' ((ya, yv) :: y') e in ((ra, rv) :: q, e')
        else
          let '(v, e1) := mul_err xv yv e in
          let '(q, e2) := row_y y' e1 in ((ta, v) :: q, e2)
      end
  end.
(** 1073-1118. *)
Fixpoint fma_rows (swp : policy) (x : fexpn) (y : fexpn) (r : tm) : tm :=
  match x with
  | [] => r
  | (xa, xv) :: x' =>
    let '(q, te) := fma_row xa xv (t_exp r) y fzero in
    fma_rows swp x' y (sweep swp (mkTM q (fadd up (t_err r) te)))
  end.
(** 1120-1128: the sum of the magnitudes of the coefficients. *)
Definition mag_sum (p : fexpn) (s : fl) : fl := fold_left (fun s m => fadd up s (fabs (snd m))) p s.
(** 1061-1136. *)
Definition tm_ifma (swp : policy) (r x y : tm) : tm :=
  let r' := fma_rows swp (t_exp x) (t_exp y) r in
  let xs := mag_sum (t_exp x) fzero in
  let ys := mag_sum (t_exp y) fzero in
  let re := fadd up (t_err r') (fmul up (t_err x) (t_err y)) in
  mkTM (t_exp r') (fadd up re (fadd up (fmul up xs (t_err y)) (fmul up ys (t_err x)))).
(** 1145-1151. *)
Definition tm_mul (swp : policy) (x y : tm) : tm := tm_ifma swp (mkTM [] fzero) x y.

(** 1235-1257 [unique], after a sort. *)
Fixpoint unique_from (a : mi) (v : fl) (p : fexpn) (e : fl) : fexpn * fl :=
  match p with
  | [] => ([(a, v)], e)
  | (b, c) :: p' =>
    if mi_eqb b a then let '(w, e1) := add_err v c e in unique_from a w p' e1
    else let '(q, e') := unique_from b c p' e in ((a, v) :: q, e')
  end.
Definition tm_unique (t : tm) : tm :=
  match t_exp t with
  | [] => mkTM [] (fadd up (t_err t) fzero)
  | (a, v) :: p => let '(q, e) := unique_from a v p fzero in mkTM q (fadd up (t_err t) e)
  end.

(** ** Bounds on the function *)
(** 1914-1921 and 1903-1912; [degree] is computed in 16 bits. *)
Definition tm_norm (t : tm) : fl := fadd up (mag_sum (t_exp t) fzero) (t_err t).
Definition tm_radius (t : tm) : fl :=
  fadd up (mag_sum (filter (fun m => negb (degree (fst m) =? 0)%N) (t_exp t)) fzero) (t_err t).
(** 1928-1935: [d-=tm1] is [_sub] with the sweeper of [tm2]. *)
Definition tm_refines (swp : policy) (t1 t2 : tm) : bool :=
  flt_le (tm_norm (tm_sub swp (mkTM (t_exp t2) fzero) t1)) (t_err t2).
(** 1938-1946. *)
Definition tm_consistent (swp : policy) (t1 t2 : tm) : bool :=
  flt_le (tm_norm (tm_sub swp t1 t2)) (fmul up (fnat up 2) (fadd up (t_err t1) (t_err t2))).
(** 1948-1952; [value()] is the coefficient of the zero index, zero if absent;
    the difference of two floats is a Bounds. *)
Definition tm_value (n : nat) (t : tm) : fl := e_get fzero (t_exp t) (repeat 0%N n).
Definition tm_inconsistent (n : nat) (t1 t2 : tm) : bool :=
  flt_lt (fadd up (t_err t1) (t_err t2)) (b_mag (ff_sub (tm_value n t1) (tm_value n t2))).

(** 1322-1371 [range].  The loop over the terms. *)
Record range_state := mkRS { rs_c : fl; rs_l : list fl; rs_q : list fl; rs_e : fl }.
Fixpoint find_entry (v : N) (a : mi) : option nat :=
  match a with
  | [] => None
  | x :: a => if (x =? v)%N then Some 0%nat else option_map S (find_entry v a)
  end.
(** The loop at 1340-1343: the first entry equal to 2 or 1 decides. *)
Fixpoint find_square (a : mi) : option (nat * bool) :=
  match a with
  | [] => None
  | x :: a => if (x =? 2)%N then Some (0%nat, true) else if (x =? 1)%N then Some (0%nat, false)
              else option_map (fun jb => (S (fst jb), snd jb)) (find_square a)
  end.
Definition range_term (s : range_state) (m : mi * fl) : range_state :=
  let '(a, c) := m in
  if (degree a =? 0)%N then mkRS c (rs_l s) (rs_q s) (rs_e s)
  else if (degree a =? 1)%N then
    match find_entry 1 a with
    | Some j => mkRS (rs_c s) (upd (rs_l s) j c) (rs_q s) (rs_e s)
    | None => s
    end
  else if (degree a =? 2)%N then
    match find_square a with
    | Some (j, true) => mkRS (rs_c s) (rs_l s) (upd (rs_q s) j c) (rs_e s)
    | Some (_, false) => mkRS (rs_c s) (rs_l s) (rs_q s) (fadd up (rs_e s) (fabs c))
    | None => s
    end
  else mkRS (rs_c s) (rs_l s) (rs_q s) (fadd up (rs_e s) (fabs c)).
Definition range_init (n : nat) : range_state := mkRS fzero (repeat fzero n) (repeat fzero n) fzero.
(** 1350-1366.  [abs(a)*unit_ivl] is a product of Bounds (interval.hpp:128);
    [b/a] of two floats is a Bounds, divided by the literal 2; [sqr(b)/a/4]
    likewise. *)
Definition ffour : fl := Bldexp mode_NE Bone 2.
Definition unit_ivl : bnd := mkB (fneg fone) fone.
Definition quad_range (a b : fl) : bnd :=
  let ql := b_add (fb_mul (fabs a) unit_ivl) (fb_mul (fabs b) unit_ivl) in
  if flt_eq a fzero then ql else
  let qf := b_sub (fb_mul a (b_sqr (b_add unit_ivl (bf_div (ff_div b a) ftwo))))
                  (bf_div (bf_div (ff_sqr b) a) ffour) in
  b_refinement ql qf.
Definition tm_range (n : nat) (t : tm) : bnd :=
  let s := fold_left range_term (t_exp t) (range_init n) in
  let err := fadd up (rs_e s) (t_err t) in
  fold_left (fun r ab => b_add r (quad_range (fst ab) (snd ab)))
            (combine (rs_q s) (rs_l s))
            (bf_add (mkB (fneg err) err) (rs_c s)).

(** ** Integration and differentiation *)
Fixpoint incr (k : nat) (a : mi) : mi :=
  match a, k with
  | [], _ => []
  | x :: a, O => w16 (x + 1) :: a
  | x :: a, S k => x :: incr k a
  end.
Fixpoint decr (k : nat) (a : mi) : mi :=
  match a, k with
  | [], _ => []
  | x :: a, O => w16 (x + 65535) :: a
  | x :: a, S k => x :: decr k a
  end.
(** 1637-1650. *)
Fixpoint antidiff_terms (k : nat) (p : fexpn) (e : fl) : fexpn * fl :=
  match p with
  | [] => ([], e)
  | (a, v) :: p' =>
    let a' := incr k a in
    let '(w, e1) := div_err_n v (nth k a' 0%N) e in
    let '(q, e2) := antidiff_terms k p' e1 in ((a', w) :: q, e2)
  end.
Definition tm_antidiff (k : nat) (t : tm) : tm :=
  let '(q, e) := antidiff_terms k (t_exp t) fzero in mkTM q (fadd up (t_err t) e).
(** 1661-1684: the error is cleared first. *)
Fixpoint diff_terms (k : nat) (p : fexpn) (e : fl) : fexpn * fl :=
  match p with
  | [] => ([], e)
  | (a, v) :: p' =>
    if (nth k a 0 =? 0)%N then diff_terms k p' e
    else
      let '(w, e1) := mul_err_n v (nth k a 0%N) e in
      let '(q, e2) := diff_terms k p' e1 in ((decr k a, w) :: q, e2)
  end.
Definition tm_diff (k : nat) (t : tm) : tm :=
  let '(q, e) := diff_terms k (t_exp t) fzero in mkTM q e.

(** ** Variables *)
(** 1560-1582: a new last variable carries the error. *)
Definition tm_embed_error (n : nat) (t : tm) : tm :=
  mkTM ((repeat 0%N n ++ [1%N], t_err t) :: map (fun m => (fst m ++ [0%N], snd m)) (t_exp t)) fzero.
(** 1584-1624; [keep] says for each variable whether it is kept.  The check of
    the array of discarded variables (1585-1588) is not modelled. *)
Fixpoint select {A} (keep : list bool) (l : list A) : list A :=
  match keep, l with
  | b :: keep, x :: l => if b then x :: select keep l else select keep l
  | _, _ => []
  end.
Fixpoint uses_discarded (keep : list bool) (a : mi) : bool :=
  match keep, a with
  | b :: keep, x :: a => (negb b && negb (x =? 0)%N) || uses_discarded keep a
  | _, _ => false
  end.
Fixpoint discard_terms (keep : list bool) (p : fexpn) (e : fl) : fexpn * fl :=
  match p with
  | [] => ([], e)
  | (a, v) :: p' =>
    if uses_discarded keep a then discard_terms keep p' (fadd up e (fabs v))
    else let '(q, e') := discard_terms keep p' e in ((select keep a, v) :: q, e')
  end.
Definition tm_discard (keep : list bool) (t : tm) : tm :=
  let '(q, e) := discard_terms keep (t_exp t) (fabs (t_err t)) in mkTM q (fadd up fzero e).

(** ** Refinement *)
(** 1958-2032 for float coefficients; [None] is the IntersectionException. *)
Definition refine_coef (xe ye xv yv : fl) : bnd := b_refinement (b_pm (b_of xv) xe) (b_pm (b_of yv) ye).
Definition refine_step (xe ye : fl) (a : mi) (xv yv : fl) (rest : option (fexpn * fl)) : option (fexpn * fl) :=
  let rve := refine_coef xe ye xv yv in
  if lt0 (b_error rve) then None else
  match rest with
  | None => None
  | Some (q, me) => Some (if flt_eq (b_value rve) fzero then q else (a, b_value rve) :: q, fmax (b_error rve) me)
  end.
Fixpoint refine_terms (xe ye : fl) (x : fexpn) {struct x} : fexpn -> option (fexpn * fl) :=
  fix refine_y (y : fexpn) {struct y} : option (fexpn * fl) :=
    match x, y with
    | [], [] => Some ([], fzero)
    | [], (ya, yv) :: y' => refine_step xe ye ya fzero yv (refine_y y')
    | (xa, xv) :: x', [] => refine_step xe ye xa xv fzero (refine_terms xe ye x' [])
    | (xa, xv) :: x', (ya, yv) :: y' =>
      if mi_eqb xa ya then refine_step xe ye xa xv yv (refine_terms xe ye x' y')
      else if reverse_lexicographic_less xa ya then refine_step xe ye xa xv fzero (refine_terms xe ye x' y)
      else refine_step xe ye ya fzero yv (refine_y y')
    end.
Definition tm_refinement (x y : tm) : option tm :=
  option_map (fun qe => mkTM (fst qe) (snd qe)) (refine_terms (t_err x) (t_err y) (t_exp x) (t_exp y)).

(** ** Evaluation *)
(** 1721-1731: Horner evaluation in Bounds arithmetic, plus the error. *)
Definition tm_evaluate (n : nat) (t : tm) (x : list bnd) : outcome bnd :=
  match horner_evaluate (b_of fzero) b_add b_mul n (map (fun m => (fst m, b_of (snd m))) (t_exp t)) x with
  | Ret r => Ret (b_add r (mkB (fneg (t_err t)) (t_err t)))
  | AssertFail => AssertFail
  | UB => UB
  end.
End Taylor.
Arguments tm prec emax : clear implicits.
Arguments policy prec emax : clear implicits.
