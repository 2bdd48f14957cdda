# Formal model of ariadne-cps/ariadne: design

Everything is Rocq/Coq 8.16.1 under `rocq/theories` (logical name `Verif`).

## Layout

For each area `X` there are up to four kinds of file.

* `X_Model.v`: computable Gallina functions. Each definition cites the file and lines it models and says what is simplified. No proofs.
* `X_Spec.v`: the small, model-independent specification (when it does not fit in the property file).
* `X_Proofs.v`, `X_..._Proofs.v`: lemmas.
* `X_Props.v`: property theorems, each followed by `Print Assumptions`, with a non-vacuity `Example` beside it.

Outcomes that the C++ code does not define (out-of-range access, `erase(end())`, dangling pointers, signed overflow) and failed assertions or exceptions are explicit results of the model (`UB`, `AssertFail`, `None`), never a default value.

A property that the code violates is recorded as a theorem `..._refuted` with a witness. The true part is proved beside it with the suffix `_partial`. Such a property has status `partial` in `MANIFEST.json`, and the note says what is missing or false.

`seeded/LOG.jsonl` records deliberate bugs put into a scratch copy of the model, and which theorems noticed. An entry with outcome `survived` is followed by a later entry for the same edit with the theorem that was tightened, unless it says that the edit is equivalent or ill-typed.

## Trusted base

* Coq's kernel, including `vm_compute`.
* The fidelity of the model: the code is read as text and is not run. Every definition cites what it models.
* Axioms: the table at the end of this file gives what `Print Assumptions` lists for each theorem of the manifest. Only axioms of the standard library occur. No library other than the standard one contributes an axiom (Flocq and Coquelicot are used, and add none).
* Floating point: the C++ `FloatDP` (and `FloatMP`) operations with a directed rounding argument are taken to be IEEE-754 correctly rounded operations, i.e. Flocq's `Bplus`, `Bmult`, ... at an arbitrary precision and exponent range. Setting the hardware rounding mode, compiler flags, and MPFR itself are outside the model.
* GMP: integers, rationals and multiple-precision floats behave as documented; `mpq_cmp` is taken to return -1, 0 or 1.

## Plan per property

| Id | Modelled | How proved |
|----|----------|------------|
| C01 | `LRUCache` as an association list of label/(age,value); `put` with the missing-victim case as `UB` | refinement to a recency list by induction over histories |
| C02 | `BinaryWord` as `list bool` | induction on words |
| C03 | `LogicalValue` and its connectives | finite case analysis lifted to information-order statement |
| C04 | sequence quantifiers with effort | induction on the effort |
| C05 | mixed overloads as written | refutation with witnesses, positive part for correct overloads |
| C06 | choose loop with fuel | induction on effort schedule |
| C07-C14 | `Bounds` over Flocq floats with directed rounding | per-operation inclusion from `Bplus_correct` etc. |
| C15-C16, C50-C51 | `Ball` over Flocq floats | error analysis; refutations by `vm_compute` |
| C17-C18 | `Error`, `UpperBound`, mixed and positive operations | monotone upward rounding; refutation for conversions |
| C19-C22 | `BinaryTreeNode` as an inductive tree | structural induction |
| C23-C24 | cells as extent + word, boxes over rationals | induction on extent and word |
| C25-C28 | `GridTreePaving` as grid dimension, extent, tree | refinement to point sets |
| C29-C30 | approximation recursion with oracle sets | induction on remaining depth |
| C31-C32 | `clone`, `image`, `product` as written | refutation and positive results |
| C33-C35, C52 | multi-indices as `list nat`, expansions as lists of pairs, Horner loop | induction; refinement to sum of monomials over a commutative ring |
| C36-C41, C53-C54 | Taylor models over Flocq floats | accumulated-error invariant of the merge loops |
| C42-C46, C55-C56 | expression trees with real semantics (partial functions) | structural induction; derivatives with Coquelicot |
| C47-C49 | formula DAGs, instruction lists, executions, forward and backward passes | induction over instruction lists |
| C57-C61 | evolvers: working sets, orbits, schedules | invariant "every trajectory piece is covered" over the work list; well-founded measure for termination |
| C62-C65 | reachability analyser: chain reach, safety, upper reach and evolve over finest cells | covering invariant of the outer loops; contracts for evolvers from C57-C61 |
| C66 | `Rational` with infinities and NaN, over `Q` | one generic soundness proof for extended arithmetic over any exact finite arithmetic |
| C67 | `Dyadic` as mantissa and exponent with truncation to 65535 bits; objects with precision for copies and moves | instance of the generic proof when nothing is truncated; refutation at every precision |
| C68 | bounds over rationals and dyadics, dyadic balls | case analysis following the code's sign cases |
| C69 | `Decimal`, its parser and printer on character lists | induction on digit lists |
| C70 | `Integer` conversions, `fac`, `bin`, printing | arithmetic modulo powers of two; exhaustive evaluation over the finite domain the assertions admit |
| C71 | intervals whose end points are tagged exact, lower or upper bounds, over any number type with exact comparisons | end-point inequalities equivalent to the set relation; refutation for empty intervals and for `equal` |
| C72 | `intersection`, `hull` | order properties of minima and maxima in the extended reals |
| C73 | the same definitions with bounds as end points | sandwich argument on what the bounds say |
| C74 | boxes as lists of intervals, the loops of each relation | generic loop lemma, by induction on the dimension |
| C75 | `split`, `irmax`, `vertices`, `product`, `project`; the float midpoint | induction; monotonicity of rounding |
| C76 | `UnionOfIntervals`: sort, combine, two-pointer loops | loop invariants; uniqueness of the normal form; refutations by evaluation |
| C77 | `widen`, `narrow`, `widen_domain` line by line | directed rounding from Flocq; refutation by evaluation |
| C78 | `lu_inverse` line by line over a record of interval operations; a checked double instance | invariants of forward elimination and back substitution on all real matrices inside |
| C79 | `lu_solve`, `gs_solve`, `gs_step` | from C78; induction over the Gauss-Seidel pass |
| C80 | the three `step` methods | mean value theorem along segments; existence by minimising the residual over the box (extreme value theorem in n dimensions) |
| C81 | `SolverBase::zero` with its final widened step | loop invariant; refutations by evaluation in double precision |
| C82 | `solve_all`, `solve`, the comparison of vectors | induction over the bisection tree; refutations by evaluation |
| C83 | `fixed_point` | reduction to C82; refutation by evaluation |
| C84 | `DiscreteLocation` as sorted lists of pairs | induction over two sorted lists; refutation of `restrict` |
| C85 | all constructor calls of `HybridAutomaton`, with the state after an exception | invariant over histories of calls |
| C86 | `algebraic_sort` | loop invariant: sorted part closed under dependencies |
| C87 | `make_dynamic_function`, `make_auxiliary_function`, single and composite | substitution lemma over solutions of the equations; refutations by evaluation |
| C88 | `reset_function`, single and composite | as C87; refutation by evaluation |
| C89 | conjunction of the components' predicates, `indicator` | induction over components with C46 |
| C90 | union of the event kinds of the components | induction over components; refutation by evaluation |
| C91 | both `discrete_reachability` loops | loop invariant for the exact set; measure: locations of a finite closed set not yet found |
| C92 | composite `target`, `has_mode`, `events`, the mode cache | induction over components; refinement of the LRU cache |
| C93 | both `check_mode` | equivalence with a specification; refutation for equal names |
| C94 | `_compute_active_events`, `_compute_crossings` | mean value theorem along trajectories, soundness of ranges and implicit functions |
| C95 | the whole evolver loop: jumped sets, steps, guards, workload with any interleaving | mutual induction over runs; invariant over schedules: what is still to be covered is in a waiting set; refutation at the final time |
| C96 | as C95 | invariant of all log entries over schedules |
| C97 | `_apply_guard_step`, `_apply_evolution_step` | case analysis of crossing kinds; refutation for decreasing guards |
| C98 | as C95, lower semantics | invariant over schedules: waiting sets consist of states at which runs arrive; refutations |
| C99 | `_estimate_timing` | case analysis, bounds of the halving loop and of crossing times; refutation |
| C100 | as C95 | explicit undefined outcomes; refutations; totality for convex guards |
| C101 | `box_reduce` | invariant of the two searches over slices; exact bounds on the rounded cut points; refutations |
| C102 | `monotone_reduce` | interval Newton step by the mean value theorem; invariant of the loop; non-termination by induction |
| C103 | `lyapunov_reduce` | mean value theorem along the line from the centre; refutation |
| C104 | both versions of `reduce` | invariant of the loop; termination by a decreasing magnitude; refutation |
| C105 | `check_feasibility` | case analysis on comparisons; refutation |
| C106 | `feasible` | induction on the recursion; weak duality for the Lagrangian; refutation |
| C107 | `EulerBounder::compute`: starting step, expansions, refinement | a solution leaving the box would have a first exit time; mean value inequality on each coordinate; exact bounds on rounding; refutation |
| C108 | as C107 | decreasing bound on the two alternating steps; refutation |
| C109 | `refinement` | refutation |
| C110 | `TaylorPicardIntegrator`, `GradedTaylorPicardIntegrator` over abstract function models with sound operations | the Picard operator maps enclosures of a solution to enclosures of it (integral form of the equation); invariant of the loops; composition with C107 |
| C111 | `flow_step` with reduction of the step size, fixed steps | decreasing bound on the step size; refutations by invariants of endless loops |
| C112 | `AffineIntegrator`: differentials, iteration, truncation, error | exact computation of the iteration for constant fields; refutation with the exponential function |
| C113 | loop of `TaylorSeriesBounderIntegrator::flow_step` over abstract series steps | first exit argument from C107 on the interior; refutation with `x'=x^2` |
| C114 | `Enclosure` operations over abstract function patches | the parameter is the witness: one lemma for each operation that a point with its time is kept, induction on the history; with exact operations the converse |
| C115 | constraints of `Enclosure` | pointwise equivalence for exact patches; refutation of the time bound on a box |
| C116 | tests of `Enclosure` with any sound contractor | a kept point contradicts the answer |
| C117 | `split`, `restriction`, `product` | kept points with witnesses for the parameters; converse for exact patches |
| C118 | `uniform_error_recondition`, `recondition`, `kuhn_recondition` | the new parameter is the error of the point divided by its bound; sorting by permutations; the discarded variables as a mask |
| C119 | `make_domain`, sets from boxes of reals | nearest point of the rounded domain; refutation with single precision 7/10 |
| C120 | arithmetic of `Differential` over any coefficients with enclosing operations | a polynomial of coefficients held by those stored, which agrees with the function up to O(\|h\|^(k+1)); the merge loops and the truncated product by induction |
| C121 | `Series`, `_compose`, elementary functions, formulas | the recurrences compute the Taylor coefficients (Taylor-Lagrange or differential equations of the functions); Horner evaluation with truncation; refutations by computation |
| C122 | `_compose` with the values of y set to zero and restored | Horner evaluation of O-classes; refutations for shared arguments |
| C123 | `_derivative`, `_antiderivative` | mean value theorem for O-classes; a polynomial of degree k that is O(\|h\|^(k+1)) is zero |
| C124 | `value`, `gradient`, `_jacobian`, `affine` | coefficients of first order are limits of difference quotients |
| C125 | `flow` in four forms | induction on the iteration: each Picard step gains one order |
| C126 | `lie_derivative` | from the derivative and the product |
| C127 | `UnivariateDifferential` | as C120-C123 in one variable |
| C128 | the implementations of `RealInterface` as one interpreter of expression trees | induction on the derivation of the value |
| C129 | as C128 | induction, with epsilon-delta continuity of the float operations; counterexamples for limits of reals |
| C130 | `RealBase::_compute(Accuracy)` as a loop with fuel | loop invariant; the loop ends iff some effort is accurate |
| C131 | comparisons of dyadic bounds, `check_sgn`, `nondeterministic_greater` | case analysis on the end points; convergence decides |
| C132 | `WhenRealExpression` | from C128; counterexample with NaN |
| C133 | `round`, `same` | from C130; rounding of dyadics |
| C134 | `OptimiserBase::is_feasible_point` on float bounds | inclusion property of the evaluation |
| C135 | `contains_feasible_point`: disjointness and subset tests, projected interval Newton step | false: inclusion; true: existence of a zero of an underdetermined system (reduction to the square system of the projected step); counterexamples |
| C136 | `validate_feasibility`: the Newton iteration in the range of the transposed Jacobian | loop invariant; existence by the interval Newton theorem; counterexamples |
| C137 | `is_infeasibility_certificate`, `validate_infeasibility` | inclusion; mean value theorem for the combination of the constraints; counterexample |
| C138 | driver loops of `NonlinearInfeasibleInteriorPointOptimiser` with arbitrary iterates | induction on the iterates; irrationality of the root of 2 |
| C139 | `almost_feasible_point`, `cast_exact_widen` | unfolding; counterexample |
| C140 | `cs_intersection`, `bs_intersection`, `bs_meet_box`, `bs_meet_cs`, `cs_meet_box` | membership unfolded; four counterexamples |
| C141 | `*_separated` | invariant of the reduced domain over the operations which make a set; soundness of reduction |
| C142 | `*_inside`, `*_bounding_box` | same invariant; interval evaluation |
| C143 | `cs_covers`, `bs_covers` | under-approximations of the real bounds |
| C144 | `*_overlaps`, `search` | induction on the number of splittings; four counterexamples |
| C145 | `v_satisfies`, `is_satisfies`, `satisfies_with` | case analysis over the answers of the solver; counterexamples |
| C146 | `bs_separated` with effort | counterexample for all efforts |
| C147 | `v_apply`, constraints, `v_reduce`, `v_split`, `v_restriction`, `is_split`, `bs_image` | composition of functions; induction on the coordinate |
| C148 | `v_is_empty` | invariant of the reduced domain; counterexample |
| C149 | `is_of_bounded` | over-approximation of the domain; counterexample |
| C150 | `subdivide`, `affine_pave`, `reduce_pave`, `constraint_pave`, `optimal_pave` | induction on the recursion with a point of the set; counterexample for the optimal constraint paver |
| C151 | the same functions | induction on the recursion |
| C152 | the same functions | induction on the bound of the recursion; a function with an error for which no bound suffices |
| C153 | `reduce_rec`, `constraint_rec`, `optimal_rec` | cells reached by splitting; counterexample |
| C154 | `po_dual` and the multipliers of `optimal_rec` | sum of products of numbers which are not negative; counterexample |
| C155 | `verify_feasibility` with `compute_p`, `compute_B`, `compute_x`, `primal_test` | existence of the inverse of the basis matrix from the interval inverse; the basic solution is in the enclosures; two counterexamples |
| C156 | `verify_feasibility` with `compute_c`, `compute_y`, `compute_z`, `dual_test` | the combination of the equations with the dual vector is bounded by its value at the basic solution; counterexample for floats |
| C157 | `compute_p`, `extend_p`, `compute_vt` | induction on the loops |
| C158 | `hotstarted_feasible`, `feasible_loop`, `final_check` with arbitrary steps | the final check bounds the violation; counterexample for all steps |
| C159 | `consistency_check_p` | unfolding; counterexample |
| C160 | `sort`, `combine`, `union_of`, `join` | insertion sort; induction with the interval being extended |
| C161 | `intersect`, `overlaps`, `separated` | induction on the two iterators; counterexamples |
| C162 | `subset`, `covers`, `inside` | induction on the two iterators; a point in the gap above an interval; counterexample |
| C163 | `intersection` | induction on the two iterators; counterexample |
| C164 | `measure` | integral of the indicator function by induction; counterexamples |
| C165 | `bounding_box` | order of the intervals; counterexample |
| C166 | `adjoin`, `remove`, `clear`, `is_empty` on ordered maps | look-up after the loops |
| C167 | `restrict` | look-up after the loop; counterexample |
| C168 | `separated`, `overlaps`, `covers`, `inside` | case analysis, induction; counterexamples |
| C169 | `subset`, `intersect` | induction on the map; counterexample |
| C170 | `adjoin`, the constructors from locations and lists, `Map::insert` | look-up after insertion; counterexample |
| C171 | `overlaps`, `covers`, `separated` | case analysis |
| C172 | `inside`, `bounding_box` | induction on the map; counterexample |
| C173 | `intersection` of boxes and constraint set | induction on the boxes; counterexample |
| C174 | the iterator over the cells of all locations | induction on the number of cells and on the map |
| C175 | `Space`: constructors, `append`, `insert`, `adjoin`, `index`, `indices`, `contains` | induction on the list of variables |
| C176 | `VariablesBox`, `VariablesPoint`, `LabelledSet::euclidean_set` and their conversions | look-up in the map of bounds |
| C177 | construction from lists of bounds, `unique_keys` | look-up after insertion; counterexample |
| C178 | `Valuation`: `set`, `insert`, `get`, construction from an array | look-up after insertion |
| C179 | `euclidean_set` of constraint sets and bounded constraint sets | value of a function at the coordinates |
| C180 | `operator==` of labelled sets | case analysis; counterexample |
| C181 | `AffineModel<ValidatedTag>`: negation, sum | error of each float operation (lemmas of `Taylor_Proofs`), induction on the gradient |
| C182 | product with a constant given by bounds | the same; counterexample |
| C183 | sum with a constant given by bounds | nearest rounding; counterexample |
| C184 | product of two models | error of each float operation; counterexample |
| C185 | `range`, conversions from `Affine` and `TaylorModel` | induction on the gradient and on the terms |
| C186 | `AffineModel<ApproximateTag>` arithmetic | correct rounding; counterexample |
| C187 | `_evaluate`, `constant`, `coordinate`, `basis` of univariate Chebyshev polynomials | same recurrence on real coefficients, invariant (T_(k-1), T_k) |
| C188 | `apply` for negation, sum, difference, scaling | induction on both lists of terms |
| C189 | `apply(Add)` with a constant | cases on the first term; counterexample |
| C190 | `apply(Mul)`, `apply(Sqr)` | buffer as a function; 2 T_i T_j = T_(i+j) + T_abs(i-j) by two-step induction; counterexample |
| C191 | `sup_norm` | T_k(cos t) = cos(k t), sum of magnitudes |
| C192 | `operator()`, `_eval`, `ChebyshevValues`, `constant`, `coordinate`, `basis` of multivariate Chebyshev polynomials | induction on the variables and on the groups of terms; counterexample |
| C193 | `apply` for negation, sum, difference, scaling; `sup_norm` | induction on both lists of terms; bound of T_k by 1 |
| C194 | `apply(Add)` with a constant | cases on the first term; counterexample |
| C195 | `apply(Mul)`, `apply(Sqr)`, `_mul_from` of multivariate Chebyshev polynomials | induction on the variables, invariants of both loops; existence by contiguity of lexicographic groups; counterexample |

Not expressible: none of the properties listed. Parts left out of each model are listed below.

## What is modelled and what is not

| Area | Modelled | Not modelled |
|------|----------|--------------|
| Cache, words, logic (`LRU_`, `Word_`, `Logical_`) | all members used through the API | streams; memory layout |
| Bounds, balls, errors (`Bounds_`, `Ball_`, `ErrBound_`) | arithmetic, comparisons, elementary operations built from arithmetic, mixed overloads, conversions | rounding mode as state (it is an argument); MPFR's subnormals; balls with different precisions of value and error; transcendental functions' internals |
| Trees, cells, pavings (`Tree_`, `Cell_`, `Paving_`, `Approx_`, `Product_`) | structure, set operations, subdivision, projection, approximations by oracle sets | box queries on pavings; open cells; drawing; predicates of sets are oracles with their documented contract |
| Polynomials (`Poly_`) | multi-indices, expansions, sorting, combining, Horner evaluation | one coefficient ring; `std::sort` is any function giving a sorted permutation |
| Taylor models (`Taylor_`) | sums, products, scaling, sweeping, evaluation bounds with accumulated error | the sweeper is an arbitrary discarding policy; composition, antiderivative, splitting and refinement beyond what the files list |
| Expressions (`Expr_`) | scalar expressions, simplification, derivatives, substitution, indicators | vectors and `Get`; constants are an oracle; `std::set` is a list; pointer equality is an oracle |
| Procedures (`Proc_`) | compilation, execution, hull reduction, gradients | arithmetic is abstract with an enclosure contract; gradients in exact reals; node addresses are naturals; moved-from values are a parameter |
| Evolvers (`Evolver_`) | orbits of maps and vector fields, working sets, schedules | enclosure operations are oracles with contracts; `DynamicWorkload` runs each element exactly once (the BetterThreads submodule is absent); hybrid evolvers |
| Analyser (`Analyser_`) | chain reach, safety, upper reach, upper evolve | storage is a list of finest cells; Euclidean systems only; `lower_*` functions; the dynamic cast of the safe set is taken to succeed |
| Exact numbers (`Exact_`) | `Rational`, `Dyadic`, `Decimal`, `Integer`, their bounds and balls | overflow of `Nat` exponents; stream formatting flags; literals |
| Intervals and boxes (`Box_`) | interval and box relations and operations, splits, vertices, unions of intervals, widening | `std::sort` is insertion sort; ValidatedIntervals of Real; `approximate_domain`; drawing |
| Equation solvers (`Solver_`, `Newton_Math`) | LU inverse, linear solves, Newton and Krawczyk steps, `zero`, `solve_all`, `solve`, `fixed_point` | functions are pairs of interval evaluation and Jacobian; non-finite bounds count as the whole line in the positive theorems; `implicit`, `continuation`, PLU and QR decompositions; `std::set` as a list compared with all its elements |
| Hybrid automata (`Automaton_`, `AutomatonComp_`) | discrete locations, constructor calls, `algebraic_sort`, functions, `check_mode`, reachability, composition and its mode cache | names of variables, events and automata are numbers with the same order; `std::map` and `std::set` are sorted lists; writing; named spaces of discrete variables |
| Hybrid evolver (`HybridEvolver_`) | `hybrid_evolver.cpp`: starting events, active events, crossings, timing, guards, jumps, the evolution step, the workload | sets are sets of points (state, time, evolution time) instead of constrained Taylor images; emptiness, ranges, implicit functions, step size, reconditioning and splitting are any operations which satisfy `sound`; the system is given by its flow; logging; `HybridEnclosure` internals |
| Constraint solver (`ConstraintSolver_`) | `constraint_solver.cpp`: `box_reduce`, `monotone_reduce`, `lyapunov_reduce`, both `reduce`, `check_feasibility`, `feasible` | functions are evaluations on boxes; the nonlinear optimiser is any list of states; Taylor models of the Lagrangian are any enclosing evaluation; `hull_reduce` is any contractor (see C48); quadratic reduction; equality constraints of `feasible(domain,constraints)` |
| Bounder (`Bounder_`) | `bounder.cpp`: `EulerBounder` | the field is any evaluation on boxes; the step allowed by the Lipschitz constant is arbitrary; logging; the uniform refinement of differential inclusions |
| Integrators (`Integrator_`) | `integrator.cpp`: Picard iteration, graded Picard iteration, step size search, fixed steps, affine integrator, bound search of the series integrator | function models are any type with enclosing operations; the graded series (lines 520-890); parameters of the affine integrator; log output |
| Enclosures (`Enclosure_`) | `enclosure.cpp`: constructors, maps, flows, reach steps, constraints, tests, split, restriction, product, reconditioning; `make_domain` of `affine_set.cpp` | function patches are any type with sound operations; Taylor models only for reconditioning; contractor and feasibility test are parameters (C104, C106); drawing, output, pavings, choice of the split direction, size assertions |
| Differentials (`Diff_`) | `differential.hpp`, `differential.tpl.hpp`, `univariate_differential.*`, `series.hpp`: arithmetic, elementary functions, composition, derivatives, flows, Lie derivatives | coefficients are any type with enclosing operations and a sort; `solve`, `min`, `max`, comparison, `FixedDifferential`, output, Hessians, evaluation on other algebras |
| Real numbers (`Real_`) | `real.cpp`: constants, operations, powers, limits, `when`, effort and accuracy, comparisons, choice, rounding, `same` | float bounds are any sound arithmetic; exact dyadics without truncation; efforts are unbounded; lower, upper and positive reals (they share the implementation), `choose`, output |
| Optimisers (`Optimiser_`) | `nonlinear_programming.cpp`: feasibility and infeasibility tests of `OptimiserBase`, driver loops of `NonlinearInfeasibleInteriorPointOptimiser` | functions are interval evaluations and Jacobians; interior-point steps are any iterates; non-finite bounds count as the whole line; the other optimisers, penalty methods, objective values; log output |
| Sets defined by functions (`FunctionSet_`) | `function_set.{hpp,cpp}`: `ConstraintSet`, `BoundedConstraintSet`, `ConstrainedImageSet`, `ValidatedConstrainedImageSet` with their predicates, operations and conversions | functions are any real functions with interval evaluation; real numbers are given by their double-precision bounds; `ConstraintSolver` and the optimiser are any procedures with correct answers (their correctness is the subject of the `ConstraintSolver_` and `Optimiser_` modules); drawing, affine approximation, pavings, `join` |
| Pavers (`Paver_`) | `paver.cpp`: `SubdivisionPaver`, `AffinePaver`, `ReducePaver`, `ConstraintPaver`, `OptimalConstraintPaver` | pavings, cells, constraint solver, affine approximation and optimiser are any procedures which do what `Paver_Spec.v` says (grid pavings and the solver are the subject of other modules); comparisons of widths and errors are arbitrary; recursion is bounded and reaching the bound is an outcome; log output |
| Simplex solver (`Simplex_`) | `simplex_algorithm.cpp`: `compute_p`, `extend_p`, `compute_vt`, `compute_B`, `compute_x`, `compute_c`, `compute_y`, `compute_z`, `verify_feasibility`, `consistency_check`, `hotstarted_feasible` | pivoting steps are any procedure; the interval inverse is the one of the `Solver_` modules; minimisation, `validated_feasible`, `lpenter`, log output |
| Unions of intervals (`Union_`) | `union_of_intervals.hpp`: all of `UnionOfIntervals` | bounds are rational numbers, conversions exact; `std::sort` is insertion sort; `interior`, output |
| Hybrid pavings (`HybridPaving_`) | `hybrid_paving.{hpp,cpp}`: `adjoin`, `remove`, `restrict`, `clear`, `is_empty`, `separated`, `overlaps`, `covers`, `inside`, `subset`, `intersect` | locations are numbers; pavings and boxes of one location are any types whose operations do what `HybridPaving_Spec.v` says; one hybrid grid; approximations, `extend_auxiliary`, iterators, output |
| Hybrid constraint sets (`HybridSet_`) | `hybrid_set.{hpp,cpp}`, `hybrid_expression_set.hpp`, `container.hpp`: `adjoin`/`insert`, constructors, `overlaps`, `covers`, `separated`, `inside`, `bounding_box`, `intersection`, `HybridSpaceSetConstIterator` | locations are numbers; sets of one location are any types whose operations do what `HybridSet_Spec.v` says; orders of variables, drawing, output |
| Named variables (`Labelled_`) | `space.{hpp,cpp}`, `expression_set.{hpp,cpp}`, `valuation.hpp`: `Space`, `VariablesBox`, `VariablesPoint`, `LabelledSet` (construction, reordering, conversion, equality), constraint sets, `Valuation` | a variable is a number for its name; expressions are functions of valuations with a list of arguments; approximation of bounds, drawing, output |
| Affine models (`Affine_`) | `affine_model.tpl.hpp`: arithmetic of both classes, `range` of the validated class, conversions from `Affine` and `TaylorModel`; `model_utilities.hpp`: `add_err`, `mul_err`, `lin_err` | one precision; `scaling`, `evaluate`, `compose`, constructors from functions, output |
| Chebyshev polynomials (`Cheb_`) | `chebyshev_polynomial.{hpp,tpl.hpp}`: class `UnivariateChebyshevPolynomial` (constructors, arithmetic, norm, evaluation) | coefficients of any type with sound operations (a record, shown inhabited by reals and by intervals); indices are unbounded; equality, output |
| Multivariate Chebyshev polynomials (`MCheb_`, `MProd_`) | `chebyshev_polynomial.{hpp,tpl.hpp}`: class `MultivariateChebyshevPolynomial` (constructors, arithmetic with products, norm, evaluation) | as for one variable; the table of values is not stored; output not modelled |

## Axioms of each theorem

Codes: `-` closed under the global context; `d` `ClassicalDedekindReals.sig_forall_dec`; `n` `ClassicalDedekindReals.sig_not_dec`; `f` `FunctionalExtensionality.functional_extensionality_dep`; `c` `Classical_Prop.classic`.

| Property | Module | Theorem | Axioms |
|---|---|---|---|
| C01 | LRU_Props | C01_lru_refines_recency_list | - |
| C01 | LRU_Props | C01_lru_never_undefined | - |
| C02 | Word_Props | C02_order_irreflexive | - |
| C02 | Word_Props | C02_order_transitive | - |
| C02 | Word_Props | C02_order_total | - |
| C02 | Word_Props | C02_order_is_dictionary_order | - |
| C02 | Word_Props | C02_is_prefix_exact | - |
| C02 | Word_Props | C02_is_subword_exact | - |
| C02 | Word_Props | C02_erase_prefix_append | - |
| C02 | Word_Props | C02_append_concatenates | - |
| C02 | Word_Props | C02_read_write | - |
| C02 | Word_Props | C02_read_write_empty | - |
| C03 | Logical_Props | C03_connectives_sound | - |
| C03 | Logical_Props | C03_connectives_exact | - |
| C03 | Logical_Props | C03_de_morgan | - |
| C03 | Logical_Props | C03_guesses_consistent | - |
| C03 | Logical_Props | C03_conversions_sound | - |
| C03 | Logical_Props | C03_conversions_exact | - |
| C03 | Logical_Props | C03_bool_conversions | - |
| C04 | Logical_Props | C04_checks_sound | - |
| C04 | Logical_Props | C04_checks_persistent | - |
| C04 | Logical_Props | C04_disjunction_complete | - |
| C04 | Logical_Props | C04_conjunction_complete | - |
| C05 | Logical_Props | C05_sierpinskian_or_boolean_refuted | - |
| C05 | Logical_Props | C05_negated_and_boolean_refuted | - |
| C05 | Logical_Props | C05_kleenean_boolean_partial | - |
| C06 | Logical_Props | C06_choice_is_verified | - |
| C06 | Logical_Props | C06_choice_terminates | - |
| C06 | Logical_Props | C06_choose_bool_is_verified | - |
| C06 | Logical_Props | C06_choose_bool_terminates | - |
| C07 | Bounds_Props | C07_add_sub_neg | dncf |
| C07 | Bounds_Props | C07_mixed | dncf |
| C07 | Bounds_Props | C07_inl_add_refuted | dncf |
| C07 | Bounds_Props | C07_inl_add_positive | dncf |
| C08 | Bounds_Props | C08_mul | dncf |
| C08 | Bounds_Props | C08_mul_infinite | dncf |
| C08 | Bounds_Props | C08_mixed | dncf |
| C08 | Bounds_Props | C08_infinite_refuted | dncf |
| C08 | Bounds_Props | C08_fma_positive | dncf |
| C09 | Bounds_Props | C09_div | dncf |
| C09 | Bounds_Props | C09_zero_divisor | dncf |
| C09 | Bounds_Props | C09_mixed | dncf |
| C09 | Bounds_Props | C09_inl_div_positive | dncf |
| C10 | Bounds_Props | C10_sound | dncf |
| C10 | Bounds_Props | C10_complete | dncf |
| C100 | HybridEvolver_Props | C100_step_partial | df |
| C100 | HybridEvolver_Props | C100_erased_refuted | dncf |
| C100 | HybridEvolver_Props | C100_grazing_refuted | dncf |
| C101 | ConstraintSolver_Props | C101_box_reduce_partial | dncf |
| C101 | ConstraintSolver_Props | C101_overflow_refuted | dncf |
| C101 | ConstraintSolver_Props | C101_infinite_refuted | dncf |
| C102 | ConstraintSolver_Props | C102_monotone_reduce_partial | dncf |
| C102 | ConstraintSolver_Props | C102_termination_refuted | dncf |
| C103 | ConstraintSolver_Props | C103_lyapunov_reduce_partial | dncf |
| C103 | ConstraintSolver_Props | C103_centre_refuted | dncf |
| C104 | ConstraintSolver_Props | C104_reduce_ends | dncf |
| C104 | ConstraintSolver_Props | C104_reduce_answer | dncf |
| C104 | ConstraintSolver_Props | C104_reduce_keeps_partial | dncf |
| C104 | ConstraintSolver_Props | C104_overflow_refuted | dncf |
| C105 | ConstraintSolver_Props | C105_check_feasibility_partial | dncf |
| C105 | ConstraintSolver_Props | C105_nan_refuted | dncf |
| C106 | ConstraintSolver_Props | C106_feasible_partial | dncf |
| C106 | ConstraintSolver_Props | C106_point_refuted | dncf |
| C107 | Bounder_Props | C107_bounder_partial | dncf |
| C107 | Bounder_Props | C107_step_bound | dncf |
| C107 | Bounder_Props | C107_autonomous_partial | dncf |
| C107 | Bounder_Props | C107_time_refuted | dncf |
| C108 | Bounder_Props | C108_search_ends | dncf |
| C108 | Bounder_Props | C108_step_size_partial | dncf |
| C108 | Bounder_Props | C108_minimum_refuted | dncf |
| C109 | Bounder_Props | C109_tight_refuted | dncf |
| C11 | Bounds_Props | C11_lattice | dncf |
| C11 | Bounds_Props | C11_refinement_exact | dncf |
| C110 | Integrator_Props | C110_picard | df |
| C110 | Integrator_Props | C110_error | - |
| C110 | Integrator_Props | C110_graded_partial | dncf |
| C110 | Integrator_Props | C110_integrator_partial | dncf |
| C111 | Integrator_Props | C111_search_ends_partial | dncf |
| C111 | Integrator_Props | C111_fixed_result | df |
| C111 | Integrator_Props | C111_bounded_fixed | dncf |
| C111 | Integrator_Props | C111_endless_refuted | dncf |
| C111 | Integrator_Props | C111_fixed_refuted | df |
| C112 | Integrator_Props | C112_constant_partial | dncf |
| C112 | Integrator_Props | C112_radius | dncf |
| C112 | Integrator_Props | C112_affine_refuted | dncf |
| C113 | Integrator_Props | C113_series_bounder_partial | dncf |
| C113 | Integrator_Props | C113_series_refuted | dncf |
| C114 | Enclosure_Props | C114_history_partial | dncf |
| C114 | Enclosure_Props | C114_dwell_partial | dncf |
| C114 | Enclosure_Props | C114_exact_history | dncf |
| C114 | Enclosure_Props | C114_dwell_reset | df |
| C114 | Enclosure_Props | C114_dwell_refuted | dncf |
| C115 | Enclosure_Props | C115_state_constraint | df |
| C115 | Enclosure_Props | C115_state_time_constraint | df |
| C115 | Enclosure_Props | C115_parameter_constraint | df |
| C115 | Enclosure_Props | C115_signs | df |
| C115 | Enclosure_Props | C115_time_bound_partial | df |
| C115 | Enclosure_Props | C115_time_bound_refuted | dncf |
| C116 | Enclosure_Props | C116_is_empty | dncf |
| C116 | Enclosure_Props | C116_is_empty_after | dncf |
| C116 | Enclosure_Props | C116_inside | dncf |
| C116 | Enclosure_Props | C116_subset | dncf |
| C116 | Enclosure_Props | C116_separated | dncf |
| C116 | Enclosure_Props | C116_satisfies_constraint | dncf |
| C116 | Enclosure_Props | C116_satisfies | dncf |
| C116 | Enclosure_Props | C116_never_satisfied | dncf |
| C116 | Enclosure_Props | C116_tests_change_nothing | dncf |
| C117 | Enclosure_Props | C117_split | dncf |
| C117 | Enclosure_Props | C117_restrict | df |
| C117 | Enclosure_Props | C117_product_box | df |
| C117 | Enclosure_Props | C117_product | df |
| C117 | Enclosure_Props | C117_exact | df |
| C118 | Enclosure_Props | C118_uniform | dncf |
| C118 | Enclosure_Props | C118_kuhn | dncf |
| C118 | Enclosure_Props | C118_sorted | dncf |
| C119 | Enclosure_Props | C119_real_set_partial | dncf |
| C119 | Enclosure_Props | C119_ball_refuted | dncf |
| C12 | Bounds_Props | C12_value_error_partial | dncf |
| C12 | Bounds_Props | C12_pm | dncf |
| C12 | Bounds_Props | C12_overflow_refuted | dncf |
| C120 | Diff_Props | C120_arithmetic_partial | dncf |
| C120 | Diff_Props | C120_variables_partial | dncf |
| C120 | Diff_Props | C120_degree_refuted | - |
| C121 | Diff_Props | C121_formula_partial | dncf |
| C121 | Diff_Props | C121_functions_partial | dncf |
| C121 | Diff_Props | C121_empty_partial | - |
| C121 | Diff_Props | C121_abs_partial | dncf |
| C121 | Diff_Props | C121_empty_refuted | - |
| C121 | Diff_Props | C121_zero_refuted | dncf |
| C121 | Diff_Props | C121_missing_refuted | - |
| C121 | Diff_Props | C121_abs_refuted | dncf |
| C122 | Diff_Props | C122_compose_partial | dncf |
| C122 | Diff_Props | C122_vector_partial | dncf |
| C122 | Diff_Props | C122_alias_refuted | - |
| C122 | Diff_Props | C122_restore_refuted | - |
| C122 | Diff_Props | C122_degree_refuted | - |
| C123 | Diff_Props | C123_derivative | dncf |
| C123 | Diff_Props | C123_antiderivative | dncf |
| C124 | Diff_Props | C124_value_gradient_partial | dncf |
| C124 | Diff_Props | C124_jacobian_partial | dncf |
| C124 | Diff_Props | C124_affine_refuted | - |
| C125 | Diff_Props | C125_flow_partial | dncf |
| C125 | Diff_Props | C125_flow_all_partial | dncf |
| C125 | Diff_Props | C125_parameters_refuted | df |
| C125 | Diff_Props | C125_degree_refuted | - |
| C126 | Diff_Props | C126_lie | dncf |
| C127 | Diff_Props | C127_arithmetic_partial | dncf |
| C127 | Diff_Props | C127_functions_partial | dncf |
| C127 | Diff_Props | C127_compose_partial | dncf |
| C127 | Diff_Props | C127_antiderivative_partial | dncf |
| C127 | Diff_Props | C127_derivative_refuted | - |
| C127 | Diff_Props | C127_derivative_constant_refuted | - |
| C127 | Diff_Props | C127_alias_refuted | - |
| C128 | Real_Props | C128_bounds_contain | dncf |
| C129 | Real_Props | C129_converges_partial | dncf |
| C129 | Real_Props | C129_limit_partial | df |
| C129 | Real_Props | C129_limit_refuted | dncf |
| C129 | Real_Props | C129_expression_refuted | dncf |
| C13 | Bounds_Props | C13_pow | dncf |
| C13 | Bounds_Props | C13_pow_integer | dncf |
| C13 | Bounds_Props | C13_pow_float | dncf |
| C130 | Real_Props | C130_accuracy_partial | dncf |
| C130 | Real_Props | C130_terminates_partial | dncf |
| C130 | Real_Props | C130_zero_never | dncf |
| C130 | Real_Props | C130_negative_refuted | dncf |
| C130 | Real_Props | C130_infinity_refuted | - |
| C130 | Real_Props | C130_limit_refuted | dncf |
| C131 | Real_Props | C131_comparisons | dncf |
| C131 | Real_Props | C131_decided | dncf |
| C131 | Real_Props | C131_choice | dncf |
| C132 | Real_Props | C132_when_partial | dncf |
| C132 | Real_Props | C132_unsatisfiable | - |
| C132 | Real_Props | C132_double_effort | - |
| C132 | Real_Props | C132_when_refuted | dncf |
| C132 | Real_Props | C132_double_refuted | dncf |
| C133 | Real_Props | C133_round_partial | dncf |
| C133 | Real_Props | C133_same_partial | dncf |
| C133 | Real_Props | C133_same_refuted | dncf |
| C134 | Optimiser_Props | C134_feasible_point | dncf |
| C135 | Optimiser_Props | C135_no_feasible_point | dncf |
| C135 | Optimiser_Props | C135_contains_partial | dncf |
| C135 | Optimiser_Props | C135_contains_refuted | dncf |
| C135 | Optimiser_Props | C135_exception_refuted | dncf |
| C136 | Optimiser_Props | C136_validate_partial | dncf |
| C136 | Optimiser_Props | C136_validate_refuted | dncf |
| C137 | Optimiser_Props | C137_certificate | dncf |
| C137 | Optimiser_Props | C137_validate_infeasibility_partial | dncf |
| C137 | Optimiser_Props | C137_validate_infeasibility_refuted | dncf |
| C138 | Optimiser_Props | C138_feasible_partial | dncf |
| C138 | Optimiser_Props | C138_minimise_partial | dncf |
| C138 | Optimiser_Props | C138_minimise_refuted | dncf |
| C139 | Optimiser_Props | C139_almost_partial | dncf |
| C139 | Optimiser_Props | C139_almost_refuted | dncf |
| C14 | Bounds_Props | C14_max_min_abs_widen | dncf |
| C14 | Bounds_Props | C14_hlf_partial | dncf |
| C14 | Bounds_Props | C14_hlf_refuted | dncf |
| C14 | Bounds_Props | C14_narrow_lower_partial | dncf |
| C14 | Bounds_Props | C14_narrow_refuted | dncf |
| C14 | Bounds_Props | C14_positive_min_sound | dncf |
| C14 | Bounds_Props | C14_positive_max_sound | dncf |
| C140 | FunctionSet_Props | C140_intersection_partial | d |
| C140 | FunctionSet_Props | C140_overloads | d |
| C140 | FunctionSet_Props | C140_intersection_refuted | dncf |
| C141 | FunctionSet_Props | C141_separated | dncf |
| C142 | FunctionSet_Props | C142_inside | dncf |
| C142 | FunctionSet_Props | C142_bounding_box | dncf |
| C143 | FunctionSet_Props | C143_covers | dncf |
| C144 | FunctionSet_Props | C144_overlaps_partial | dncf |
| C144 | FunctionSet_Props | C144_overlaps_refuted | dncf |
| C145 | FunctionSet_Props | C145_satisfies_partial | dncf |
| C145 | FunctionSet_Props | C145_satisfies_refuted | dncf |
| C146 | FunctionSet_Props | C146_effort_refuted | dncf |
| C147 | FunctionSet_Props | C147_operations | df |
| C147 | FunctionSet_Props | C147_split | dncf |
| C148 | FunctionSet_Props | C148_is_empty_partial | dncf |
| C148 | FunctionSet_Props | C148_is_empty_refuted | dncf |
| C149 | FunctionSet_Props | C149_conversion_partial | df |
| C149 | FunctionSet_Props | C149_conversion_refuted | dncf |
| C15 | Ball_Props | C15_add_sub_neg | dncf |
| C15 | Ball_Props | C15_floats | dncf |
| C150 | Paver_Props | C150_outer | dncf |
| C150 | Paver_Props | C150_optimal_partial | dncf |
| C150 | Paver_Props | C150_optimal_refuted | dncf |
| C151 | Paver_Props | C151_kept | dncf |
| C152 | Paver_Props | C152_ends_partial | df |
| C152 | Paver_Props | C152_forever_refuted | dncf |
| C153 | Paver_Props | C153_depth_partial | df |
| C153 | Paver_Props | C153_optimal_refuted | dncf |
| C154 | Paver_Props | C154_certificate_partial | df |
| C154 | Paver_Props | C154_disjoint | df |
| C154 | Paver_Props | C154_certificate_refuted | dncf |
| C155 | Simplex_Props | C155_feasible_partial | dncf |
| C155 | Simplex_Props | C155_feasible_rational_partial | df |
| C155 | Simplex_Props | C155_feasible_refuted | dncf |
| C155 | Simplex_Props | C155_fixed_refuted | dncf |
| C156 | Simplex_Props | C156_infeasible_partial | df |
| C156 | Simplex_Props | C156_infeasible_float_partial | dncf |
| C156 | Simplex_Props | C156_infeasible_refuted | dncf |
| C157 | Simplex_Props | C157_compute_p | - |
| C157 | Simplex_Props | C157_extend_p | - |
| C157 | Simplex_Props | C157_extend_p_fails | - |
| C157 | Simplex_Props | C157_compute_vt | - |
| C158 | Simplex_Props | C158_feasible_partial | dncf |
| C158 | Simplex_Props | C158_feasible_refuted | dncf |
| C159 | Simplex_Props | C159_check_partial | - |
| C159 | Simplex_Props | C159_check_refuted | - |
| C16 | Ball_Props | C16_mul_partial | dncf |
| C16 | Ball_Props | C16_mul_underflow_refuted | dncf |
| C16 | Ball_Props | C16_rec_partial | dncf |
| C16 | Ball_Props | C16_div_partial | dncf |
| C16 | Ball_Props | C16_rec_zero_refuted | dncf |
| C16 | Ball_Props | C16_hlf_partial | dncf |
| C16 | Ball_Props | C16_hlf_refuted | dncf |
| C16 | Ball_Props | C16_sqr_partial | dncf |
| C16 | Ball_Props | C16_pow | dncf |
| C16 | Ball_Props | C16_floats_partial | dncf |
| C16 | Ball_Props | C16_sqr_nonneg | dncf |
| C160 | Union_Props | C160_union | df |
| C160 | Union_Props | C160_join | df |
| C160 | Union_Props | C160_ordered | df |
| C161 | Union_Props | C161_intersect_partial | df |
| C161 | Union_Props | C161_intersect_sound_partial | df |
| C161 | Union_Props | C161_intersect_refuted | df |
| C161 | Union_Props | C161_convert_refuted | df |
| C162 | Union_Props | C162_subset_partial | df |
| C162 | Union_Props | C162_subset_sound | df |
| C162 | Union_Props | C162_covers | df |
| C162 | Union_Props | C162_inside | df |
| C162 | Union_Props | C162_subset_refuted | df |
| C163 | Union_Props | C163_intersection_partial | df |
| C163 | Union_Props | C163_intersection_refuted | df |
| C164 | Union_Props | C164_measure_partial | df |
| C164 | Union_Props | C164_measure_refuted | df |
| C164 | Union_Props | C164_empty_refuted | - |
| C165 | Union_Props | C165_bounding_box_partial | df |
| C165 | Union_Props | C165_bounding_box_refuted | df |
| C166 | HybridPaving_Props | C166_adjoin | - |
| C166 | HybridPaving_Props | C166_remove | - |
| C166 | HybridPaving_Props | C166_clear | - |
| C166 | HybridPaving_Props | C166_is_empty | - |
| C167 | HybridPaving_Props | C167_restrict_partial | - |
| C167 | HybridPaving_Props | C167_restrict_refuted | - |
| C168 | HybridPaving_Props | C168_overlaps_partial | - |
| C168 | HybridPaving_Props | C168_covers_partial | - |
| C168 | HybridPaving_Props | C168_inside_partial | - |
| C168 | HybridPaving_Props | C168_separated_refuted | - |
| C168 | HybridPaving_Props | C168_separated_any_refuted | - |
| C168 | HybridPaving_Props | C168_missing_refuted | - |
| C168 | HybridPaving_Props | C168_inside_refuted | - |
| C169 | HybridPaving_Props | C169_subset_partial | - |
| C169 | HybridPaving_Props | C169_intersect_partial | - |
| C169 | HybridPaving_Props | C169_subset_refuted | - |
| C17 | ErrBound_Props | C17_error_operations | dncf |
| C17 | ErrBound_Props | C17_error_product_defined | dncf |
| C17 | ErrBound_Props | C17_expressions | dncf |
| C17 | ErrBound_Props | C17_expressions_positive | dncf |
| C17 | ErrBound_Props | C17_nan_lost_refuted | dncf |
| C17 | ErrBound_Props | C17_pow_partial | dncf |
| C17 | ErrBound_Props | C17_pow_refuted | dncf |
| C17 | ErrBound_Props | C17_bound_operations | dncf |
| C17 | ErrBound_Props | C17_positive_bounds | dncf |
| C17 | ErrBound_Props | C17_float_plus_error | dncf |
| C170 | HybridSet_Props | C170_adjoin_partial | - |
| C170 | HybridSet_Props | C170_everywhere_partial | - |
| C170 | HybridSet_Props | C170_of_list_partial | - |
| C170 | HybridSet_Props | C170_adjoin_ignored_refuted | - |
| C170 | HybridSet_Props | C170_adjoin_refuted | - |
| C171 | HybridSet_Props | C171_overlaps | - |
| C171 | HybridSet_Props | C171_covers | - |
| C171 | HybridSet_Props | C171_separated | - |
| C171 | HybridSet_Props | C171_missing | - |
| C172 | HybridSet_Props | C172_inside_partial | - |
| C172 | HybridSet_Props | C172_inside_complete_partial | - |
| C172 | HybridSet_Props | C172_inside_missing_refuted | - |
| C172 | HybridSet_Props | C172_inside_refuted | - |
| C172 | HybridSet_Props | C172_bounding_box_partial | - |
| C173 | HybridSet_Props | C173_intersection_partial | - |
| C173 | HybridSet_Props | C173_intersection_any_refuted | - |
| C173 | HybridSet_Props | C173_intersection_refuted | - |
| C174 | HybridSet_Props | C174_iterator | - |
| C175 | Labelled_Props | C175_make_space | - |
| C175 | Labelled_Props | C175_index | - |
| C175 | Labelled_Props | C175_contains | - |
| C175 | Labelled_Props | C175_append | - |
| C175 | Labelled_Props | C175_adjoin | - |
| C175 | Labelled_Props | C175_indices | - |
| C176 | Labelled_Props | C176_named | - |
| C176 | Labelled_Props | C176_euclidean | - |
| C176 | Labelled_Props | C176_euclidean_coordinates | - |
| C176 | Labelled_Props | C176_euclidean_defined | - |
| C176 | Labelled_Props | C176_round_trip | - |
| C176 | Labelled_Props | C176_reorder | - |
| C176 | Labelled_Props | C176_to_labelled | - |
| C177 | Labelled_Props | C177_bounds_partial | - |
| C177 | Labelled_Props | C177_bounds_weaker_partial | - |
| C177 | Labelled_Props | C177_first_bound_refuted | - |
| C177 | Labelled_Props | C177_bounded_partial | - |
| C177 | Labelled_Props | C177_bounds_refuted | - |
| C178 | Labelled_Props | C178_set | - |
| C178 | Labelled_Props | C178_insert | - |
| C178 | Labelled_Props | C178_of_array | - |
| C179 | Labelled_Props | C179_constraint_set | - |
| C179 | Labelled_Props | C179_bounded_set | - |
| C18 | ErrBound_Props | C18_conversions_partial | dncf |
| C18 | ErrBound_Props | C18_upper_conversion_refuted | dncf |
| C18 | ErrBound_Props | C18_positive_partial | dncf |
| C18 | ErrBound_Props | C18_float_div_lower_refuted | dncf |
| C18 | ErrBound_Props | C18_positive_lower_quotient_refuted | dncf |
| C180 | Labelled_Props | C180_equal_partial | - |
| C180 | Labelled_Props | C180_equal_defined_partial | - |
| C180 | Labelled_Props | C180_equal_complete_partial | - |
| C180 | Labelled_Props | C180_equal_refuted | - |
| C181 | Affine_Props | C181_neg_add | dncf |
| C182 | Affine_Props | C182_bounds_partial | dncf |
| C182 | Affine_Props | C182_point_partial | dncf |
| C182 | Affine_Props | C182_refuted | dncf |
| C183 | Affine_Props | C183_refuted | dncf |
| C183 | Affine_Props | C183_nonnegative_partial | dncf |
| C184 | Affine_Props | C184_refuted | dncf |
| C184 | Affine_Props | C184_partial | dncf |
| C185 | Affine_Props | C185_range | dncf |
| C185 | Affine_Props | C185_of_affine | dncf |
| C185 | Affine_Props | C185_of_taylor | dncf |
| C186 | Affine_Props | C186_product_refuted | dncf |
| C186 | Affine_Props | C186_partial | dncf |
| C187 | Cheb_Props | C187_evaluate | df |
| C187 | Cheb_Props | C187_basis | dnf |
| C187 | Cheb_Props | C187_of_function | df |
| C188 | Cheb_Props | C188_linear | df |
| C189 | Cheb_Props | C189_refuted | dnf |
| C189 | Cheb_Props | C189_partial | df |
| C19 | Tree_Props | C19_invariant | - |
| C19 | Tree_Props | C19_add_is_union | - |
| C19 | Tree_Props | C19_restrict_is_intersection | - |
| C19 | Tree_Props | C19_remove_is_difference | - |
| C19 | Tree_Props | C19_add_cell | - |
| C19 | Tree_Props | C19_add_tree_below_cell | - |
| C19 | Tree_Props | C19_prepend | - |
| C19 | Tree_Props | C19_prepend_defined | - |
| C190 | Cheb_Props | C190_refuted | dnf |
| C190 | Cheb_Props | C190_partial | df |
| C190 | Cheb_Props | C190_sqr_partial | df |
| C191 | Cheb_Props | C191_norm | dncf |
| C192 | MCheb_Props | C192_refuted | df |
| C192 | MCheb_Props | C192_partial | df |
| C192 | MCheb_Props | C192_basis | df |
| C193 | MCheb_Props | C193_linear | df |
| C193 | MCheb_Props | C193_norm | dncf |
| C194 | MCheb_Props | C194_refuted | df |
| C194 | MCheb_Props | C194_partial | df |
| C195 | MProd_Props | C195_refuted | df |
| C195 | MProd_Props | C195_sqr_refuted | - |
| C195 | MProd_Props | C195_partial | df |
| C195 | MProd_Props | C195_ordered_partial | df |
| C195 | MProd_Props | C195_sqr_partial | df |
| C20 | Tree_Props | C20_subset_exact | - |
| C20 | Tree_Props | C20_intersect_exact | - |
| C20 | Tree_Props | C20_has_enabled_exact | - |
| C20 | Tree_Props | C20_all_enabled_exact | - |
| C20 | Tree_Props | C20_cell_enabled_exact | - |
| C20 | Tree_Props | C20_equality_exact | - |
| C20 | Tree_Props | C20_count_exact | - |
| C21 | Tree_Props | C21_mince_preserves | - |
| C21 | Tree_Props | C21_mince_depth | - |
| C21 | Tree_Props | C21_mince_keeps_deeper_leaves | - |
| C21 | Tree_Props | C21_recombine_preserves | - |
| C21 | Tree_Props | C21_recombine_canonical | - |
| C21 | Tree_Props | C21_recombine_minimal | - |
| C22 | Tree_Props | C22_round_trip | - |
| C22 | Tree_Props | C22_injective | - |
| C22 | Tree_Props | C22_reader_terminates | - |
| C22 | Tree_Props | C22_reader_in_range | - |
| C22 | Tree_Props | C22_short_leaves_undetected_refuted | - |
| C23 | Cell_Props | C23_primary_path | - |
| C23 | Cell_Props | C23_primary_nested | df |
| C23 | Cell_Props | C23_primary_exhaust | df |
| C23 | Cell_Props | C23_split_partition | df |
| C23 | Cell_Props | C23_cell_nonempty | d |
| C23 | Cell_Props | C23_smallest_enclosing_partial | - |
| C23 | Cell_Props | C23_inside_means | - |
| C23 | Cell_Props | C23_large_boxes_refuted | - |
| C23 | Cell_Props | C23_corner_overflow | - |
| C23 | Cell_Props | C23_affine_grid | df |
| C23 | Cell_Props | C23_rounded_grid | df |
| C24 | Cell_Props | C24_reroot_same_box | - |
| C24 | Cell_Props | C24_raise_to_level | - |
| C24 | Cell_Props | C24_subset_exact | df |
| C24 | Cell_Props | C24_equal_exact | df |
| C24 | Cell_Props | C24_nested_or_disjoint | df |
| C24 | Cell_Props | C24_less_transitive | - |
| C24 | Cell_Props | C24_less_irreflexive | - |
| C24 | Cell_Props | C24_less_total | - |
| C24 | Cell_Props | C24_less_exact | df |
| C25 | Paving_Props | C25_adjoin_cell | df |
| C25 | Paving_Props | C25_cell_constructor | df |
| C26 | Paving_Props | C26_adjoin | df |
| C26 | Paving_Props | C26_restrict | df |
| C26 | Paving_Props | C26_remove | df |
| C26 | Paving_Props | C26_remove_cell | df |
| C26 | Paving_Props | C26_join | df |
| C26 | Paving_Props | C26_intersection | df |
| C26 | Paving_Props | C26_difference | df |
| C26 | Paving_Props | C26_restrict_to_extent | df |
| C26 | Paving_Props | C26_mince | df |
| C26 | Paving_Props | C26_recombine | df |
| C26 | Paving_Props | C26_branches | df |
| C26 | Paving_Props | C26_mince_exact | - |
| C27 | Paving_Props | C27_subset_pavings | df |
| C27 | Paving_Props | C27_subset_partial | df |
| C27 | Paving_Props | C27_intersect | df |
| C27 | Paving_Props | C27_cell_subset | df |
| C27 | Paving_Props | C27_cell_intersect | df |
| C27 | Paving_Props | C27_equal_sound | df |
| C27 | Paving_Props | C27_subset_refuted | d |
| C28 | Paving_Props | C28_iteration | - |
| C28 | Paving_Props | C28_cells | - |
| C29 | Approx_Props | C29_outer_covers_set | df |
| C29 | Approx_Props | C29_outer_exact | df |
| C30 | Approx_Props | C30_inner_sound | df |
| C30 | Approx_Props | C30_inner_complete | df |
| C30 | Approx_Props | C30_lower_overt_sound | df |
| C30 | Approx_Props | C30_lower_overt_complete | df |
| C30 | Approx_Props | C30_lower_open_sound | df |
| C30 | Approx_Props | C30_inner_open_only | df |
| C30 | Approx_Props | C30_lower_open_complete_refuted | df |
| C31 | Paving_Props | C31_clone_paving_partial | d |
| C31 | Paving_Props | C31_clone_subpaving_refuted | df |
| C32 | Product_Props | C32_product_cell | d |
| C32 | Product_Props | C32_product_partial | df |
| C32 | Product_Props | C32_image_partial | df |
| C32 | Product_Props | C32_product_unequal_refuted | df |
| C32 | Product_Props | C32_image_refuted | df |
| C33 | Poly_Props | C33_total_orders | - |
| C33 | Poly_Props | C33_meaning | - |
| C33 | Poly_Props | C33_addition | - |
| C33 | Poly_Props | C33_subtraction | - |
| C33 | Poly_Props | C33_overflow_refuted | - |
| C34 | Poly_Props | C34_poly | - |
| C34 | Poly_Props | C34_coef | - |
| C34 | Poly_Props | C34_combine_sorted | - |
| C34 | Poly_Props | C34_remove_zeros | - |
| C34 | Poly_Props | C34_embed | - |
| C34 | Poly_Props | C34_sorted_operations | - |
| C34 | Poly_Props | C34_check | - |
| C34 | Poly_Props | C34_equality | - |
| C35 | Poly_Props | C35_horner | - |
| C35 | Poly_Props | C35_power | - |
| C35 | Poly_Props | C35_agree | - |
| C35 | Poly_Props | C35_univariate_partial | - |
| C35 | Poly_Props | C35_univariate_refused | - |
| C35 | Poly_Props | C35_univariate_refuted | - |
| C36 | Taylor_Props | C36_add_sub | dncf |
| C36 | Taylor_Props | C36_neg_scal | dncf |
| C36 | Taylor_Props | C36_bounds_partial | dncf |
| C36 | Taylor_Props | C36_point_partial | dncf |
| C36 | Taylor_Props | C36_bounds_refuted | dncf |
| C36 | Taylor_Props | C36_overflow_refuted | dncf |
| C37 | Taylor_Props | C37_mul_partial | dncf |
| C37 | Taylor_Props | C37_ifma_partial | dncf |
| C37 | Taylor_Props | C37_mul_refuted | dncf |
| C38 | Taylor_Props | C38_sweep | dncf |
| C38 | Taylor_Props | C38_unique | dncf |
| C38 | Taylor_Props | C38_relative_bounds_partial | dncf |
| C38 | Taylor_Props | C38_bounds_refuted | dncf |
| C39 | Taylor_Props | C39_norm_radius | dncf |
| C39 | Taylor_Props | C39_range_partial | dncf |
| C39 | Taylor_Props | C39_refines | dncf |
| C39 | Taylor_Props | C39_inconsistent | dncf |
| C39 | Taylor_Props | C39_range_refuted | dncf |
| C39 | Taylor_Props | C39_consistent_refuted | dncf |
| C40 | Taylor_Props | C40_antiderivative | dncf |
| C40 | Taylor_Props | C40_derivative_partial | dncf |
| C40 | Taylor_Props | C40_derivative_refuted | dncf |
| C41 | Taylor_Props | C41_refinement_partial | dncf |
| C41 | Taylor_Props | C41_refinement_refuted | dncf |
| C41 | Taylor_Props | C41_empty_refuted | dncf |
| C42 | Expr_Props | C42_terminates | - |
| C42 | Expr_Props | C42_no_new_variables | - |
| C42 | Expr_Props | C42_simplify_partial | dncf |
| C42 | Expr_Props | C42_simplify_refuted | dncf |
| C42 | Expr_Props | C42_predicates_partial | dncf |
| C42 | Expr_Props | C42_likely_refuted | dncf |
| C43 | Expr_Props | C43_derivative_partial | dncf |
| C43 | Expr_Props | C43_derivative_exists_partial | dncf |
| C43 | Expr_Props | C43_derivative_refuted | dncf |
| C44 | Expr_Props | C44_substitute | dncf |
| C44 | Expr_Props | C44_substitute_defined | dncf |
| C44 | Expr_Props | C44_substitute_list | dncf |
| C44 | Expr_Props | C44_unmentioned | dncf |
| C44 | Expr_Props | C44_predicates | dncf |
| C45 | Expr_Props | C45_constant | dncf |
| C45 | Expr_Props | C45_affine | dncf |
| C45 | Expr_Props | C45_polynomial | dncf |
| C45 | Expr_Props | C45_additive | dncf |
| C45 | Expr_Props | C45_additive_vector | dncf |
| C45 | Expr_Props | C45_additive_vector_throws | dncf |
| C46 | Expr_Props | C46_indicator | dncf |
| C46 | Expr_Props | C46_indicator_exists | - |
| C46 | Expr_Props | C46_negative_partial | dncf |
| C46 | Expr_Props | C46_negative_refuted | dncf |
| C47 | Proc_Props | C47_formula_partial | - |
| C47 | Proc_Props | C47_vector_partial | - |
| C47 | Proc_Props | C47_scalar_refuted | - |
| C47 | Proc_Props | C47_moved_refuted | - |
| C48 | Proc_Props | C48_hull_reduce_partial | dncf |
| C48 | Proc_Props | C48_hull_reduce_vector_partial | dncf |
| C48 | Proc_Props | C48_returns | - |
| C48 | Proc_Props | C48_sqr_refuted | dncf |
| C48 | Proc_Props | C48_max_refuted | dncf |
| C48 | Proc_Props | C48_sin_refuted | dncf |
| C48 | Proc_Props | C48_pow_refuted | dncf |
| C48 | Proc_Props | C48_hlf_diverges | dncf |
| C49 | Proc_Props | C49_gradient_partial | dncf |
| C49 | Proc_Props | C49_asin_refuted | dncf |
| C49 | Proc_Props | C49_assertion_refuted | dnf |
| C50 | Ball_Props | C50_abs_refuted | dncf |
| C50 | Ball_Props | C50_max_min_refuted | dncf |
| C50 | Ball_Props | C50_abs_partial | dncf |
| C50 | Ball_Props | C50_mag_mig | dncf |
| C50 | Ball_Props | C50_max_min_partial | dncf |
| C51 | Ball_Props | C51_tests | dncf |
| C51 | Ball_Props | C51_comparisons | dncf |
| C51 | Ball_Props | C51_conversions | dncf |
| C52 | Poly_Props | C52_next_partial | - |
| C52 | Poly_Props | C52_next_value | - |
| C52 | Poly_Props | C52_out_of_bounds | - |
| C52 | Poly_Props | C52_refuted | - |
| C53 | Taylor_Props | C53_evaluate_partial | dncf |
| C54 | Taylor_Props | C54_embed_error | df |
| C54 | Taylor_Props | C54_discard | dncf |
| C55 | Expr_Props | C55_common_subexpressions_partial | dncf |
| C55 | Expr_Props | C55_common_subexpressions_vector_partial | dncf |
| C55 | Expr_Props | C55_common_subexpressions_refuted | dncf |
| C56 | Expr_Props | C56_opposite_partial | dncf |
| C56 | Expr_Props | C56_opposite_refuted | - |
| C57 | Evolver_Props | C57_upper_reach_partial | df |
| C57 | Evolver_Props | C57_zero_time_refuted | df |
| C58 | Evolver_Props | C58_schedule_independent | - |
| C58 | Evolver_Props | C58_terminates | - |
| C58 | Evolver_Props | C58_reconditioning_refuted | df |
| C59 | Evolver_Props | C59_final_partial | df |
| C59 | Evolver_Props | C59_final_refuted | df |
| C60 | Evolver_Props | C60_lower_partial | df |
| C60 | Evolver_Props | C60_split_refuted | df |
| C61 | Evolver_Props | C61_map_partial | - |
| C61 | Evolver_Props | C61_initial_refuted | - |
| C62 | Analyser_Props | C62_chain_reach_flow | df |
| C62 | Analyser_Props | C62_chain_reach_map_partial | df |
| C62 | Analyser_Props | C62_map_initial_refuted | - |
| C62 | Analyser_Props | C62_terminates | - |
| C63 | Analyser_Props | C63_safety_flow_partial | df |
| C63 | Analyser_Props | C63_safety_map_partial | df |
| C63 | Analyser_Props | C63_unsafe_certified_refuted | df |
| C64 | Analyser_Props | C64_upper_reach_flow_partial | df |
| C64 | Analyser_Props | C64_upper_reach_map_partial | df |
| C64 | Analyser_Props | C64_upper_reach_refuted | - |
| C64 | Analyser_Props | C64_upper_reach_evolve_flow | df |
| C64 | Analyser_Props | C64_upper_reach_evolve_map | df |
| C65 | Analyser_Props | C65_upper_evolve_partial | df |
| C65 | Analyser_Props | C65_rounding_refuted | - |
| C66 | Exact_Props | C66_rational_arithmetic | df |
| C66 | Exact_Props | C66_rational_division | df |
| C66 | Exact_Props | C66_rational_powers | df |
| C66 | Exact_Props | C66_rational_equality | df |
| C66 | Exact_Props | C66_rational_constructor | df |
| C66 | Exact_Props | C66_rational_order_partial | df |
| C66 | Exact_Props | C66_rational_order_refuted | - |
| C66 | Exact_Props | C66_rational_max_min | df |
| C66 | Exact_Props | C66_rational_rounding | df |
| C67 | Exact_Props | C67_dyadic_arithmetic_partial | df |
| C67 | Exact_Props | C67_dyadic_addition_refuted | df |
| C67 | Exact_Props | C67_dyadic_order_partial | df |
| C67 | Exact_Props | C67_dyadic_order_refuted | - |
| C67 | Exact_Props | C67_dyadic_max_min | df |
| C67 | Exact_Props | C67_dyadic_powers_partial | df |
| C67 | Exact_Props | C67_dyadic_powers_refuted | df |
| C67 | Exact_Props | C67_dyadic_rounding_partial | df |
| C67 | Exact_Props | C67_dyadic_to_rational | df |
| C67 | Exact_Props | C67_dyadic_from_mpf_refuted | df |
| C67 | Exact_Props | C67_dyadic_copies_partial | - |
| C67 | Exact_Props | C67_dyadic_copies_refuted | - |
| C68 | Exact_Props | C68_rational_bounds_partial | df |
| C68 | Exact_Props | C68_rational_bounds_refuted | df |
| C68 | Exact_Props | C68_rational_bounds_comparisons | df |
| C68 | Exact_Props | C68_rational_bounds_sets | df |
| C68 | Exact_Props | C68_dyadic_bounds_partial | df |
| C68 | Exact_Props | C68_dyadic_bounds_refuted | df |
| C68 | Exact_Props | C68_dyadic_ball_partial | df |
| C68 | Exact_Props | C68_dyadic_ball_sets_partial | df |
| C69 | Exact_Props | C69_decimal_arithmetic | df |
| C69 | Exact_Props | C69_decimal_division | df |
| C69 | Exact_Props | C69_decimal_conversions | df |
| C69 | Exact_Props | C69_decimal_order_partial | df |
| C69 | Exact_Props | C69_decimal_order_refuted | df |
| C69 | Exact_Props | C69_decimal_parse | df |
| C69 | Exact_Props | C69_decimal_print_parse | df |
| C70 | Exact_Props | C70_integer_from_builtin_partial | - |
| C70 | Exact_Props | C70_integer_from_builtin_refuted | - |
| C70 | Exact_Props | C70_integer_get_partial | - |
| C70 | Exact_Props | C70_integer_get_refuted | - |
| C70 | Exact_Props | C70_factorials | - |
| C70 | Exact_Props | C70_binomials_partial | - |
| C70 | Exact_Props | C70_binomials_refuted | - |
| C70 | Exact_Props | C70_integer_print_partial | - |
| C70 | Exact_Props | C70_integer_print_refuted | - |
| C71 | Box_Props | number_types | dncf |
| C71 | Box_Props | C71_interval_relations_partial | df |
| C71 | Box_Props | C71_membership | df |
| C71 | Box_Props | C71_positive_answers | df |
| C71 | Box_Props | C71_interval_relations_refuted | df |
| C71 | Box_Props | C71_equal_refuted | df |
| C72 | Box_Props | C72_intersection | d |
| C72 | Box_Props | C72_hull_partial | df |
| C72 | Box_Props | C72_hull_empty | d |
| C72 | Box_Props | C72_hull_point | df |
| C72 | Box_Props | C72_hull_refuted | df |
| C73 | Box_Props | C73_relations | df |
| C73 | Box_Props | C73_empty | df |
| C73 | Box_Props | C73_approximations | d |
| C73 | Box_Props | C73_operations | d |
| C73 | Box_Props | C73_represented | d |
| C73 | Box_Props | C73_refinement | d |
| C74 | Box_Props | C74_box_relations_partial | df |
| C74 | Box_Props | C74_box_interiors | df |
| C74 | Box_Props | C74_box_membership | df |
| C74 | Box_Props | C74_box_approximations | df |
| C74 | Box_Props | C74_box_operations | df |
| C74 | Box_Props | C74_dimensions | - |
| C74 | Box_Props | C74_equal_refuted | df |
| C75 | Box_Shape_Props | C75_split_partial | df |
| C75 | Box_Shape_Props | C75_split_widest | df |
| C75 | Box_Shape_Props | C75_float_split | dncf |
| C75 | Box_Shape_Props | C75_float_split_refuted | dncf |
| C75 | Box_Shape_Props | C75_vertices_partial | - |
| C75 | Box_Shape_Props | C75_vertices_refuted | - |
| C75 | Box_Shape_Props | C75_products | d |
| C75 | Box_Shape_Props | C75_projection | - |
| C76 | Box_Shape_Props | C76_normal_form | df |
| C76 | Box_Shape_Props | C76_canonical | df |
| C76 | Box_Shape_Props | C76_measure | df |
| C76 | Box_Shape_Props | C76_join | df |
| C76 | Box_Shape_Props | C76_intersect_partial | df |
| C76 | Box_Shape_Props | C76_subset_partial | df |
| C76 | Box_Shape_Props | C76_intersection_partial | df |
| C76 | Box_Shape_Props | C76_bounding_box | df |
| C76 | Box_Shape_Props | C76_separated_refuted | df |
| C76 | Box_Shape_Props | C76_subset_refuted | df |
| C76 | Box_Shape_Props | C76_intersection_refuted | df |
| C76 | Box_Shape_Props | C76_convert_refuted | df |
| C76 | Box_Shape_Props | C76_measure_empty_refuted | - |
| C77 | Box_Shape_Props | C77_widen_narrow | dncf |
| C77 | Box_Shape_Props | C77_widen_domain_partial | dncf |
| C77 | Box_Shape_Props | C77_widen_domain_refuted | dncf |
| C78 | Solver_Props | C78_inverse | dncf |
| C79 | Solver_Props | C79_linear_solve | dncf |
| C79 | Solver_Props | C79_gauss_seidel | dncf |
| C80 | Solver_Props | C80_step | dncf |
| C80 | Solver_Props | C80_unique | dncf |
| C80 | Solver_Float_Proofs | ck_sound | dncf |
| C81 | Solver_Props | C81_zero_partial | dncf |
| C81 | Solver_Props | C81_newton_unique | dncf |
| C81 | Solver_Props | C81_outside_refuted | dncf |
| C81 | Solver_Props | C81_precision_refuted | dncf |
| C81 | Solver_Props | C81_nan_refuted | dncf |
| C82 | Solver_Props | C82_solve_all | dncf |
| C82 | Solver_Props | C82_solve_partial | dncf |
| C82 | Solver_Props | C82_no_solution_refuted | dncf |
| C82 | Solver_Props | C82_singular_refuted | dncf |
| C82 | Solver_Props | C82_unique_refuted | dncf |
| C82 | Solver_Props | C82_order_refuted | dncf |
| C83 | Solver_Props | C83_fixed_point_partial | dncf |
| C83 | Solver_Props | C83_fixed_point_refuted | dncf |
| C84 | Automaton_Props | C84_equality | - |
| C84 | Automaton_Props | C84_order | - |
| C84 | Automaton_Props | C84_queries | - |
| C84 | Automaton_Props | C84_join | - |
| C84 | Automaton_Props | C84_restrict_refuted | - |
| C84 | Automaton_Props | C84_restrict_partial | - |
| C85 | Automaton_Props | C85_built | - |
| C85 | Automaton_Props | C85_extends | - |
| C85 | Automaton_Props | C85_new_mode | - |
| C85 | Automaton_Props | C85_new_transition | - |
| C85 | Automaton_Props | C85_failed_partial | - |
| C85 | Automaton_Props | C85_failed_refuted | - |
| C86 | Automaton_Props | C86_sort | dncf |
| C86 | Automaton_Props | C86_fails | - |
| C86 | Automaton_Props | C86_error_refuted | - |
| C87 | Automaton_Props | C87_dynamic_function | dncf |
| C87 | Automaton_Props | C87_auxiliary_function | dncf |
| C87 | Automaton_Props | C87_composite_dynamic_function | dncf |
| C87 | Automaton_Props | C87_composite_auxiliary_function | dncf |
| C87 | Automaton_Props | C87_exists_partial | - |
| C87 | AutomatonComp_Props | C87_composite_exists_partial | - |
| C87 | Automaton_Props | C87_exists_refuted | - |
| C88 | AutomatonComp_Props | C88_composite_reset | dncf |
| C88 | AutomatonComp_Props | C88_reset_partial | dncf |
| C88 | AutomatonComp_Props | C88_reset_refuted | dncf |
| C89 | AutomatonComp_Props | C89_guard | dncf |
| C89 | AutomatonComp_Props | C89_guard_function | dncf |
| C89 | AutomatonComp_Props | C89_invariant_partial | dncf |
| C89 | AutomatonComp_Props | C89_invariant_refuted | dncf |
| C90 | AutomatonComp_Props | C90_kind | - |
| C90 | AutomatonComp_Props | C90_urgent_partial | - |
| C90 | AutomatonComp_Props | C90_urgent_refuted | - |
| C91 | AutomatonComp_Props | C91_reachability | - |
| C91 | AutomatonComp_Props | C91_composite_reachability | - |
| C92 | AutomatonComp_Props | C92_target | - |
| C92 | AutomatonComp_Props | C92_has_mode | - |
| C92 | AutomatonComp_Props | C92_events | - |
| C92 | AutomatonComp_Props | C92_cache | - |
| C92 | AutomatonComp_Props | C92_queries | - |
| C92 | AutomatonComp_Props | C92_mode | - |
| C93 | AutomatonComp_Props | C93_check_mode | - |
| C93 | AutomatonComp_Props | C93_composite_check_partial | - |
| C93 | AutomatonComp_Props | C93_composite_check_refuted | - |
| C94 | HybridEvolver_Props | C94_crossings | dncf |
| C95 | HybridEvolver_Props | C95_orbit_covers_partial | dncf |
| C95 | HybridEvolver_Props | C95_final_start_refuted | dncf |
| C96 | HybridEvolver_Props | C96_orbit_entries | dncf |
| C97 | HybridEvolver_Props | C97_jumps_partial | dncf |
| C97 | HybridEvolver_Props | C97_jumps_refuted | dncf |
| C98 | HybridEvolver_Props | C98_lower_orbit_partial | dncf |
| C98 | HybridEvolver_Props | C98_lower_orbit_refuted | dncf |
| C98 | HybridEvolver_Props | C98_grazing_refuted | dncf |
| C99 | HybridEvolver_Props | C99_timing_partial | dncf |
| C99 | HybridEvolver_Props | C99_before_final_time_refuted | dncf |
