{"id": "C01", "title": "LRU cache behaves as a bounded recency list", "statement": "Starting from an empty LRUCache of any positive capacity, after any history of put and get calls that respect the documented preconditions, the cache holds exactly the most recently used labels (at most capacity of them), get returns the value last put under the label, age(label) is the number of distinct other stored labels used since label was last used, and a put on a full cache evicts exactly the least recently used label and no other.", "quantifier": "every capacity > 0, every label and value type with decidable equality, every finite history of put/get/has_label/age calls", "why_tests_cant": "Tests exercise a handful of fixed histories; the claim is about all histories, in particular that the internal ages never develop a gap or duplicate so that eviction never dereferences a missing entry.", "anchors": ["source/utility/lru_cache.hpp: LRUCache::has_label, get, put, age, current_size"]}
{"id": "C02", "title": "Binary words: order, prefixes and text form", "statement": "operator< on BinaryWord is a strict total order compatible with ==; is_prefix(w) holds exactly when w is an initial segment; erase_prefix then prepending restores the word; writing a non-empty word and reading it back yields the same word.", "quantifier": "all pairs/triples of binary words of any length", "why_tests_cant": "Order laws range over all triples of words; round-trip over all words.", "anchors": ["source/utility/binary_word.hpp: BinaryWord::operator<, is_prefix, is_subword, erase_prefix, append, operator>>, operator<<"]}
{"id": "C03", "title": "Validated logical connectives never contradict the truth", "statement": "If the operands of !, &&, ||, ^, == on validated logical values are correct partial information about some truth values, the result is correct partial information about the classical result: a definite TRUE/FALSE answer is the classical answer; strengthening an operand never reverses a definite answer.", "quantifier": "all pairs of the five logical values and all truth values they may stand for", "why_tests_cant": "Unit tests check selected table entries; the claim is about consistency of the whole algebra (De Morgan, monotonicity, soundness), and is used by every set predicate.", "anchors": ["source/numeric/logical.cpp: operator!, operator&&, operator||, operator^, equal, definitely, possibly, probably, decide", "source/numeric/logical.hpp: LogicalValue"]}
{"id": "C04", "title": "Effort-indexed answers of infinite conjunctions and disjunctions are sound", "statement": "For a sequence of (upper/lower) Kleenean predicates whose checks are sound, checking the countable disjunction (conjunction) at any effort answers TRUE (FALSE) only if some (not every) member holds; a larger effort never retracts a definite answer, and if a member is verified at some effort the disjunction is verified at some effort.", "quantifier": "every infinite sequence of predicates, every effort", "why_tests_cant": "The sequence is infinite and the effort unbounded.", "anchors": ["source/numeric/logical.hpp: disjunction, conjunction, Sequence", "source/numeric/logical.cpp: LogicalHandle checks"]}
{"id": "C05", "title": "Mixing a semi-decidable value with a Boolean gives the logical connective", "statement": "Combining a Sierpinskian/NegatedSierpinskian/Kleenean with a Boolean by && or || denotes the conjunction/disjunction of the two truth values.", "quantifier": "all pairs of a (semi-)decidable truth value and a Boolean, at every effort", "why_tests_cant": "Every combination of handle and Boolean at every effort; the mixed overloads are never exercised by the tests.", "anchors": ["source/numeric/logical.hpp: operator&&(Sierpinskian,Boolean), operator||(Sierpinskian,Boolean), operator&&(NegatedSierpinskian,Boolean)"]}
{"id": "C06", "title": "Nondeterministic choice returns a true alternative", "statement": "choose/nondeterministic choice over a list of semi-decidable alternatives only ever returns the index of an alternative that is true, and returns whenever some alternative is verifiable at some finite effort.", "quantifier": "all finite lists of alternatives, all effort-indexed verification behaviours", "why_tests_cant": "Depends on an unbounded effort schedule.", "anchors": ["source/numeric/logical.hpp: NondeterministicBoolean", "source/numeric/logical.cpp: nondeterministic_choose_index"]}
{"id": "C07", "title": "Interval (Bounds) addition, subtraction and negation enclose the exact result", "statement": "If a real x lies in a Bounds value X and y in Y then x+y, x-y, -x lie in X+Y, X-Y, -X, for every rounding and overflow situation; the result is never a NaN-bounded interval when the operands contain a real.", "quantifier": "all finite and infinite floating-point bounds, all reals in them, any precision", "why_tests_cant": "Floating-point input space; rounding and overflow corner cases.", "anchors": ["source/numeric/float_bounds.hpp: Bounds operator+, operator-, add, sub, neg"]}
{"id": "C08", "title": "Interval (Bounds) multiplication and squaring enclose the exact result", "statement": "If x in X and y in Y (finite bounds) then x*y lies in X*Y and x*x lies in sqr(X), in all nine sign cases.", "quantifier": "all finite floating-point bounds of any precision, all reals in them", "why_tests_cant": "Nine sign cases times rounding, overflow and underflow.", "anchors": ["source/numeric/float_bounds.hpp: mul, sqr", "source/numeric/float_bounds.tpl.hpp: Operations<Bounds>::_mul"]}
{"id": "C09", "title": "Interval (Bounds) division and reciprocal enclose the exact result", "statement": "If x in X, y in Y and y is non-zero then x/y lies in X/Y and 1/y in rec(Y); when Y contains zero the answer is the whole extended line rather than something narrower.", "quantifier": "all finite floating-point bounds, all reals in them", "why_tests_cant": "Sign cases times rounding; divisors touching zero.", "anchors": ["source/numeric/float_bounds.tpl.hpp: Operations<Bounds>::_div", "source/numeric/float_bounds.hpp: rec"]}
{"id": "C10", "title": "Definite comparisons of intervals are true of every pair of members", "statement": "When x<y, x<=y, x==y, sgn, is_positive\u2026 on Bounds answer definitely TRUE (FALSE), the relation holds (fails) for all reals in the intervals; if it is not definite, both outcomes are possible for some members.", "quantifier": "all bounds with lower<=upper, all members", "why_tests_cant": "Universal over reals in the intervals and all bounds including infinities.", "anchors": ["source/numeric/float_bounds.hpp: eq, lt, is_positive, is_zero, sgn"]}
{"id": "C11", "title": "Interval lattice: refines, refinement, coarsening, consistency", "statement": "x refines y iff every real of x is a real of y; refinement(x,y) holds exactly the common reals, coarsening(x,y) is the least interval containing both; consistent/inconsistent decide whether they share a real; models(X,v) iff v in X.", "quantifier": "all bounds (incl. infinite)", "why_tests_cant": "Universal over interval pairs and reals.", "anchors": ["source/numeric/float_bounds.hpp: models, consistent, inconsistent, refines, refinement, coarsening"]}
{"id": "C12", "title": "Centre and error of an interval enclose it", "statement": "For Bounds x with finite endpoints every real r in x satisfies |r - x.value()| <= x.error(), and value pm error contains x.", "quantifier": "all finite bounds", "why_tests_cant": "Rounding of midpoint and radius for all pairs of floats.", "anchors": ["source/numeric/float_bounds.tpl.hpp: value, error, value_error", "source/numeric/float_bounds.hpp: pm"]}
{"id": "C13", "title": "Interval powers enclose the exact power", "statement": "If x in X then x^n lies in pow(X,n) for every natural n, including even powers of intervals containing zero.", "quantifier": "all finite bounds, all natural exponents", "why_tests_cant": "All exponents and sign patterns; squaring-and-multiply with directed rounding.", "anchors": ["source/numeric/float_bounds.tpl.hpp: pow", "source/numeric/floatdp.cpp: pow_rnd"]}
{"id": "C14", "title": "Interval max, min, abs, halving and widening/narrowing are outward (inward) correct", "statement": "max, min, abs of Bounds enclose the exact result; hlf(X) encloses x/2; widen(X) contains X; narrow(X) is contained in X.", "quantifier": "all bounds, all members", "why_tests_cant": "Corner cases at subnormal numbers and asymmetric code for the two endpoints.", "anchors": ["source/numeric/float_bounds.hpp: max, min, abs, hlf, widen, narrow"]}
{"id": "C15", "title": "Ball addition and subtraction enclose the exact result", "statement": "If |x-xv|<=xe and |y-yv|<=ye then the exact x+y (x-y) is within the error of the value of the Ball result whenever the resulting error is finite.", "quantifier": "all balls with finite value/error, any precision, all members", "why_tests_cant": "Rounding analysis over the whole float range.", "anchors": ["source/numeric/float_ball.hpp: add, sub, neg"]}
{"id": "C16", "title": "Ball multiplication, reciprocal, division and halving enclose the exact result", "statement": "The same for x*y, 1/y, x/y and x/2 whenever the operation returns a finite ball.", "quantifier": "all balls with finite value/error, all members", "why_tests_cant": "Underflow and zero-containing divisors.", "anchors": ["source/numeric/float_ball.hpp: mul, rec, div, hlf, sqr"]}
{"id": "C17", "title": "Error and upper-bound arithmetic only ever rounds up", "statement": "Sum, product, square, power, fma and quotient-by-natural of Error/UpperBound values are upper bounds of the exact result on the reals they bound; expressions built from them remain upper bounds.", "quantifier": "all non-negative floats incl. +inf, all expression trees", "why_tests_cant": "All rounding situations, and arbitrary expression trees.", "anchors": ["source/numeric/float_error.hpp", "source/numeric/float_upper_bound.hpp"]}
{"id": "C18", "title": "Changing the precision of an upper bound keeps it an upper bound", "statement": "UpperBound(x,pr) constructed from a float or Bounds at another precision is >= every real bounded by x; LowerBound dually; dividing a positive float by a positive lower bound gives an upper bound.", "quantifier": "all values and precision pairs", "why_tests_cant": "Needs a value not representable at the target precision; quantifies over all precisions.", "anchors": ["source/numeric/float_upper_bound.tpl.hpp: UpperBound(F,PR), UpperBound(Bounds,PR)", "source/numeric/float_upper_bound.hpp: operator/"]}
{"id": "C19", "title": "Binary-tree set operations are the Boolean algebra of marked leaves", "statement": "On subdivision trees representing sets of cells, add_enabled gives the union, restrict the intersection, remove the difference, whatever the shapes of the two trees; structural sharing/relocation never changes other parts.", "quantifier": "all finite binary trees, all infinite binary paths", "why_tests_cant": "Trees of arbitrary and different shapes.", "anchors": ["source/geometry/binary_tree.cpp: BinaryTreeNode::add_enabled, restrict, remove", "source/geometry/binary_tree.hpp"]}
{"id": "C20", "title": "Tree inclusion and overlap queries are exact", "statement": "subset(t1,t2) is true iff every path enabled in t1 is enabled in t2; intersect(t1,t2) iff some path is enabled in both; has_enabled/all_enabled are exact emptiness/fullness tests.", "quantifier": "all finite binary trees", "why_tests_cant": "Universal over tree pairs.", "anchors": ["source/geometry/binary_tree.cpp: BinaryTreeNode::subset, intersect, has_enabled, all_enabled"]}
{"id": "C21", "title": "Mincing and recombining a tree preserve the represented set; recombination is canonical", "statement": "mince(depth) and recombine() never change which points are covered; after mince every enabled leaf is at depth at least d; recombine yields the same tree for any two trees covering the same set.", "quantifier": "all finite trees, all depths", "why_tests_cant": "Universal over trees.", "anchors": ["source/geometry/binary_tree.cpp: mince_node, recombine_node, is_equal_nodes"]}
{"id": "C22", "title": "Trees round-trip through their serialised form", "statement": "Writing a tree as its structure and leaf bit arrays (tree_to_binary_words) and restoring from them gives back the same tree and consumes exactly the arrays; distinct trees have distinct arrays; on arbitrary arrays restoring terminates, and it stays in range whenever there is a leaf bit for every 0 of the structure array.", "quantifier": "all finite trees, all suffixes", "why_tests_cant": "Universal over trees.", "anchors": ["source/geometry/binary_tree.cpp: tree_to_binary_words, restore_node"]}
{"id": "C23", "title": "Primary cells are nested and cell boxes tile them", "statement": "For every dimension and grid the primary cell of extent h is contained in that of extent h+1, via the path used by the library; the cells with words w0 and w1 partition the cell with word w; the smallest enclosing primary cell of a box contains it and no smaller extent does.", "quantifier": "all dimensions >= 1, all extents, all words", "why_tests_cant": "Unbounded extents, dimensions and word lengths.", "anchors": ["source/geometry/grid_cell.hpp", "source/geometry/grid_paving.cpp: primary_cell_lattice_box, primary_cell_path, compute_lattice_box, smallest_enclosing_primary_cell_extent"]}
{"id": "C24", "title": "Re-rooting a grid cell does not move it", "statement": "Expressing a cell relative to a larger primary cell gives the same box; subset and order comparisons of cells with different root extents agree with the geometry of their boxes.", "quantifier": "all cells, all extents", "why_tests_cant": "Unbounded extents and words.", "anchors": ["source/geometry/grid_paving.cpp: primary_cell_path, subset(GridCell,GridCell)", "source/geometry/grid_cell.hpp: GridAbstractCell::compare_abstract_grid_cells"]}
{"id": "C25", "title": "Adjoining a cell to a paving adds exactly that cell", "statement": "After adjoin(cell) on a paving of any extent, the paving covers exactly the points it covered before plus the points of the cell, also when the cell needs a larger or smaller root cell.", "quantifier": "all pavings, all cells on the same grid", "why_tests_cant": "All relative positions/extents of cell and paving.", "anchors": ["source/geometry/grid_paving.cpp: GridTreePaving::adjoin, align_with_cell, up_to_primary_cell, _adjoin_cell"]}
{"id": "C26", "title": "Paving union, intersection and difference are exact set operations", "statement": "adjoin/restrict/remove (and join, intersection, difference) of two pavings on the same grid cover exactly the union/intersection/difference of the covered points, for arbitrary different extents, and do not modify the argument.", "quantifier": "all pairs of pavings; all histories of such operations", "why_tests_cant": "All relative extents and tree shapes; arbitrary operation histories.", "anchors": ["source/geometry/grid_paving.cpp: adjoin, restrict, remove, restrict_to_lower, remove_from_lower, join, intersection, difference"]}
{"id": "C27", "title": "Paving inclusion and overlap queries are exact", "statement": "subset(paving,paving), intersect(paving,paving), subset(cell,paving) and intersect(cell,paving) answer according to the covered points, including empty sets.", "quantifier": "all pairs of pavings/subpavings/cells on the same grid", "why_tests_cant": "All relative extents, shapes, empty sets.", "anchors": ["source/geometry/grid_paving.cpp: subset, intersect"]}
{"id": "C28", "title": "Iterating a paving enumerates its enabled cells exactly once in order", "statement": "begin()..end() visits every enabled leaf cell exactly once, in left-to-right order, and size() equals the number of visited cells.", "quantifier": "all finite trees", "why_tests_cant": "Traversal uses a cursor stack; all tree shapes.", "anchors": ["source/geometry/grid_paving.cpp: GridTreeConstIterator, GridTreeCursor", "source/geometry/binary_tree.cpp: count_enabled_leaf_nodes"]}
{"id": "C29", "title": "Outer approximation covers the set and only adds cells that may meet it", "statement": "If the set's disjointness test is sound, adjoin_outer_approximation(set,depth) covers every point of the set inside the enclosing primary cell and keeps everything covered before, and every added cell at maximum depth is one the set could not be shown separated from.", "quantifier": "all compact sets given by sound three-valued predicates, all depths, all prior pavings", "why_tests_cant": "Sets are arbitrary oracles; depth unbounded.", "anchors": ["source/geometry/grid_paving.cpp: _adjoin_outer_approximation, adjoin_outer_approximation"]}
{"id": "C30", "title": "Inner and lower approximations are sound", "statement": "adjoin_inner_approximation only adds cells contained in the set; adjoin_lower_approximation only adds cells verified to meet the open/overt set (beyond cells already present).", "quantifier": "all open/overt sets given by sound predicates, all depths, all prior pavings", "why_tests_cant": "Oracle sets, unbounded depth.", "anchors": ["source/geometry/grid_paving.cpp: _adjoin_inner_approximation, _adjoin_lower_approximation"]}
{"id": "C31", "title": "Cloning a paving yields an equal set", "statement": "clone() of a GridTreeSubpaving/GridTreePaving covers exactly the same points as the original.", "quantifier": "all pavings", "why_tests_cant": "Universal over pavings; an overload-resolution accident can make it return an unrelated set.", "anchors": ["source/geometry/grid_paving.cpp: GridTreeSubpaving::clone", "source/geometry/grid_paving.hpp: GridTreePaving(Grid,Bool)"]}
{"id": "C32", "title": "Products and projections of pavings are exact", "statement": "product(A,B) covers exactly the pairs (a,b); image(A,projection) covers exactly the projected points.", "quantifier": "all pavings, all projections", "why_tests_cant": "Interleaving of path bits over all depths.", "anchors": ["source/geometry/grid_paving.cpp: product, product_word, image"]}
{"id": "C33", "title": "Multi-index orders are strict total orders compatible with addition", "statement": "graded_less, lexicographic_less and reverse_lexicographic_less are strict total orders on multi-indices of equal size, and adding the same index on both sides preserves them (so products of sorted expansions merge).", "quantifier": "all multi-indices of any size whose degrees do not overflow", "why_tests_cant": "All triples, all sizes; 16-bit overflow is explicit.", "anchors": ["source/algebra/multi_index.inl.hpp: graded_less, lexicographic_less, reverse_lexicographic_less, operator+"]}
{"id": "C34", "title": "Sorting and combining expansions preserve the polynomial", "statement": "sort, combine_terms, remove_zeros, append, set/get on (sorted) expansions never change the polynomial function denoted, and combining leaves strictly increasing distinct indices.", "quantifier": "all expansions over any commutative ring, all evaluation points", "why_tests_cant": "Universal over expansions and rings.", "anchors": ["source/algebra/expansion.tpl.hpp: combine_terms, sort, remove_zeros, prepend, append, SortedExpansion"]}
{"id": "C35", "title": "Horner evaluation equals the sum of monomials", "statement": "For every reverse-lexicographically sorted expansion without duplicate indices and every argument in a commutative algebra, horner_evaluate gives the sum of coefficient times monomial; unsorted input is rejected, not miscomputed. Univariate Horner likewise.", "quantifier": "all expansions, all commutative rings, all arguments", "why_tests_cant": "Universal over expansions of any number of variables and terms.", "anchors": ["source/algebra/evaluate.tpl.hpp: horner_evaluate, power_evaluate"]}
{"id": "C36", "title": "Taylor model addition, subtraction and scaling enclose", "statement": "If f is within error of the polynomial of model p on [-1,1]^n and g of q then f+g, f-g, -f, c*f are within the error of the result polynomial, accounting for all rounding and swept terms.", "quantifier": "all Taylor models with float coefficients, all functions enclosed, all points of the unit box", "why_tests_cant": "Infinitely many functions/points; cumulative rounding.", "anchors": ["source/function/taylor_model.tpl.hpp: _add, _sub, _neg, _scal, add_err, sub_err, mul_err"]}
{"id": "C37", "title": "Taylor model multiplication encloses", "statement": "The same for f*g including the cross error terms.", "quantifier": "all Taylor models, all enclosed functions, all points of the unit box", "why_tests_cant": "Infinitely many functions/points; cumulative rounding, double rounding in fused operations.", "anchors": ["source/function/taylor_model.tpl.hpp: _ifma, _mul, fma_err"]}
{"id": "C38", "title": "Sweeping terms never loses enclosure", "statement": "Discarding terms by any sweeper policy moves their magnitude into the error so that every enclosed function stays enclosed, for all coefficient types.", "quantifier": "all sweepers (any discard predicate), all models, all points", "why_tests_cant": "All discard policies; different coefficient types use different code.", "anchors": ["source/function/taylor_model.tpl.hpp: SweeperBase::_sweep, RelativeSweeperBase::_sweep", "source/algebra/sweeper.hpp"]}
{"id": "C39", "title": "Taylor model range and norm bound the function", "statement": "range(p) contains f(x) for all enclosed f and all x in the unit box; norm(p) bounds |f|; refines(p,q) implies every f enclosed by p is enclosed by q.", "quantifier": "all models, functions, points", "why_tests_cant": "Universal over functions and points.", "anchors": ["source/function/taylor_model.tpl.hpp: range, norm, _refines"]}
{"id": "C40", "title": "Taylor model antiderivative encloses the antiderivative", "statement": "If p encloses f then antiderivative(p,k) encloses the integral of f from 0 in variable k.", "quantifier": "all models, variables, enclosed integrable functions", "why_tests_cant": "Universal over functions; rounding of division by degrees.", "anchors": ["source/function/taylor_model.tpl.hpp: antidifferentiate"]}
{"id": "C41", "title": "Refinement of Taylor models keeps common functions", "statement": "refinement(p,q) encloses every function enclosed by both p and q.", "quantifier": "all pairs of consistent models", "why_tests_cant": "Universal over functions; absent terms.", "anchors": ["source/function/taylor_model.tpl.hpp: _refinement"]}
{"id": "C42", "title": "Expression simplification preserves values", "statement": "simplify(e) terminates, introduces no variables, and evaluates to the same value as e at every valuation at which e is defined; likewise for predicates.", "quantifier": "all expressions and predicates, all sharings of nodes, all valuations", "why_tests_cant": "Universal over expression trees and real valuations.", "anchors": ["source/symbolic/templates.tpl.hpp: _simpl, _simplify_node", "source/symbolic/expression.tpl.hpp: simplify, identical, is_constant", "source/numeric/operators.hpp: inverse, are_inverses"]}
{"id": "C43", "title": "Symbolic derivative is the derivative", "statement": "derivative(e,v) evaluates, wherever e is smooth, to the partial derivative of the function denoted by e with respect to v.", "quantifier": "all expressions built from the elementary operators, all points of the domain", "why_tests_cant": "Universal over expression trees and real points.", "anchors": ["source/symbolic/templates.tpl.hpp: _derivative_impl", "source/numeric/operators.hpp: derivative members"]}
{"id": "C44", "title": "Substitution commutes with evaluation", "statement": "Evaluating substitute(e,v,s) equals evaluating e with v bound to the value of s; a list substitution is the sequential composition; variables not mentioned are unaffected.", "quantifier": "all expressions, valuations", "why_tests_cant": "Universal over trees.", "anchors": ["source/symbolic/expression.tpl.hpp: _substitute_impl, substitute"]}
{"id": "C45", "title": "is_constant_in / is_affine_in / is_additive_in only say yes when true", "statement": "If is_constant_in(e,vars) then the value of e does not depend on vars; if is_affine_in then e is an affine function of vars for fixed other variables; if is_polynomial_in then polynomial; is_additive_in(e,v) implies e = v + (constant in v) or constant.", "quantifier": "all expressions, variable sets, valuations", "why_tests_cant": "Universal over trees and valuations.", "anchors": ["source/symbolic/templates.tpl.hpp: is_constant_in, is_affine_in, is_polynomial_in", "source/symbolic/expression.cpp: is_additive_in"]}
{"id": "C46", "title": "Indicator of a predicate has the right sign", "statement": "indicator(e,POSITIVE) is positive only where the predicate e is true and negative only where it is false; indicator(e,NEGATIVE) is its exact negation.", "quantifier": "all predicates built from comparisons, &&, ||, !; all valuations", "why_tests_cant": "Universal over predicate trees and valuations.", "anchors": ["source/symbolic/expression.cpp: indicator, _indicator"]}
{"id": "C47", "title": "Compiling a formula to a procedure preserves its value", "statement": "Executing the instruction list generated from a formula (with sharing) gives the formula's value for every argument, for every order in which the C++ implementation evaluates function arguments.", "quantifier": "all formulae (DAGs), arguments, algebras, evaluation orders", "why_tests_cant": "Universal over DAGs; the argument evaluation order is unspecified by the language so no test on one compiler settles it.", "anchors": ["source/function/procedure.tpl.hpp: _convert, _convert_impl, _execute"]}
{"id": "C48", "title": "Hull reduction never discards a solution", "statement": "simple_hull_reduce(dom,f,codom) leaves in dom every point x of the original dom with f(x) in codom.", "quantifier": "all procedures, boxes, codomains, points", "why_tests_cant": "Universal over points and procedures.", "anchors": ["source/function/procedure.tpl.hpp: backpropagate, _backpropagate", "source/function/procedure.cpp: simple_hull_reduce"]}
{"id": "C49", "title": "Reverse-mode gradient equals the derivative", "statement": "gradient(procedure,x) equals the vector of partial derivatives of the procedure's function, including shared sub-expressions.", "quantifier": "all straight-line procedures, all points", "why_tests_cant": "Universal over procedures with sharing.", "anchors": ["source/function/procedure.tpl.hpp: gradient, back_gradient"]}
{"id": "C50", "title": "Ball absolute value, maximum and minimum enclose the exact result", "statement": "If x and y lie in the balls X and Y then |x|, max(x,y) and min(x,y) lie in abs(X), max(X,Y) and min(X,Y); mag and mig bound |x| above and below.", "quantifier": "all balls with finite value and error, all members, all rounding modes", "why_tests_cant": "Quantifies over all members of all balls, including balls containing zero and balls that overlap.", "anchors": ["source/numeric/float_ball.hpp: abs, max, min, mag, mig"]}
{"id": "C51", "title": "Ball comparisons, refinement tests and conversions are sound", "statement": "A definite answer of a comparison of balls is right for every pair of members; refines, models, consistent and inconsistent say what they mean for the sets of members; conversion to and from Bounds keeps every member.", "quantifier": "all balls and bounds, all members", "why_tests_cant": "Rounding of the end-points must be in the safe direction for all floats.", "anchors": ["source/numeric/float_ball.hpp: eq, lt, sgn, refines, models, consistent, inconsistent, refinement", "source/numeric/float_ball.tpl.hpp: Ball(Bounds)"]}
{"id": "C52", "title": "Incrementing a multi-index enumerates the indices in graded order", "statement": "++a replaces a multi-index by its immediate successor in the graded order: the result is greater than a, no index lies strictly between, and no memory outside the index is touched.", "quantifier": "all multi-indices of any positive size whose degree does not overflow", "why_tests_cant": "Unbounded family of sizes and exponents; the stray write lands in an unrelated cell and usually goes unnoticed.", "anchors": ["source/algebra/multi_index.cpp: MultiIndex::operator++", "source/algebra/multi_index.inl.hpp: graded_less"]}
{"id": "C53", "title": "Evaluating a Taylor model on bounds contains the function value", "statement": "If a Taylor model encloses f and each argument bounds contain a coordinate of a point x of the unit box, then evaluating the model on the bounds returns bounds containing f(x).", "quantifier": "all models, enclosed functions, points and argument bounds", "why_tests_cant": "Universal over functions, points and bounds; infinite bounds.", "anchors": ["source/function/taylor_model.tpl.hpp: _evaluate", "source/algebra/evaluate.tpl.hpp: horner_evaluate"]}
{"id": "C54", "title": "Changing the variables of a Taylor model keeps the enclosed functions", "statement": "Embedding the error as a new variable gives an exact polynomial that attains f(x) for some value of the new variable in [-1,1], for every enclosed f and point x, and never leaves the original error; discarding variables gives a model of the remaining variables within its error of f(x) whatever the values of the discarded ones.", "quantifier": "all models, enclosed functions, points, sets of discarded variables", "why_tests_cant": "Universal over functions and points.", "anchors": ["source/function/taylor_model.tpl.hpp: _embed_error, _discard_variables"]}
{"id": "C55", "title": "Eliminating common subexpressions preserves values", "statement": "eliminate_common_subexpressions(e), for an expression or a vector of expressions, evaluates to the same values as before.", "quantifier": "all expressions and vectors of expressions, all constants, all valuations", "why_tests_cant": "Depends on every pair of subexpressions that the ordering of the cache fails to separate.", "anchors": ["source/symbolic/expression.tpl.hpp: before, eliminate_common_subexpressions"]}
{"id": "C56", "title": "Opposite predicates are recognised", "statement": "opposite(p,q) returns true for a comparison and its mirror image with the same arguments, never returns true for predicates that are not opposite, and never throws.", "quantifier": "all pairs of predicates", "why_tests_cant": "Universal over predicate trees.", "anchors": ["source/symbolic/expression.cpp: opposite", "source/symbolic/expression.tpl.hpp: Expression::arg1, arg2"]}
{"id": "C57", "title": "Upper orbits of vector fields enclose the trajectories", "statement": "VectorFieldEvolver::orbit(initial,time,Semantics::UPPER): for every point of the initial enclosure, the solution at every time between 0 and the requested time lies in the reach set of the returned orbit.", "quantifier": "all rigorous enclosure operations and integrators, all initial enclosures, all evolution times, all configurations, all schedules of the worker pool", "why_tests_cant": "Ranges over every point, every time and every interleaving of the workers.", "anchors": ["source/dynamics/vector_field_evolver.cpp: VectorFieldEvolver::orbit, _process_timed_enclosure, _process_timed_enclosure_step"]}
{"id": "C58", "title": "Orbit computation does not depend on the schedule and terminates", "statement": "VectorFieldEvolver::orbit returns the same reach, intermediate and final sets, up to order, whatever the interleaving of the concurrent workers; and it terminates whenever every integration step advances time.", "quantifier": "all schedules, all enclosure operations, all initial sets", "why_tests_cant": "Schedules cannot be enumerated by tests.", "anchors": ["source/dynamics/vector_field_evolver.cpp: orbit, _process_timed_enclosure, _process_timed_enclosure_step"]}
{"id": "C59", "title": "Final sets of an orbit are the states at the requested time", "statement": "VectorFieldEvolver::orbit(initial,time,UPPER).final() contains the state at the requested time of every trajectory starting in the initial set.", "quantifier": "all enclosures, times, points", "why_tests_cant": "Depends on the relation between step sizes and the final time for every run.", "anchors": ["source/dynamics/vector_field_evolver.cpp: _process_timed_enclosure_step"]}
{"id": "C60", "title": "Lower orbits contain only reachable sets", "statement": "Every set in VectorFieldEvolver::orbit(initial,time,Semantics::LOWER) contains, for every starting point of the initial set, a state reached from it (so the sets are all genuinely reached from every point).", "quantifier": "all enclosures, times, points, schedules", "why_tests_cant": "Universal over points and schedules.", "anchors": ["source/dynamics/vector_field_evolver.cpp: orbit, _process_timed_enclosure"]}
{"id": "C61", "title": "Orbits of iterated maps enclose the iterates", "statement": "IteratedMapEvolver::orbit(initial,n,UPPER): the final sets contain the n-th iterate, and the reach sets the k-th iterates for all k from 0 to n, of every point of the initial set.", "quantifier": "all maps, enclosures, numbers of steps, points", "why_tests_cant": "Universal over points, numbers of steps and subdivision histories.", "anchors": ["source/dynamics/iterated_map_evolver.cpp: orbit, _evolution, _evolution_step"]}
{"id": "C62", "title": "The outer chain reach set contains every reachable state", "statement": "ReachabilityAnalyser::outer_chain_reach(initial) returns a set of cells containing the states, at all times, of all trajectories from the initial set (when it does not throw, and nothing is cut off by the overspill policy); and it terminates when the domain is bounded.", "quantifier": "all systems (flows and maps), evolvers, grids, configurations, initial sets, times", "why_tests_cant": "Ranges over infinitely many times, points and systems.", "anchors": ["source/dynamics/reachability_analyser.tpl.hpp: outer_chain_reach, _adjoin_upper_reach_evolve, _checked_restriction"]}
{"id": "C63", "title": "Safety certificates are only issued for safe systems", "statement": "If ReachabilityAnalyser::verify_safety(initial,safe) returns a certificate with is_safe=true then no trajectory from the initial set leaves the safe set.", "quantifier": "all systems, evolvers, grids, configurations, initial and safe sets", "why_tests_cant": "A wrong certificate needs only one system and configuration among infinitely many.", "anchors": ["source/dynamics/reachability_analyser.tpl.hpp: verify_safety"]}
{"id": "C64", "title": "Upper reach sets contain the states reached within the time", "statement": "ReachabilityAnalyser::upper_reach(initial,time) and the first component of upper_reach_evolve(initial,time) contain the state of every trajectory from the initial set at every time from 0 to the given time.", "quantifier": "all systems, evolvers, grids, configurations, initial sets, times", "why_tests_cant": "Depends on the history of cells met in the middle of earlier steps.", "anchors": ["source/dynamics/reachability_analyser.tpl.hpp: upper_reach, upper_reach_evolve, compute_time_steps"]}
{"id": "C65", "title": "Upper evolved sets contain the states at the time", "statement": "ReachabilityAnalyser::upper_evolve(initial,time) and the second component of upper_reach_evolve(initial,time) contain the state at the given time of every trajectory from the initial set.", "quantifier": "all systems, evolvers, grids, configurations, initial sets, times", "why_tests_cant": "Depends on how every time divides into steps.", "anchors": ["source/dynamics/reachability_analyser.tpl.hpp: upper_evolve, upper_reach_evolve, compute_time_steps"]}
{"id": "C66", "title": "Rational numbers compute exactly, infinities included", "statement": "Sums, differences, products, quotients, powers, halves, squares, absolute values, maxima, minima and roundings of Rational values equal the operations on extended real numbers (NaN where undefined); results are in lowest terms, so == is equality of values; <, <=, >, >= decide the order, and no comparison with NaN is true.", "quantifier": "all rationals including infinities and NaN, all exponents", "why_tests_cant": "The value space is infinite and special values combine with every operation.", "anchors": ["source/numeric/rational.cpp: add, sub, mul, div, rec, pow, cmp, round, floor, ceil", "source/numeric/rational.hpp: Rational, operator<", "source/numeric/extended.hpp: ExtendedOperations"]}
{"id": "C67", "title": "Dyadic numbers compute exactly and survive copies and moves", "statement": "Sums, differences, products, halves, powers, maxima, minima, roundings, comparisons and conversion to Rational of Dyadic values are exact; construction, copying, moving and assignment keep the value.", "quantifier": "all dyadic numbers of any size, including infinities and NaN; all sequences of copies and moves", "why_tests_cant": "Exactness must hold at every size of number and after every object history.", "anchors": ["source/numeric/dyadic.cpp: Dyadic constructors and assignment, add, sub, mul, hlf, pow, cmp, round, floor, ceil", "source/numeric/dyadic.hpp: Dyadic", "source/numeric/rational.cpp: Rational(Dyadic const&)"]}
{"id": "C68", "title": "Rational and dyadic bounds and balls enclose exact results", "statement": "Every operation on Bounds<Rational>, Bounds<Dyadic> and Ball<Dyadic> gives an enclosure of the operation on every enclosed number; definite comparisons are right; refinement, coarsening, refines and inconsistent mean intersection, union, inclusion and disjointness.", "quantifier": "all bounds and balls, all enclosed numbers", "why_tests_cant": "Enclosure must hold for every real number in every interval.", "anchors": ["source/numeric/rational.cpp: operations on RationalBounds", "source/numeric/rational.hpp: Bounds<Rational>", "source/numeric/dyadic.hpp: Bounds<Dyadic>, Ball<Dyadic,Dyadic>"]}
{"id": "C69", "title": "Decimal numbers compute, compare, read and print exactly", "statement": "Arithmetic on Decimal values is exact, division gives the exact Rational, conversions keep the value, the six comparison operators decide the order, reading a decimal string gives the number written, and reading back a printed decimal gives the same number.", "quantifier": "all decimals, all digit strings", "why_tests_cant": "Digit strings and sizes are unbounded.", "anchors": ["source/numeric/decimal.cpp: canonicalize, operations, Decimal(String), operator<<, operator Rational, Decimal(Dyadic)", "source/numeric/decimal.hpp: comparison operators"]}
{"id": "C70", "title": "Integers convert from, to and print like built-in integers", "statement": "Constructing an Integer from a built-in integer keeps its value; get<N>() returns the value when it fits and fails otherwise; fac and bin return factorials and binomial coefficients for all arguments their assertions accept; printing gives all the digits.", "quantifier": "all built-in integers, all Integers, all accepted arguments of fac and bin", "why_tests_cant": "The failing values are isolated regions of 2^64 inputs.", "anchors": ["source/numeric/integer.cpp: Integer(Nat64), Integer(Int64), Integer(Int32), operator<<", "source/numeric/integer.hpp: get", "source/numeric/int.cpp: fac, bin"]}
{"id": "C71", "title": "Relations between intervals say what holds of the sets", "statement": "For intervals with exact end points, subset, superset, intersect, disjoint, separated, overlap, inside, covers, ==, !=, equal, contains, is_empty and is_singleton give a definite answer, which is true exactly when the relation holds of the sets of real numbers.", "quantifier": "all pairs of intervals over every number type with exact comparisons (floats of every precision, rationals, dyadics), end points finite or infinite", "why_tests_cant": "There are infinitely many pairs; the failures are at touching end points, single points, empty intervals and infinite ends.", "anchors": ["source/geometry/interval.inl.hpp: is_empty, contains, equal, subset, superset, disjoint, intersect, separated, overlap, inside, covers", "source/geometry/interval.hpp: operator=="]}
{"id": "C72", "title": "Intersection and hull of intervals", "statement": "intersection(i,j) has exactly the common numbers of i and j; hull(i,j) is the smallest interval containing both, and hull(i,x) the smallest containing i and x.", "quantifier": "all intervals over every number type with exact comparisons, including empty ones", "why_tests_cant": "Minimality ranges over all intervals; the empty interval has many representations.", "anchors": ["source/geometry/interval.inl.hpp: intersection, hull"]}
{"id": "C73", "title": "Approximate intervals answer only what is right for every interval they stand for", "statement": "For intervals whose end points are bounds, a definite answer to a relation is right for every exact interval the object stands for; an intersection or hull of over-approximations contains that of the intervals, and of under-approximations is contained in it; refines and refinement agree with inclusion.", "quantifier": "all interval objects of each kind, all exact intervals they stand for", "why_tests_cant": "A test fixes one exact interval; the claim is for all those in the bounds.", "anchors": ["source/geometry/interval.inl.hpp", "source/geometry/interval.hpp: UpperInterval, LowerInterval, refinement"]}
{"id": "C74", "title": "Relations between boxes say what holds of the sets", "statement": "For boxes of equal dimension the relations subset, superset, intersect, disjoint, separated, overlap, inside, covers, == and equal, membership and emptiness are answered as for the sets of points; intersection and hull are the sets of common points and the smallest box containing both; answers about over-approximations are right for all boxes they stand for.", "quantifier": "all boxes of every dimension over every number type with exact comparisons", "why_tests_cant": "All dimensions and all coordinates; an error in one coordinate only shows for boxes that agree in the others.", "anchors": ["source/geometry/box.hpp: Box, subset, superset, intersect, disjoint, separated, overlap, inside, covers, contains, is_empty, intersection, hull"]}
{"id": "C75", "title": "Splitting, vertices, products and projections of boxes", "statement": "split gives two boxes which together are the box and have only the split point of one coordinate in common; without an index the widest coordinate is split; vertices lists every corner once, each next to the one before; product and project concatenate and select coordinates.", "quantifier": "all boxes of every dimension, all coordinates, all float precisions and rounding modes", "why_tests_cant": "The vertices are exponentially many; the midpoint depends on rounding for every pair of end points.", "anchors": ["source/geometry/box.tpl.hpp: split, irmax", "source/geometry/box.cpp: make_vertices_up, make_vertices_down", "source/geometry/box.hpp: product, project", "source/geometry/interval.inl.hpp: split"]}
{"id": "C76", "title": "Unions of intervals are sets", "statement": "A UnionOfIntervals made from any list of intervals has the same points, kept as disjoint intervals in increasing order; join, intersection, intersect, subset, separated, covers, inside, bounding_box and measure agree with the sets of points, so depend on these only.", "quantifier": "all finite lists of intervals over every number type with exact comparisons", "why_tests_cant": "All orders and overlaps of any number of intervals.", "anchors": ["source/geometry/union_of_intervals.hpp: UnionOfIntervals"]}
{"id": "C77", "title": "Widening and narrowing", "statement": "widen(b,e) contains every point within e of b, with b in its interior for e>0; every point within e of narrow(b,e) is in b; widen_domain(b) contains b and has single-precision end points.", "quantifier": "all boxes, all float precisions, all finite e; all double-precision intervals", "why_tests_cant": "Rounding acts differently on every pair of end points.", "anchors": ["source/geometry/interval.inl.hpp: widen, narrow", "source/geometry/interval.cpp: widen_domain", "source/geometry/box.hpp: widen, narrow, widen_domain"]}
{"id": "C78", "title": "Inverse of an interval matrix", "statement": "If inverse(A) returns for a matrix A of bounds, every real matrix in A is invertible and its inverse lies in the result.", "quantifier": "all sizes, all matrices of bounds, all float precisions", "why_tests_cant": "There are uncountably many real matrices in an interval matrix, and every pivot choice and rounding matters.", "anchors": ["source/algebra/matrix.tpl.hpp: lu_inverse", "source/algebra/matrix.cpp: inverse<FloatDPBounds>"]}
{"id": "C79", "title": "Linear systems with interval data", "statement": "If lu_solve(A,b) or gs_solve(A,b) returns, every real system with data in A and b has exactly one solution, and it lies in the result.", "quantifier": "all sizes, all data, all preconditioners, all float precisions", "why_tests_cant": "The solution set of an interval system is uncountable and not a box.", "anchors": ["source/algebra/matrix.tpl.hpp: lu_solve, gs_solve, gs_step"]}
{"id": "C80", "title": "A step of the interval Newton and Krawczyk methods", "statement": "The step of a box contains every zero of the function in the box; if it refines the box, a zero exists in it; if it is inconsistent with the box, there is none; if the Jacobian over the box is inverted, there is at most one.", "quantifier": "all smooth functions of all dimensions, all boxes, the three methods", "why_tests_cant": "Existence and uniqueness of zeros are statements about all real points of a box (Brouwer's theorem).", "anchors": ["source/solvers/solver.cpp: IntervalNewtonSolver::step, KrawczykSolver::step, FactoredKrawczykSolver::step"]}
{"id": "C81", "title": "Finding a zero in a box", "statement": "zero(f,bx) returns bounds around a zero of f in bx, containing all zeros of bx and no wider than the maximum error, or throws NoSolutionException only if f has no zero in bx.", "quantifier": "all smooth functions, boxes, step limits and errors", "why_tests_cant": "The answer must be right for all functions, and depends on every rounding along the iteration.", "anchors": ["source/solvers/solver.cpp: SolverBase::zero"]}
{"id": "C82", "title": "Finding all zeros, or the only one", "statement": "Every result of solve_all(f,bx) contains a zero; without a warning, every zero of bx lies in bounds connected to a result by overlapping bounds. solve(f,bx) returns bounds of the only zero of bx, and otherwise throws a SolverException, NoSolutionException only if there is none.", "quantifier": "all smooth functions, boxes, errors and bisection depths", "why_tests_cant": "Completeness is about zeros the search did not find.", "anchors": ["source/solvers/solver.cpp: SolverBase::solve_all, SolverBase::solve", "source/solvers/solver_interface.hpp: ContainerComparison"]}
{"id": "C83", "title": "Fixed points", "statement": "fixed_point(f,bx) returns bounds containing a fixed point of f, or throws NoSolutionException only if there is none in bx.", "quantifier": "all smooth functions and boxes", "why_tests_cant": "As for zeros.", "anchors": ["source/solvers/solver.cpp: SolverBase::fixed_point"]}
{"id": "C84", "title": "Discrete locations as partial valuations", "statement": "Two locations compare equal exactly when they are the same, unequal exactly when some variable has different values in both; < is a strict total order; the queries for distinguishability and restriction say what their names say; the join has the variables of both; restricting keeps the variables named.", "quantifier": "all pairs of locations and all sets of variables", "why_tests_cant": "Locations are keys of maps: an order which is not total on some pair corrupts every map, and there are infinitely many pairs.", "anchors": ["source/hybrid/discrete_location.cpp: operator==, operator<, are_distinguishable, is_restriction, are_same, join, restrict", "utility/container.hpp: restrict"]}
{"id": "C85", "title": "Building a hybrid automaton", "statement": "After any sequence of new_mode, new_invariant, new_guard, new_action, new_update, new_transition, at most one mode matches any location, and each mode has exactly what the calls said; a call which throws changes nothing.", "quantifier": "all finite histories of calls, whether they succeed or throw", "why_tests_cant": "Histories are unbounded and failing calls can occur at any point.", "anchors": ["source/hybrid/hybrid_automaton.cpp: _new_mode, _new_invariant, _new_guard, _new_action, _new_update, _new_transition, mode"]}
{"id": "C86", "title": "Sorting algebraic equations", "statement": "algebraic_sort returns the same equations in an order in which each uses only variables defined before it, and performing them in this order gives the only solution; it throws AlgebraicLoopError exactly when the equations are circular.", "quantifier": "all finite lists of equations", "why_tests_cant": "Dependency graphs are unbounded.", "anchors": ["source/hybrid/hybrid_automaton.cpp: algebraic_sort"]}
{"id": "C87", "title": "Dynamic and auxiliary functions of a hybrid automaton", "statement": "The dynamic function of a location gives, at the place of each state variable, the right-hand side of its differential equation where the auxiliary variables have the values which solve their equations; the auxiliary function gives those values; both exist for a location which passes check_mode. The same for compositions.", "quantifier": "all automata which can be built, all locations and all values of the state variables", "why_tests_cant": "All automata, equations and real values.", "anchors": ["source/hybrid/hybrid_automaton.cpp: dynamic_function, auxiliary_function, make_dynamic_function, make_auxiliary_function", "source/hybrid/hybrid_automaton-composite.cpp: dynamic_function, auxiliary_function"]}
{"id": "C88", "title": "Reset functions of a hybrid automaton", "statement": "The reset function of an event gives, at the place of each state variable of the target location, the value which the reset assigns to it; in a composition, components without the event keep their values.", "quantifier": "all automata which can be built, all events, locations and values", "why_tests_cant": "All automata, resets and values, in every order of declaration.", "anchors": ["source/hybrid/hybrid_automaton.cpp: reset_function, make_reset_function", "source/hybrid/hybrid_automaton-composite.cpp: reset_function, reset_assignments"]}
{"id": "C89", "title": "Guards and invariants of a composition", "statement": "The guard (invariant) of an event in a composition holds exactly when that of every component does; the guard function is positive only where the guard holds and negative only where it does not; the invariant function has the opposite signs.", "quantifier": "all compositions, events, locations and values", "why_tests_cant": "All predicates over the reals.", "anchors": ["source/hybrid/hybrid_automaton-composite.cpp: guard_predicate, invariant_predicate, guard_function, invariant_function", "source/hybrid/hybrid_automaton.cpp: make_constraint_function", "source/symbolic/expression.cpp: indicator"]}
{"id": "C90", "title": "Kinds of events in a composition", "statement": "An event which some component declares urgent is urgent in every composition which passes check_mode.", "quantifier": "all compositions, events and locations", "why_tests_cant": "All compositions.", "anchors": ["source/hybrid/hybrid_automaton-composite.cpp: CompositeHybridAutomaton::event_kind, _cache_mode"]}
{"id": "C91", "title": "Discrete reachability", "statement": "discrete_reachability ends and returns exactly the locations to which sequences of events lead from the initial locations; it throws only if one of them has no mode.", "quantifier": "all automata and compositions, all finite sets of initial locations", "why_tests_cant": "Reachable sets are fixed points over unbounded graphs; termination must hold for all.", "anchors": ["source/hybrid/hybrid_automaton.cpp: discrete_reachability", "source/hybrid/hybrid_automaton-composite.cpp: discrete_reachability"]}
{"id": "C92", "title": "Composition of hybrid automata", "statement": "After an event of a composition each component is in the target of its transition, or unmoved if it has none; a location is one of the composition exactly when it is made of locations of all components; events are those of the components; results do not depend on which modes were asked for before, and so are in the cache.", "quantifier": "all compositions with different discrete variables, all locations, all histories of queries", "why_tests_cant": "All compositions and all query histories through the cache.", "anchors": ["source/hybrid/hybrid_automaton-composite.cpp: target, has_mode, events, _cache_mode"]}
{"id": "C93", "title": "Checks of hybrid automata", "statement": "check_mode passes exactly when equations, constraints and resets use only variables of the mode and every reset sets exactly the state variables of its target; for a composition it also excludes circular auxiliary equations and two urgent guards for one event.", "quantifier": "all automata, compositions and locations", "why_tests_cant": "A checker is right when no bad automaton passes: all automata must be considered.", "anchors": ["source/hybrid/hybrid_automaton.cpp: check_mode", "source/hybrid/hybrid_automaton-composite.cpp: check_mode"]}
{"id": "C94", "title": "Guard crossings of a hybrid step", "statement": "When the hybrid evolver says that a guard is crossed transversely, increases, decreases, is convex or concave, or is grazed during a step, this holds for the trajectory of every state of the set, crossing times being the only ones; and a guard it leaves out is negative during the whole step.", "quantifier": "all systems with differentiable guards, all sets of states, all step sizes and all sound range and implicit-function computations", "why_tests_cant": "The claim is about uncountably many trajectories, and must hold whatever over-approximations the numerical layer returns.", "anchors": ["source/hybrid/hybrid_evolver.cpp: _compute_active_events, _compute_crossings"]}
{"id": "C95", "title": "Upper hybrid orbits contain every run", "statement": "An orbit computed with upper semantics contains every state passed, with its location, events and time, by a run of the hybrid system from the initial set up to the maximum time and number of steps.", "quantifier": "all hybrid systems, initial sets, runs with any number of jumps, termination criteria, and all orders in which the threads process the sets", "why_tests_cant": "Runs and schedules are unboundedly many; a missed run shows nowhere in the output.", "anchors": ["source/hybrid/hybrid_evolver.cpp: orbit, _process_working_set, _process_starting_events, _evolution_step, _apply_evolution_step, _apply_guard, _apply_guard_step"]}
{"id": "C96", "title": "Sets of hybrid orbits are within the limits", "statement": "No set of an orbit has more events than the maximum number of steps, goes on after a terminating event, or has a time beyond the maximum time; a final set is at the maximum time exactly, or has a history which ends the evolution and satisfies the invariants.", "quantifier": "all hybrid systems, semantics, initial sets, termination criteria and schedules", "why_tests_cant": "Must hold at every depth of the evolution tree and for every interleaving.", "anchors": ["source/hybrid/hybrid_evolver.cpp: orbit, _process_starting_events, _apply_evolution_step"]}
{"id": "C97", "title": "Jumps only where guards hold", "statement": "Each state of a set which the hybrid evolver obtains by a jump is the reset of a state reached from the set it came from, at which the guard of the transition is nonnegative, and increasing for impacts, at a time not after the maximum time.", "quantifier": "all hybrid systems, sets, step sizes and semantics", "why_tests_cant": "All states of a set must be considered; spurious ones hide in an over-approximation.", "anchors": ["source/hybrid/hybrid_evolver.cpp: _apply_guard_step, _apply_evolution_step"]}
{"id": "C98", "title": "Lower hybrid orbits contain only runs", "statement": "Every state of an orbit computed with lower semantics, with its location, events and time, is passed by some run of the hybrid system from the initial set.", "quantifier": "all hybrid systems, initial sets, termination criteria and schedules", "why_tests_cant": "A lower orbit proves that something can happen; one wrong state anywhere in it makes such a proof false.", "anchors": ["source/hybrid/hybrid_evolver.cpp: orbit, _process_starting_events, _apply_evolution_step, _apply_guard"]}
{"id": "C99", "title": "Evolution time of a hybrid step", "statement": "The time for which a step evolves each state is between zero and the step size; a step said to finish at the final time does so for all states, one said to finish before it does not pass it, a constant step has the step size, and an event which is dropped because of a short step is not reached.", "quantifier": "all sets of states with any spread of starting times, all crossings, configurations and final times", "why_tests_cant": "Depends on ranges of times and guards over whole sets.", "anchors": ["source/hybrid/hybrid_evolver.cpp: _estimate_timing"]}
{"id": "C100", "title": "Hybrid steps have defined behaviour", "statement": "A step of the hybrid evolver from a nonempty set whose flow can be computed is performed without using invalid iterators or failing an internal check.", "quantifier": "all hybrid systems, sets, crossings and configurations", "why_tests_cant": "Invalid iterators need particular combinations of events, and often go unnoticed when they happen.", "anchors": ["source/hybrid/hybrid_evolver.cpp: _compute_crossings, _apply_guard, _apply_evolution_step", "source/utility/container.hpp: List"]}
{"id": "C101", "title": "Shaving a variable keeps the solutions", "statement": "ConstraintSolver::box_reduce(domain, f, c, j) keeps every point of the domain at which f takes a value in c, and returns true only if there is no such point; only coordinate j of the box changes.", "quantifier": "all functions with enclosing evaluation on boxes, all constraint intervals, boxes and coordinates", "why_tests_cant": "The cut points are rounded; whether a slice which is dropped can contain a solution depends on every bit of the ends of the box and of the evaluation.", "anchors": ["source/solvers/constraint_solver.cpp: box_reduce"]}
{"id": "C102", "title": "Monotone reduction ends and keeps the solutions", "statement": "ConstraintSolver::monotone_reduce ends, keeps every point of the domain at which the constraint holds, and returns true only if there is none.", "quantifier": "all differentiable functions with enclosing evaluations of the function and its derivative, all intervals and boxes", "why_tests_cant": "Soundness rests on the mean value theorem for every point of the box, and termination on all sequences of Newton steps.", "anchors": ["source/solvers/constraint_solver.cpp: monotone_reduce"]}
{"id": "C103", "title": "Lyapunov reduction keeps the solutions", "statement": "ConstraintSolver::lyapunov_reduce keeps every point of the domain at which all components lie in their bounds, and returns true only if there is none, for all multipliers and centres.", "quantifier": "all differentiable functions, multipliers, centres, bounds and boxes", "why_tests_cant": "The linear bound has to hold at every point of the box, whatever the multipliers and the centre are.", "anchors": ["source/solvers/constraint_solver.cpp: lyapunov_reduce"]}
{"id": "C104", "title": "Reduction of the domain of a constraint problem", "statement": "ConstraintSolver::reduce ends, keeps every point of the domain at which all constraints hold, and returns true exactly when the reduced box is empty.", "quantifier": "all constraint systems, evaluations, contractors and boxes", "why_tests_cant": "The loop repeats while the box shrinks; that it always ends and never drops a solution concerns all sequences of reductions.", "anchors": ["source/solvers/constraint_solver.cpp: reduce"]}
{"id": "C105", "title": "Checking a point for feasibility", "statement": "ConstraintSolver::check_feasibility returns true only if the point is in the domain and its image in the codomain, false only if not, and true whenever the computed image is in the interior.", "quantifier": "all functions with enclosing evaluation, domains, codomains and points", "why_tests_cant": "The comparisons are made on rounded bounds which may be not-a-number.", "anchors": ["source/solvers/constraint_solver.cpp: check_feasibility"]}
{"id": "C106", "title": "The feasibility test is right and returns a feasible point", "statement": "ConstraintSolver::feasible returns false only if no point of the domain has its image in the codomain, and true only if some point has; the point returned with true is such a point.", "quantifier": "all functions, domains, codomains and results of the optimiser", "why_tests_cant": "The answer combines a heuristic optimiser, interval proofs and a recursion of any depth over subboxes.", "anchors": ["source/solvers/constraint_solver.cpp: feasible", "source/solvers/constraint_solver.hpp: feasible"]}
{"id": "C107", "title": "The box returned by a bounder contains the flow over the whole step", "statement": "If EulerBounder::compute(f,D,t,A,hsug) returns a step h and a box B, then 0<=h<=hsug and every solution of x'=f(x,t,a) which starts in D at time t, with parameters varying arbitrarily in A, stays in B for all times from t to t+h.", "quantifier": "all vector fields with an enclosing evaluation, all boxes, times, parameter signals, Lipschitz steps and suggested steps", "why_tests_cant": "The claim is about all solutions of a differential equation at all times, and the box is found by a search with rounded arithmetic.", "anchors": ["source/solvers/bounder.cpp: EulerBounder::compute, EulerBounder::_compute, formula, refinement, expansion", "source/solvers/bounder.hpp: BounderInterface::compute"]}
{"id": "C108", "title": "The search for a bounding box ends and respects the minimum step", "statement": "EulerBounder::compute returns or throws after finitely many attempts, and never returns a step below its minimum step size.", "quantifier": "all vector fields, boxes, positive minima and suggested steps", "why_tests_cant": "The number of attempts depends on the field; a step below the minimum needs a Lipschitz constant which is not met in tests.", "anchors": ["source/solvers/bounder.cpp: EulerBounder::_compute, BounderBase::minimum_step_size"]}
{"id": "C109", "title": "The bounding box is refined as far as the evaluation allows", "statement": "The box returned by EulerBounder::compute is the result of the refinement B := D + [0,h]*f(B), so that where the field vanishes it is the initial box up to rounding.", "quantifier": "all vector fields and boxes", "why_tests_cant": "A test which only checks inclusion cannot see that the refinement leaves out its purpose.", "anchors": ["source/solvers/bounder.cpp: EulerBounder::refinement, EulerBounder::formula"]}
{"id": "C110", "title": "A flow step encloses every solution", "statement": "When TaylorPicardIntegrator or GradedTaylorPicardIntegrator returns a flow step for a domain, step size and bounding box, the function model encloses every solution of the differential equation which starts in the domain, at every time of the step, also for solutions which exist for a part of the step only.", "quantifier": "all vector fields, domains, parameters, bounding boxes, accuracies and orders; all function models whose operations enclose the operations on functions", "why_tests_cant": "A test compares with one known solution; the claim is about the unknown solutions of every equation.", "anchors": ["source/solvers/integrator.cpp: TaylorPicardIntegrator::_flow_step, GradedTaylorPicardIntegrator::flow_step, BoundedIntegratorBase::flow_step"]}
{"id": "C111", "title": "The search for a step size ends, and a fixed step reports what it covers", "statement": "flow_step with a suggested step size returns or throws; when small steps succeed it returns. A flow step for a fixed step size returns either a model for the whole of it, or an explicit IncompleteFlow for a shorter time.", "quantifier": "all step functions, step sizes and bounders", "why_tests_cant": "A test with a field for which the first step succeeds never enters the loop.", "anchors": ["source/solvers/integrator.cpp: IntegratorBase::flow_step, BoundedIntegratorBase::flow_step, UnboundedIntegratorBase (fixed step)"]}
{"id": "C112", "title": "The affine integrator encloses the flow", "statement": "The affine model returned by AffineIntegrator::flow_step encloses every solution from the domain at every time of the step, when the bounding box encloses the solutions.", "quantifier": "all vector fields, domains, boxes and step sizes", "why_tests_cant": "The missing error terms are small for the short steps used in tests.", "anchors": ["source/solvers/integrator.cpp: AffineIntegrator::flow_derivative, AffineIntegrator::_flow_step"]}
{"id": "C113", "title": "The series integrator which finds its own bound is sound", "statement": "The step and model returned by TaylorSeriesBounderIntegrator::flow_step enclose every solution from the domain for the whole step: the bound from which the remainder is computed contains the solutions.", "quantifier": "all vector fields, domains and suggested steps; all series steps which enclose the solutions in a bound", "why_tests_cant": "For the steps used in tests the first guess of the bound happens to be right.", "anchors": ["source/solvers/integrator.cpp: TaylorSeriesBounderIntegrator::flow_step"]}
{"id": "C114", "title": "Evolving an enclosure loses no point and adds none", "statement": "After any sequence of maps, flow steps, reach steps, constraints, reductions and emptiness tests on the set of a box, the enclosure contains every point which a state of the box can reach by the same sequence, with the elapsed time and the time since the last jump; when the function operations are exact, it contains no other points.", "quantifier": "all boxes, all finite sequences of operations, all functions and all sound function models", "why_tests_cant": "A lost point is visible only for particular parameters after particular sequences of operations.", "anchors": ["source/dynamics/enclosure.cpp: Enclosure::apply_map, apply_fixed_evolve_step, apply_parameter_reach_step, apply_full_reach_step", "source/dynamics/enclosure.hpp: dwell_time_function"]}
{"id": "C115", "title": "A constraint keeps exactly the points which satisfy it", "statement": "Adding a state, state-time, parameter, sign or time-bound constraint to an enclosure removes the points which violate it and no others; new_state_time_bound(gamma) imposes time <= gamma(state).", "quantifier": "all enclosures, constraint functions and bounds", "why_tests_cant": "Tests look at sets for which a constraint is active or not as a whole.", "anchors": ["source/dynamics/enclosure.cpp: Enclosure::new_state_constraint, new_state_time_bound, new_negative_parameter_constraint"]}
{"id": "C116", "title": "The tests of an enclosure are right", "statement": "If an enclosure is reported empty, inside a box, separate from a box or to violate a constraint then this holds for all its points; tests which reduce the domain do not change the set.", "quantifier": "all enclosures, boxes and constraints, all contractors which do not lose solutions", "why_tests_cant": "A wrong definite answer depends on the reduced domain left by earlier operations.", "anchors": ["source/dynamics/enclosure.cpp: Enclosure::is_empty, inside, subset, separated, satisfies, reduce"]}
{"id": "C117", "title": "Splitting, restriction and products of enclosures", "statement": "Every point of an enclosure is in one of the two halves of a split; restriction keeps the points with parameters in the smaller domain; a product contains exactly the pairs of points.", "quantifier": "all enclosures, split directions, subdomains and factors", "why_tests_cant": "A gap between the halves has no volume and constraints may be lost in one half only.", "anchors": ["source/dynamics/enclosure.cpp: Enclosure::split, restrict, product"]}
{"id": "C118", "title": "Reconditioning loses no point", "statement": "Turning uniform errors into parameters, with or without discarding parameters, loses no point of the set, gives the intended number of parameters and keeps Taylor models in the order their arithmetic relies on.", "quantifier": "all enclosures, error thresholds, numbers of kept parameters and Taylor models", "why_tests_cant": "Which parameters are discarded depends on the coefficients; a wrong index loses points only for some of them.", "anchors": ["source/dynamics/enclosure.cpp: Enclosure::uniform_error_recondition, kuhn_recondition, recondition"]}
{"id": "C119", "title": "Sets made from boxes of real numbers cover them", "statement": "The set made from a box with real or uncertain end points and constraints contains every point of the box which satisfies the constraints.", "quantifier": "all boxes with real ends and all bounds for the ends", "why_tests_cant": "The end points used in tests are floating-point numbers or have rounding errors on the harmless side.", "anchors": ["source/dynamics/enclosure.cpp: make_domain, Enclosure::Enclosure(RealBox), Enclosure(BoundedConstraintSet)", "source/geometry/affine_set.cpp: make_domain"]}
{"id": "C120", "title": "Arithmetic on differentials is arithmetic on Taylor expansions", "statement": "If differentials x and y of degree k stand for functions f and g at a point (each coefficient contains the corresponding coefficient of a polynomial that agrees with the function up to an error of order k+1), then x+y, x-y, x*y, -x, x+c, x*c and pow(x,m) stand for the same operations on f and g, for any coefficient type whose operations enclose the real ones; constants, variables and affine functions are represented correctly and every differential keeps its terms sorted, distinct and of degree at most k.", "quantifier": "all numbers of variables, degrees, points, functions with an expansion, coefficient types with enclosing operations, and exponents", "why_tests_cant": "Tests evaluate a few expansions of low degree with exactly representable coefficients; the claim is about every degree, number of variables and every number type.", "anchors": ["source/algebra/differential.tpl.hpp: Differential operators, _pow", "source/algebra/differential.hpp: constant, variable, variables, affine"]}
{"id": "C121", "title": "Elementary functions of differentials are Taylor expansions", "statement": "rec, sqr, sqrt, exp, log, sin, cos, tan, atan and abs of a differential that stands for f stand for the function applied to f, to the full degree, whenever the value is inside the domain; the same holds for formulas built from arithmetic, division, integer powers and these functions; the computation does not fail.", "quantifier": "all formulas, points inside the domain, degrees, numbers of variables and coefficient types with enclosing operations", "why_tests_cant": "The coefficients of the series are given by recurrences with one case per degree; tests compare a few degrees at a few points.", "anchors": ["source/algebra/series.hpp: Series", "source/algebra/differential.tpl.hpp: _compose, _rec, _sqrt, _exp, _log, _sin, _cos, _tan, _atan, _abs"]}
{"id": "C122", "title": "Composition of differentials is the chain rule and leaves its arguments unchanged", "statement": "If x stands for F about the values of the functions g, and y for the functions g, then compose(x,y) stands for F composed with g to the smaller degree, and y has its old contents afterwards.", "quantifier": "all functions, numbers of variables, degrees, and all argument objects including the same object passed twice", "why_tests_cant": "The arguments are modified during the evaluation and restored; which objects are shared and which step fails depends on the caller.", "anchors": ["source/algebra/differential.tpl.hpp: Differential::_compose, Vector<Differential>::_compose"]}
{"id": "C123", "title": "Derivatives and antiderivatives of differentials", "statement": "The derivative of a differential of degree k that stands for f is a differential of degree k-1 that stands for the partial derivative of f; the antiderivative is a differential of degree k+1 that stands for the function which vanishes where the variable is at the point and whose partial derivative is f.", "quantifier": "all functions with an expansion, variables, degrees and coefficient types", "why_tests_cant": "Truncation orders and coefficients must be right for every multi-index.", "anchors": ["source/algebra/differential.tpl.hpp: _derivative, _antiderivative"]}
{"id": "C124", "title": "Values, gradients and Jacobians contain the true derivatives", "statement": "The value, gradient and Jacobian read from differentials contain the values and the first partial derivatives of the functions; a vector of differentials made from a vector and a matrix has that vector as its value and that matrix as its Jacobian.", "quantifier": "all functions, points, sizes and matrices", "why_tests_cant": "Rows and columns can only be confused for matrices which are not symmetric or square, and tests use few of them.", "anchors": ["source/algebra/differential.tpl.hpp: _gradient, _jacobian", "source/algebra/differential.hpp: Differential::affine, Vector<Differential>::affine"]}
{"id": "C125", "title": "Differentials of flows are the Taylor expansion of the solution", "statement": "flow(df,x0), flow(df,x0,t0), flow(df,x0,a) and flow(df,x0,t0,a) return, for a vector field of degree k, differentials of degree k+1 in the state, the time and the parameters that stand for the solution of the differential equation starting at x0+h.", "quantifier": "all vector fields with an expansion, dimensions, degrees, initial points, times and parameters", "why_tests_cant": "The claim concerns the solutions of differential equations; it needs an induction on the order of the expansion.", "anchors": ["source/algebra/differential.tpl.hpp: flow"]}
{"id": "C126", "title": "Lie derivatives of differentials", "statement": "The Lie derivative of a differential standing for f along a vector of differentials standing for g stands for the sum of the partial derivatives of f multiplied by the components of g, to degree k-1.", "quantifier": "all functions, vector fields, dimensions and degrees", "why_tests_cant": "The result accumulates products over all terms and all variables.", "anchors": ["source/algebra/differential.tpl.hpp: lie_derivative"]}
{"id": "C127", "title": "Univariate differentials are Taylor expansions in one variable", "statement": "Arithmetic, elementary functions, composition, derivative and antiderivative of univariate differentials stand for the same operations on the functions.", "quantifier": "all functions of one variable with an expansion, all degrees, coefficient types, and argument objects", "why_tests_cant": "Sizes of the arrays depend on the degree; tests use one or two degrees.", "anchors": ["source/algebra/univariate_differential.hpp", "source/algebra/univariate_differential.tpl.hpp"]}
{"id": "C128", "title": "Every computation of a real number gives bounds for it", "statement": "For a real number built from constants, arithmetic and elementary functions, powers, limits of fast Cauchy sequences, convergent sequences of bounds and 'when' expressions, compute and get, with any effort and at double or any multiple precision, succeed and give bounds that contain the number.", "quantifier": "all expressions of any depth, all sequences, all efforts and precisions", "why_tests_cant": "Expressions, sequences and efforts are unbounded; tests evaluate a few expressions with a few efforts.", "anchors": ["source/numeric/real.cpp:Real::compute_get,Real::get,RealExpressionBase,RealLimit,WhenRealExpression", "source/numeric/real.hpp"]}
{"id": "C129", "title": "The bounds of a real number converge as the effort grows", "statement": "For every real number and every tolerance there is an effort from which on the computed bounds are within the tolerance of the number.", "quantifier": "all real expressions, all tolerances", "why_tests_cant": "Convergence is a statement about all efforts; a number whose bounds stay wide for ever looks like one that needs a little more effort.", "anchors": ["source/numeric/real.cpp:RealExpressionBase::_compute_get,RealLimit<Real>::_compute_get", "source/numeric/twoexp.hpp:Two"]}
{"id": "C130", "title": "Computing a real number to a given accuracy", "statement": "compute(Accuracy) ends and gives bounds that contain the number and whose error is less than the accuracy.", "quantifier": "all real expressions and accuracies", "why_tests_cant": "Termination for every number and accuracy; a test that runs cannot show the numbers for which it would not.", "anchors": ["source/numeric/real.cpp:RealBase::_compute(Accuracy)", "source/numeric/accuracy.hpp"]}
{"id": "C131", "title": "Comparisons of real numbers are never wrong and are decided in the end", "statement": "With any effort, a comparison or sign of real numbers that is reported true holds and one that is reported false does not; numbers that differ are told apart by all large efforts; nondeterministic_greater(r,a,b) with a<b answers, true only if r>a and false only if r<b.", "quantifier": "all pairs of real numbers, all efforts, all rational bounds", "why_tests_cant": "Efforts and numbers are unbounded, and the answer near equality depends on both.", "anchors": ["source/numeric/real.cpp:operator<,operator==,sgn,check_sgn,nondeterministic_greater", "source/numeric/dyadic.hpp:Bounds<Dyadic>"]}
{"id": "C132", "title": "Conditional real expressions", "statement": "when(c1=>r1,c2=>r2) has the value of the term of a condition that holds: the bounds contain it at every effort, even while the other condition has not yet been found false, and they are those of the right term once it has.", "quantifier": "all conditions, terms, efforts and precisions", "why_tests_cant": "Depends on when the conditions are falsified relative to the effort; tests use conditions that are decided at once.", "anchors": ["source/numeric/real.cpp:when,WhenRealExpression::_compute_get"]}
{"id": "C133", "title": "Rounding and sameness of real numbers", "statement": "round(r) ends and gives the nearest or next-to-nearest integer; same(r1,r2) is true for the same number, and only for equal numbers.", "quantifier": "all real numbers", "why_tests_cant": "Ties and numbers close to them need unbounded precision.", "anchors": ["source/numeric/real.cpp:round,same", "source/numeric/dyadic.cpp:round"]}
{"id": "C134", "title": "A point accepted as feasible is feasible", "statement": "If is_feasible_point(D,g,C,x) is true then x is in D and g(x) is in C, exactly.", "quantifier": "all domains, constraint functions, constraint boxes and points, in any dimension and precision", "why_tests_cant": "A point next to the boundary of the constraints may be accepted because of rounding; tests use a few points.", "anchors": ["source/solvers/nonlinear_programming.cpp:OptimiserBase::is_feasible_point"]}
{"id": "C135", "title": "Feasible points in a box", "statement": "contains_feasible_point(D,g,C,X) answers true only if X has a point x in D with g(x) in C, false only if it has none, and otherwise indeterminate, without an exception.", "quantifier": "all domains, differentiable constraint functions, constraint boxes and test boxes, in any dimension", "why_tests_cant": "The answer true is an existence proof for a real solution of the equality constraints together with a test of all inequality constraints; it has to be right for every function.", "anchors": ["source/solvers/nonlinear_programming.cpp:OptimiserBase::contains_feasible_point"]}
{"id": "C136", "title": "Validation of feasibility", "statement": "If validate_feasibility(D,g,C,x) is true then there is a point of D with g in C.", "quantifier": "all domains, differentiable constraint functions, constraint boxes and starting points", "why_tests_cant": "The claim is the existence of a real point near x, found by an interval Newton iteration; a test can only evaluate examples.", "anchors": ["source/solvers/nonlinear_programming.cpp:OptimiserBase::validate_feasibility"]}
{"id": "C137", "title": "Certificates of infeasibility", "statement": "If is_infeasibility_certificate(D,g,C,y) is true, or validate_infeasibility(D,g,C,x,y) is true, then no point of D has g in C.", "quantifier": "all domains, functions, constraint boxes, points and multipliers", "why_tests_cant": "The claim is about all the points of D.", "anchors": ["source/solvers/nonlinear_programming.cpp:OptimiserBase::is_infeasibility_certificate,validate_infeasibility", "python/optimization_submodule.cpp"]}
{"id": "C138", "title": "Answers of the interior-point optimiser", "statement": "feasible(D,g,C) answers true only if the problem has a feasible point and false only if it has none; minimise(f,D,g,C) reports infeasibility only if there is no feasible point, and the bounds it returns contain a feasible point.", "quantifier": "all problems, and all iterates the interior-point steps may produce", "why_tests_cant": "The steps compute with approximations and may produce any iterate; the answers have to be right for all of them.", "anchors": ["source/solvers/nonlinear_programming.cpp:NonlinearInfeasibleInteriorPointOptimiser::minimise,feasible"]}
{"id": "C139", "title": "Almost feasible points", "statement": "almost_feasible_point(D,g,C,x,error) accepts the points of D at which g is within the given error of C.", "quantifier": "all problems, points and errors", "why_tests_cant": "Whether the error is taken into account shows only at points which violate a constraint by less than the error.", "anchors": ["source/solvers/nonlinear_programming.cpp:OptimiserBase::almost_feasible_point,cast_exact_widen"]}
{"id": "C140", "title": "Intersections of constraint sets contain exactly the common points", "statement": "The intersection of two sets given by constraints, or of such a set with a box, contains exactly the points which are in both.", "quantifier": "all constraint sets, bounded constraint sets and boxes, of all dimensions, with any constraint functions and real bounds", "why_tests_cant": "Sets are infinite and the functions arbitrary; a test compares a few points of a few sets.", "anchors": ["source/geometry/function_set.cpp: intersection(const ConstraintSet&, const ConstraintSet&), intersection(const BoundedConstraintSet&, const BoundedConstraintSet&), intersection(const BoundedConstraintSet&, const RealBox&), intersection(const BoundedConstraintSet&, const ConstraintSet&)"]}
{"id": "C141", "title": "A set reported as separated from a box has no point in it", "statement": "If separated returns true for a constraint set, a bounded constraint set or an image set and a box, then no point of the set is in the box.", "quantifier": "all sets, obtained by any sequence of operations, all boxes, any functions", "why_tests_cant": "The claim is about all points of an infinite set.", "anchors": ["source/geometry/function_set.cpp: ConstraintSet::separated, BoundedConstraintSet::separated, ConstrainedImageSet::separated, ValidatedConstrainedImageSet::separated"]}
{"id": "C142", "title": "Bounding boxes contain the set, and a set reported inside a box is in its interior", "statement": "bounding_box contains every point of the set; if inside returns true then every point of the set is in the interior of the box.", "quantifier": "all bounded constraint sets and image sets, obtained by any sequence of operations, all boxes", "why_tests_cant": "The claim is about all points of an infinite set, with rounding.", "anchors": ["source/geometry/function_set.cpp: BoundedConstraintSet::inside, BoundedConstraintSet::bounding_box, ConstrainedImageSet::inside, ValidatedConstrainedImageSet::inside, ValidatedConstrainedImageSet::bounding_box"]}
{"id": "C143", "title": "A set reported to cover a box contains it", "statement": "If covers returns true then every point of the box is in the set.", "quantifier": "all constraint sets and bounded constraint sets, all boxes, any functions and real bounds", "why_tests_cant": "The claim is about all points of a box.", "anchors": ["source/geometry/function_set.cpp: ConstraintSet::covers, BoundedConstraintSet::covers"]}
{"id": "C144", "title": "A set reported to overlap a box meets its interior", "statement": "If overlaps returns true then a point of the set is in the interior of the box.", "quantifier": "all constraint sets, bounded constraint sets and image sets, all boxes, any functions and real bounds", "why_tests_cant": "Depends on the rounding of bounds which are not floats and on boundary cases.", "anchors": ["source/geometry/function_set.cpp: ConstraintSet::overlaps, BoundedConstraintSet::overlaps, ConstrainedImageSet::overlaps, ValidatedConstrainedImageSet::overlaps"]}
{"id": "C145", "title": "Answers about a constraint on an image set are right", "statement": "satisfies returns true only if the constraint holds at all points of the set, and false only if it fails at one of them.", "quantifier": "all image sets, obtained by any sequence of operations, and all constraints, with one or two bounds", "why_tests_cant": "The claim is about all points of an infinite set and all kinds of bounds.", "anchors": ["source/geometry/function_set.cpp: ConstrainedImageSet::satisfies, ValidatedConstrainedImageSet::satisfies", "source/numeric/logical.hpp: default constructor of Kleenean types"]}
{"id": "C146", "title": "More effort verifies what is true by a margin", "statement": "If a set and a box have positive distance then separated returns true for a large enough effort.", "quantifier": "all sets and boxes, all efforts", "why_tests_cant": "The claim ranges over all efforts.", "anchors": ["source/geometry/function_set.cpp: BoundedConstraintSet::separated"]}
{"id": "C147", "title": "Operations on image sets are exact", "statement": "Applying a function gives the image, adding a constraint gives the points which satisfy it, reducing the domain does not change the set, the two parts of a split make up the set, and a restriction contains the images of the restricted domain.", "quantifier": "all image sets, functions, constraints, coordinates", "why_tests_cant": "The claim is about all points of infinite sets.", "anchors": ["source/geometry/function_set.hpp: ConstrainedImageSet::apply, new_parameter_constraint, new_space_constraint", "source/geometry/function_set.cpp: ValidatedConstrainedImageSet::split, restriction, reduce, ConstrainedImageSet::split, image"]}
{"id": "C148", "title": "Emptiness of image sets", "statement": "is_empty returns true only for an empty set and false only for a set with a point.", "quantifier": "all image sets obtained by any sequence of operations", "why_tests_cant": "The claim is about all points of an infinite set.", "anchors": ["source/geometry/function_set.cpp: ValidatedConstrainedImageSet::is_empty"]}
{"id": "C149", "title": "Conversion of a bounded constraint set to an image set keeps the set", "statement": "The ConstrainedImageSet made from a BoundedConstraintSet has the same points.", "quantifier": "all bounded constraint sets", "why_tests_cant": "Depends on the rounding of real bounds.", "anchors": ["source/geometry/function_set.cpp: ConstrainedImageSet::ConstrainedImageSet(const BoundedConstraintSet&)"]}
{"id": "C150", "title": "Pavers compute outer approximations", "statement": "When a paver has adjoined the outer approximation of a ValidatedConstrainedImageSet to a paving, every point of the set is in the paving.", "quantifier": "all pavers, pavings, sets with bounded domain, functions, constraints, accuracies and recursion depths", "why_tests_cant": "A lost point appears only for particular sets, cells and splittings.", "anchors": ["source/geometry/paver.cpp: SubdivisionPaver, AffinePaver, ReducePaver, ConstraintPaver, OptimalConstraintPaver ::adjoin_outer_approximation"]}
{"id": "C151", "title": "Pavers never remove points from a paving", "statement": "Every point of a paving is still in it after an outer approximation has been adjoined by any paver.", "quantifier": "all pavers, pavings, sets and accuracies", "why_tests_cant": "Must hold for all histories of adjoining sets.", "anchors": ["source/geometry/paver.cpp: adjoin_outer_approximation"]}
{"id": "C152", "title": "Pavers terminate", "statement": "Adjoining an outer approximation ends for every bounded set and accuracy.", "quantifier": "all pavers, bounded sets and accuracies", "why_tests_cant": "Nontermination cannot be observed, and depends on the errors of the functions.", "anchors": ["source/geometry/paver.cpp: adjoin_outer_approximation_recursion, procedure_constraint_adjoin_outer_approximation_recursion, hotstarted_constraint_adjoin_outer_approximation_recursion"]}
{"id": "C153", "title": "Pavers add only cells of the accuracy asked for", "statement": "The points which a paver adds are in cells of the depth asked for, inside the cell in which the search starts, which have not been shown to be disjoint from the set.", "quantifier": "all sets, cells, accuracies and recursion depths", "why_tests_cant": "Must hold for all sequences of splittings.", "anchors": ["source/geometry/paver.cpp: procedure_constraint_adjoin_outer_approximation_recursion, hotstarted_constraint_adjoin_outer_approximation_recursion, hotstarted_optimal_constraint_adjoin_outer_approximation_recursion"]}
{"id": "C154", "title": "The certificate of the optimal constraint paver excludes no point of the set", "statement": "The combination of the constraints with the multipliers found by the optimiser is not negative at the points of the domain which are mapped into the cell and satisfy the constraints, so that reduction for this function keeps them.", "quantifier": "all functions, boxes, multipliers and points", "why_tests_cant": "Depends on the multipliers an approximate optimiser may return.", "anchors": ["source/geometry/paver.cpp: hotstarted_optimal_constraint_adjoin_outer_approximation_recursion"]}
{"id": "C155", "title": "A linear program verified to be feasible has a solution", "statement": "If the simplex solver's verification of a basis (a type for each variable: basic, at its lower bound, at its upper bound, fixed) answers true for the constraints Ax=b, l<=x<=u, then some real vector satisfies them.", "quantifier": "all dimensions, matrices, right-hand sides, bounds (possibly infinite) and bases, in interval arithmetic over floats of every precision and in exact arithmetic", "why_tests_cant": "The answer rests on an interval inverse of the basis matrix and a residual test; the bad cases are particular bases and roundings.", "anchors": ["source/solvers/simplex_algorithm.cpp: SimplexSolver::verify_feasibility, compute_x, compute_B"]}
{"id": "C156", "title": "A linear program verified to be infeasible has no solution", "statement": "If the verification of a basis answers false, no real vector satisfies Ax=b, l<=x<=u.", "quantifier": "all dimensions, matrices, right-hand sides, bounds and bases", "why_tests_cant": "A wrong certificate needs a basic variable whose position relative to its bound cannot be decided by the rounded arithmetic.", "anchors": ["source/solvers/simplex_algorithm.cpp: SimplexSolver::verify_feasibility, compute_c, compute_y, compute_z"]}
{"id": "C157", "title": "The index arrays of the simplex solver are permutations with the basic variables first", "statement": "Computing the index array of a basis lists every variable once, basic ones first. Extending an array of basic indices succeeds exactly if they are distinct and in range, and keeps them in front. The types computed from an index array are basic for the first m variables and a permitted bound for the others.", "quantifier": "all numbers of variables, type arrays and index arrays", "why_tests_cant": "Universal over arrays.", "anchors": ["source/solvers/simplex_algorithm.cpp: compute_p, extend_p, compute_vt"]}
{"id": "C158", "title": "The answer of the simplex feasibility test is validated", "statement": "If the simplex algorithm started from a basis answers that Ax=b, l<=x<=u is feasible, there is a solution.", "quantifier": "all linear programs, bases and sequences of steps", "why_tests_cant": "Depends on the steps taken and on rounding at the bounds.", "anchors": ["source/solvers/simplex_algorithm.cpp: SimplexSolver::hotstarted_feasible, _feasible, consistency_check"]}
{"id": "C159", "title": "The consistency check of an index array accepts exactly the arrays which put the basic variables first", "statement": "Checking an array of indices against the types of the variables succeeds iff the array starts with the basic variables, and returns their number.", "quantifier": "all type arrays and index arrays", "why_tests_cant": "Universal over arrays.", "anchors": ["source/solvers/simplex_algorithm.cpp: SimplexSolver::consistency_check(vt,p)"]}
{"id": "C160", "title": "A union of intervals has the points of its intervals", "statement": "A union of intervals constructed from a list, and the join of two unions, contain exactly the points of the given intervals; the stored intervals are in increasing order and do not touch.", "quantifier": "all lists of intervals, also with empty ones, and all real points", "why_tests_cant": "Universal over lists and points.", "anchors": ["source/geometry/union_of_intervals.hpp: UnionOfIntervals, _sort, _combine, join"]}
{"id": "C161", "title": "The intersection test of unions of intervals is right", "statement": "intersect (and overlaps, and the negation of separated) holds iff the two sets of points have a common point.", "quantifier": "all unions of intervals", "why_tests_cant": "Touching intervals and unsorted lists are easily missed.", "anchors": ["source/geometry/union_of_intervals.hpp: _intersect, overlaps, separated, UnionOfIntervals(List,PRS...)"]}
{"id": "C162", "title": "The subset test of unions of intervals is right", "statement": "subset (and covers, inside) holds iff every point of the first set is a point of the second.", "quantifier": "all unions of intervals", "why_tests_cant": "Universal over pairs of lists; degenerate intervals.", "anchors": ["source/geometry/union_of_intervals.hpp: _subset, covers, inside"]}
{"id": "C163", "title": "The intersection of unions of intervals is the set of common points", "statement": "The points of intersection(a,b) are the common points of a and b (up to end points).", "quantifier": "all unions of intervals and points", "why_tests_cant": "Depends on the relative position of two lists of any length.", "anchors": ["source/geometry/union_of_intervals.hpp: _intersection"]}
{"id": "C164", "title": "The measure of a union of intervals is the length of the set", "statement": "measure returns the integral of the indicator function of the set of points.", "quantifier": "all unions of intervals", "why_tests_cant": "Overlapping intervals must not be counted twice, for any list.", "anchors": ["source/geometry/union_of_intervals.hpp: measure"]}
{"id": "C165", "title": "The bounding box of a union of intervals is the smallest interval around it", "statement": "bounding_box contains all points, and its bounds are points of the set.", "quantifier": "all unions of intervals", "why_tests_cant": "Universal over lists.", "anchors": ["source/geometry/union_of_intervals.hpp: bounding_box"]}
{"id": "C166", "title": "Adjoining and removing hybrid pavings is union and difference", "statement": "A state (location and point) is in the hybrid paving after adjoin (remove) iff it was in it or is (and is not) in the argument; after clear it is empty; is_empty holds iff there is no state.", "quantifier": "all hybrid pavings, locations and points", "why_tests_cant": "Depends on which locations the two maps have.", "anchors": ["source/hybrid/hybrid_paving.cpp: adjoin, remove, clear, is_empty, _provide_location"]}
{"id": "C167", "title": "Restricting a hybrid paving is intersection", "statement": "After restrict, a state is in the hybrid paving iff it was in it and is in the argument.", "quantifier": "all hybrid pavings, locations and points", "why_tests_cant": "Depends on which locations the two maps have.", "anchors": ["source/hybrid/hybrid_paving.cpp: restrict"]}
{"id": "C168", "title": "Comparisons of a hybrid paving with boxes are sound", "statement": "If separated, overlaps, covers or inside answers true, the hybrid paving is disjoint from, meets, covers or lies inside the box or boxes; every location may be asked for.", "quantifier": "all hybrid pavings, locations and boxes", "why_tests_cant": "Depends on which locations are stored, and on their order.", "anchors": ["source/hybrid/hybrid_paving.cpp: separated, overlaps, covers, inside"]}
{"id": "C169", "title": "Subset and intersection tests of hybrid pavings are right", "statement": "subset answers whether every state of the first paving is in the second, intersect whether they have a common state.", "quantifier": "all pairs of hybrid pavings", "why_tests_cant": "Depends on which locations the two maps have.", "anchors": ["source/hybrid/hybrid_paving.cpp: subset, intersect"]}
{"id": "C170", "title": "A set adjoined to a hybrid set is in it", "statement": "After adjoin(location,set), or after construction from several locations or a list of sets, the hybrid set has exactly its old states together with the states of the new set in the given location.", "quantifier": "all hybrid sets, all locations, including those which already have a set, and all sets", "why_tests_cant": "Tests build sets with one entry for each location; the claim is about every sequence of additions.", "anchors": ["source/hybrid/hybrid_set.cpp: HybridConstraintSet::adjoin, HybridBoundedConstraintSet::adjoin", "source/hybrid/hybrid_set.hpp: HybridBoxes::insert, HybridDenotableSet::insert", "source/hybrid/hybrid_expression_set.hpp: HybridVariablesBoxes", "source/utility/container.hpp: Map::insert"]}
{"id": "C171", "title": "Definite answers about hybrid constraint sets and a box are right", "statement": "If overlaps is true the set has a state in the box, if covers is true every state of the box is in the set, if separated is true they have no common state; a location without a set counts as empty.", "quantifier": "all hybrid sets, locations and boxes", "why_tests_cant": "Depends on which locations have sets; infinitely many boxes.", "anchors": ["source/hybrid/hybrid_set.cpp: HybridConstraintSet::overlaps/covers/separated, HybridBoundedConstraintSet::overlaps/covers/separated"]}
{"id": "C172", "title": "Hybrid bounded sets are compared with boxes and bounded correctly", "statement": "inside(boxes) answers for all boxes, and if it is true then every state is in the box of its location; bounding_box contains every state.", "quantifier": "all hybrid bounded constraint sets and all collections of boxes, also those which lack locations of the set", "why_tests_cant": "All locations have to be looked at, for every combination of locations.", "anchors": ["source/hybrid/hybrid_set.cpp: HybridBoundedConstraintSet::inside, HybridBoundedConstraintSet::bounding_box"]}
{"id": "C173", "title": "The intersection of bounds with a hybrid constraint set has exactly the common states", "statement": "intersection(bounds,constraints) is the hybrid set of the states which are in the bounds and satisfy the constraints.", "quantifier": "all collections of boxes and all hybrid constraint sets, with any locations", "why_tests_cant": "Tests use the same locations in both arguments.", "anchors": ["source/hybrid/hybrid_set.cpp: intersection(HybridBoxesSet,HybridConstraintSet)"]}
{"id": "C174", "title": "Iterating over a hybrid paving visits every cell once", "statement": "A loop from begin to end visits each cell of each location exactly once, in the order of the locations, and terminates without using an iterator at its end.", "quantifier": "all hybrid pavings, with any number of locations, any of which may be empty", "why_tests_cant": "Depends on every pattern of empty locations, first, last and consecutive.", "anchors": ["source/hybrid/hybrid_set.hpp: HybridSpaceSetConstIterator", "source/hybrid/hybrid_set.cpp: HybridSpaceSetConstIterator::increment_loc"]}
{"id": "C175", "title": "Spaces of named variables give each variable one index", "statement": "A space made from a list has exactly these variables in this order, and cannot be made from a list with repetitions; index and variable are inverse to each other; contains answers membership; adjoin and join add exactly the missing variables and do not change the index of the others; the map of indices agrees with index.", "quantifier": "all lists of variables and all spaces built from them", "why_tests_cant": "All orders and overlaps of any number of variables.", "anchors": ["source/symbolic/space.cpp: Space::append, insert, adjoin, index, indices, contains", "source/symbolic/space.hpp: join"]}
{"id": "C176", "title": "Reordering or naming the variables of a box keeps its points", "statement": "Naming the coordinates of a box, and taking the Euclidean box of named bounds in any order of the variables, keeps the set of valuations; doing both in the same order gives the box back; reordering a labelled box by projection gives the same result; conversion between named bounds and labelled boxes keeps the points.", "quantifier": "all boxes of any dimension, all interval types and all orders of the variables", "why_tests_cant": "All permutations in all dimensions.", "anchors": ["source/symbolic/expression_set.hpp: VariablesBox, VariablesPoint, LabelledSet::euclidean_set", "source/geometry/box.tpl.hpp: Box::_project"]}
{"id": "C177", "title": "A box given by bounds on variables has the points which satisfy all of them", "statement": "A VariablesBox or bounded constraint set made from a list of bounds has exactly the valuations which satisfy every bound of the list.", "quantifier": "all lists of bounds, also with several bounds on one variable", "why_tests_cant": "Tests bound each variable once.", "anchors": ["source/symbolic/expression_set.hpp: VariablesBox::VariablesBox", "source/symbolic/expression_set.cpp: make_key_value_map, unique_keys, RealExpressionBoundedConstraintSet::RealExpressionBoundedConstraintSet"]}
{"id": "C178", "title": "Valuations give the values assigned", "statement": "After set the variable has the new value and all others keep theirs; insert gives a value to a new variable and never changes one; a valuation made from an array and a space gives each variable its coordinate.", "quantifier": "all valuations, variables and values, all spaces and arrays which are not longer", "why_tests_cant": "All histories of assignments.", "anchors": ["source/symbolic/valuation.hpp: Valuation"]}
{"id": "C179", "title": "Euclidean constraint sets have the coordinates of the valuations which satisfy the constraints", "statement": "euclidean_set(space) of a constraint set and of a bounded constraint set contains the coordinates of a valuation exactly if the valuation satisfies the bounds and all constraints, in any order of the variables; it fails exactly if the variables of the space do not fit.", "quantifier": "all lists of constraints and bounds, all spaces, all valuations", "why_tests_cant": "All orders of variables and all valuations.", "anchors": ["source/symbolic/expression_set.cpp: RealExpressionConstraintSet::euclidean_set, RealExpressionBoundedConstraintSet::euclidean_set", "source/function/function.cpp: make_function"]}
{"id": "C180", "title": "Labelled sets compare equal exactly if they are the same", "statement": "operator== on labelled sets answers for all pairs, and is true exactly if they have the same variables and the same points.", "quantifier": "all pairs of labelled boxes", "why_tests_cant": "Tests use one order of the variables.", "anchors": ["source/symbolic/expression_set.hpp: operator==(LabelledSet,LabelledSet)"]}
{"id": "C181", "title": "Negation and sum of affine models enclose", "statement": "If f1 is within the error of affine model a1 on the unit box and f2 of a2, then -f1 is within the error of -a1 and f1+f2 within that of a1+a2, rounding included. Models of different numbers of variables are refused.", "quantifier": "all affine models, functions they represent, numbers of variables, precisions", "why_tests_cant": "The rounding errors of all coefficients must be covered for all values.", "anchors": ["source/function/affine_model.tpl.hpp: AlgebraOperations<AffineModel<ValidatedTag,F>>::apply(Neg), apply(Add)", "source/function/model_utilities.hpp: add_err"]}
{"id": "C182", "title": "Scaling an affine model encloses", "statement": "If f is within the error of affine model a on the unit box and c lies in the given bounds, then c*f is within the error of the scaled model.", "quantifier": "all affine models, bounds, values in the bounds", "why_tests_cant": "The stored coefficient is a rounded midpoint; the shortfall is one unit in the last place of wide bounds.", "anchors": ["source/function/affine_model.tpl.hpp: apply(Mul,NumericType,AffineModelType)", "source/function/model_utilities.hpp: mul_err(F,ValidatedApproximation,Error)"]}
{"id": "C183", "title": "Adding a constant to an affine model encloses", "statement": "If f is within the error of affine model a on the unit box then f+c is within the error of a+c, for every number c.", "quantifier": "all affine models and constants of either sign", "why_tests_cant": "Tests add a few constants and print the result; the sign of the constant matters.", "anchors": ["source/function/affine_model.tpl.hpp: apply(Add,NumericType,AffineModelType)", "source/function/model_utilities.hpp: add_err(F,ValidatedApproximation,Error)"]}
{"id": "C184", "title": "The product of affine models encloses", "statement": "If f1 is within the error of affine model a1 on the unit box and f2 of a2, then f1*f2 is within the error of a1*a2.", "quantifier": "all affine models, functions they represent, errors of any size", "why_tests_cant": "Small errors hide a wrong error term.", "anchors": ["source/function/affine_model.tpl.hpp: apply(Mul,AffineModelType,AffineModelType)", "source/function/model_utilities.hpp: lin_err"]}
{"id": "C185", "title": "Range and conversions of affine models enclose", "statement": "The range of an affine model contains all values on the unit box of every function it represents. Converting an affine function with coefficients given by bounds yields a model which represents every choice of coefficients; converting a Taylor model yields one which represents every function enclosed by the Taylor model.", "quantifier": "all affine models, affine functions, Taylor models of any number of variables and terms", "why_tests_cant": "All terms of degree two and more and all rounding errors must be covered.", "anchors": ["source/function/affine_model.tpl.hpp: AffineModel::range, AffineModel(Affine), AffineModel(TaylorModel)"]}
{"id": "C186", "title": "Arithmetic of approximate affine models follows the rules for values and gradients", "statement": "Negation, sum, product, and sum and product with a constant of approximate affine models have the value and the gradient given by the rules of calculus, up to rounding.", "quantifier": "all approximate affine models with finite coefficients", "why_tests_cant": "Tests of the class cover a few literals and not the product.", "anchors": ["source/function/affine_model.tpl.hpp: AlgebraOperations<AffineModel<ApproximateTag,F>>::apply"]}
{"id": "C187", "title": "Evaluating a Chebyshev polynomial encloses its value", "statement": "The value of a univariate Chebyshev polynomial at an enclosure of a point encloses the sum of coefficients times Chebyshev polynomials at that point; basis elements are the Chebyshev polynomials with T_k(cos t)=cos(k t), also the coordinate and the constants.", "quantifier": "all coefficient types with sound arithmetic, all polynomials with any gaps between indices, all arguments", "why_tests_cant": "The recurrence skips missing indices; the number of steps depends on the gaps.", "anchors": ["source/function/chebyshev_polynomial.hpp: UnivariateChebyshevPolynomial::_evaluate", "source/function/chebyshev_polynomial.tpl.hpp: constant, coordinate, basis"]}
{"id": "C188", "title": "Linear operations on Chebyshev polynomials are correct", "statement": "Negation, sum, difference and product with a constant of Chebyshev polynomials stand for the same operations on the functions, and keep the terms ordered by index.", "quantifier": "all polynomials of any degrees and any pattern of missing terms, all sound coefficient types", "why_tests_cant": "The sum merges two sorted lists; all interleavings must be covered.", "anchors": ["source/function/chebyshev_polynomial.tpl.hpp: apply(Neg), apply(Add), apply(Sub), apply(Mul, X const&)"]}
{"id": "C189", "title": "A constant can be added to a Chebyshev polynomial", "statement": "The sum of a Chebyshev polynomial and a constant exists and stands for the sum of the function and the constant.", "quantifier": "all polynomials and constants", "why_tests_cant": "The failing polynomials are those without a constant term; tests use polynomials with one.", "anchors": ["source/function/chebyshev_polynomial.tpl.hpp: apply(Add, ChebyshevPolynomial, X const&)"]}
{"id": "C190", "title": "The product of Chebyshev polynomials is the product of the functions", "statement": "The product of two Chebyshev polynomials, and the square of one, exist, write inside the buffer only, have ordered terms and stand for the product of the functions.", "quantifier": "all polynomials of any degrees, all sound coefficient types", "why_tests_cant": "Rests on the identity 2 T_i T_j = T_{i+j} + T_{|i-j|} for all i and j; the failing case is the polynomial without terms.", "anchors": ["source/function/chebyshev_polynomial.tpl.hpp: apply(Mul), apply(Sqr)"]}
{"id": "C191", "title": "The norm of a Chebyshev polynomial bounds the function", "statement": "The supremum norm given for a Chebyshev polynomial is an upper bound of the absolute value of the function everywhere on [-1,1].", "quantifier": "all polynomials, all points of [-1,1], all sound coefficient types", "why_tests_cant": "All points of the interval and all degrees are involved.", "anchors": ["source/function/chebyshev_polynomial.tpl.hpp: UnivariateChebyshevPolynomial::sup_norm"]}
{"id": "C192", "title": "Evaluating a multivariate Chebyshev polynomial encloses its value", "statement": "The value of a multivariate Chebyshev polynomial at an enclosure of a point exists and encloses the sum of coefficients times products of Chebyshev polynomials; constants, coordinates and basis elements stand for the functions they name.", "quantifier": "all numbers of variables above zero, all polynomials with any order of terms, all points, all sound coefficient types", "why_tests_cant": "The evaluation recurses over variables and over groups of terms with equal leading degrees; the failing case is the polynomial without terms.", "anchors": ["source/function/chebyshev_polynomial.tpl.hpp: MultivariateChebyshevPolynomial::operator(), _eval, ChebyshevValues, equal_up_to"]}
{"id": "C193", "title": "Linear operations and norm of multivariate Chebyshev polynomials are correct", "statement": "Negation, sum, difference and scaling of multivariate Chebyshev polynomials stand for the operations on the functions, and the norm bounds the absolute value of the function on [-1,1]^n.", "quantifier": "all numbers of variables, all polynomials, all points of [-1,1]^n, all sound coefficient types", "why_tests_cant": "The sum merges lists of multi-indices; all interleavings and all points are involved.", "anchors": ["source/function/chebyshev_polynomial.tpl.hpp: MultivariateChebyshevPolynomial::apply, sup_norm"]}
{"id": "C194", "title": "A constant can be added to a multivariate Chebyshev polynomial", "statement": "The sum of a multivariate Chebyshev polynomial and a constant exists and stands for the sum of the function and the constant.", "quantifier": "all polynomials and constants", "why_tests_cant": "The failing polynomials are those whose first term is not constant.", "anchors": ["source/function/chebyshev_polynomial.tpl.hpp: MultivariateChebyshevPolynomial::apply(Add, ChebyshevPolynomial, Scalar)"]}
{"id": "C195", "title": "The product of multivariate Chebyshev polynomials is the product of the functions", "statement": "The product of two multivariate Chebyshev polynomials, and the square of one, exist, access the buffers inside their bounds only, and stand for the product of the functions.", "quantifier": "all numbers of variables, all polynomials with terms, in any order the other operations produce, all sound coefficient types", "why_tests_cant": "Existing tests multiply single terms only; the size of the buffer depends on the order of the terms, and a sum stores them in the opposite order.", "anchors": ["source/function/chebyshev_polynomial.tpl.hpp: MultivariateChebyshevPolynomial::apply(Mul), apply(Sqr), _mul_from", "source/algebra/multi_index.inl.hpp: reverse_lexicographic_less"]}
