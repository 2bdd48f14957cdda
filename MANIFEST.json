{
 "claims": [
  {
   "property": "C01",
   "status": "proved",
   "theorems": [
    "C01_lru_refines_recency_list",
    "C01_lru_never_undefined"
   ],
   "note": "Refinement of the cache to a recency list over all histories."
  },
  {
   "property": "C02",
   "status": "proved",
   "theorems": [
    "C02_order_irreflexive",
    "C02_order_transitive",
    "C02_order_total",
    "C02_order_is_dictionary_order",
    "C02_is_prefix_exact",
    "C02_is_subword_exact",
    "C02_erase_prefix_append",
    "C02_append_concatenates",
    "C02_read_write",
    "C02_read_write_empty"
   ],
   "note": "The bracketed input format is delegated to the vector reader and not modelled."
  },
  {
   "property": "C03",
   "status": "proved",
   "theorems": [
    "C03_connectives_sound",
    "C03_connectives_exact",
    "C03_de_morgan",
    "C03_guesses_consistent",
    "C03_conversions_sound",
    "C03_conversions_exact",
    "C03_bool_conversions"
   ],
   "note": ""
  },
  {
   "property": "C04",
   "status": "proved",
   "theorems": [
    "C04_checks_sound",
    "C04_checks_persistent",
    "C04_disjunction_complete",
    "C04_conjunction_complete"
   ],
   "note": ""
  },
  {
   "property": "C05",
   "status": "partial",
   "theorems": [
    "C05_sierpinskian_or_boolean_refuted",
    "C05_negated_and_boolean_refuted",
    "C05_kleenean_boolean_partial"
   ],
   "note": "The claim is false for the Sierpinskian||bool and NegatedSierpinskian&&bool overloads (refuted with witnesses); proved for the Kleenean overloads."
  },
  {
   "property": "C06",
   "status": "proved",
   "theorems": [
    "C06_choice_is_verified",
    "C06_choice_terminates",
    "C06_choose_bool_is_verified",
    "C06_choose_bool_terminates"
   ],
   "note": ""
  },
  {
   "property": "C07",
   "status": "proved",
   "theorems": [
    "C07_add_sub_neg",
    "C07_mixed",
    "C07_inl_add_refuted",
    "C07_inl_add_positive"
   ],
   "note": "Addition, subtraction and negation of bounds (and the mixed bounds/float forms) enclose every real result, in any precision, over infinite endpoints as well. Finding: the mixed add in float_bounds.inl.hpp rounds the lower endpoint upward (C07_inl_add_refuted)."
  },
  {
   "property": "C08",
   "status": "proved",
   "theorems": [
    "C08_mul",
    "C08_mul_infinite",
    "C08_mixed",
    "C08_infinite_refuted",
    "C08_fma_positive"
   ],
   "note": "Multiplication and squaring of finite bounds enclose every product. With infinite endpoints the claim holds away from 0*inf and is refuted otherwise (C08_infinite_refuted)."
  },
  {
   "property": "C09",
   "status": "proved",
   "theorems": [
    "C09_div",
    "C09_zero_divisor",
    "C09_mixed",
    "C09_inl_div_positive"
   ],
   "note": "Division and reciprocal enclose every quotient; a divisor containing zero yields the whole line."
  },
  {
   "property": "C10",
   "status": "proved",
   "theorems": [
    "C10_sound",
    "C10_complete"
   ],
   "note": "Three-valued comparisons on bounds are sound and definite whenever the two sets of reals decide."
  },
  {
   "property": "C100",
   "status": "partial",
   "theorems": [
    "C100_step_partial",
    "C100_erased_refuted",
    "C100_grazing_refuted"
   ],
   "note": "Findings: erasing the current event in a range-for loop; appending to a list while iterating. Proved for convex guards without creep steps, upper semantics."
  },
  {
   "property": "C101",
   "status": "partial",
   "theorems": [
    "C101_box_reduce_partial",
    "C101_overflow_refuted",
    "C101_infinite_refuted"
   ],
   "note": "Proved when the ends of the coordinate are at most 2^(emax-4) in absolute value; false for larger ends, where the cut points overflow, and for infinite ends."
  },
  {
   "property": "C102",
   "status": "partial",
   "theorems": [
    "C102_monotone_reduce_partial",
    "C102_termination_refuted"
   ],
   "note": "Soundness proved whenever the call returns; the call does not end if the constraint does not cut the box, for instance for x in [-10,10] on [0,1]."
  },
  {
   "property": "C103",
   "status": "partial",
   "theorems": [
    "C103_lyapunov_reduce_partial",
    "C103_centre_refuted"
   ],
   "note": "Proved when the centre lies in the domain and all data are finite; false for a centre outside the domain."
  },
  {
   "property": "C104",
   "status": "partial",
   "theorems": [
    "C104_reduce_ends",
    "C104_reduce_answer",
    "C104_reduce_keeps_partial",
    "C104_overflow_refuted"
   ],
   "note": "Ending and the value returned proved for all evaluations and contractors; solutions are kept for moderate boxes and contractors which lose none; false by overflow for ends of 2^1023 and more."
  },
  {
   "property": "C105",
   "status": "partial",
   "theorems": [
    "C105_check_feasibility_partial",
    "C105_nan_refuted"
   ],
   "note": "Proved when the evaluation encloses the function; false when the evaluation overflows to NaN, which counts as feasible."
  },
  {
   "property": "C106",
   "status": "partial",
   "theorems": [
    "C106_feasible_partial",
    "C106_point_refuted"
   ],
   "note": "Both answers proved, with the optimiser as an arbitrary sequence of states with nonnegative multipliers; the point returned is empty when true comes from a subbox."
  },
  {
   "property": "C107",
   "status": "partial",
   "theorems": [
    "C107_bounder_partial",
    "C107_step_bound",
    "C107_autonomous_partial",
    "C107_time_refuted"
   ],
   "note": "Proved for steps which start and end at floats of moderate size and for Lipschitz fields. Refuted for other times: the end of the time interval is rounded down (to_time_bounds), and for x'=1 from time 1 with step 0.1 the solution leaves the box."
  },
  {
   "property": "C108",
   "status": "partial",
   "theorems": [
    "C108_search_ends",
    "C108_step_size_partial",
    "C108_minimum_refuted"
   ],
   "note": "The search ends. Refuted: the minimum is only compared with reduced steps, so a shorter first step, even zero, is returned."
  },
  {
   "property": "C109",
   "status": "partial",
   "theorems": [
    "C109_tight_refuted"
   ],
   "note": "Refuted: the widening is applied in the refinement too (bounder.cpp:133 has the condition inverted); with the zero field on [0,1] the box is [-1/2,3/2]."
  },
  {
   "property": "C11",
   "status": "proved",
   "theorems": [
    "C11_lattice",
    "C11_refinement_exact"
   ],
   "note": "refines/consistent/refinement/coarsening agree with subset, intersection and hull."
  },
  {
   "property": "C110",
   "status": "partial",
   "theorems": [
    "C110_picard",
    "C110_error",
    "C110_graded_partial",
    "C110_integrator_partial"
   ],
   "note": "Proved for the Picard integrators given sound operations on function models and a bound for the flow, and with the integrator's own bounder for autonomous fields. Missing: the graded series integrator; fields which depend on time with the bounder (see C107)."
  },
  {
   "property": "C111",
   "status": "partial",
   "theorems": [
    "C111_search_ends_partial",
    "C111_fixed_result",
    "C111_bounded_fixed",
    "C111_endless_refuted",
    "C111_fixed_refuted"
   ],
   "note": "Refuted: if no step succeeds the search goes on for ever; a fixed step tries the same half step for ever. Proved: the search ends when small steps succeed; what a fixed step returns is a checked step for the whole or half of the time, and with the bounder it encloses the flow for exactly the reported time."
  },
  {
   "property": "C112",
   "status": "partial",
   "theorems": [
    "C112_constant_partial",
    "C112_radius",
    "C112_affine_refuted"
   ],
   "note": "Refuted: only the terms of the highest degree in both state and time contribute to the error, so that for x'=x the model x without error is returned. Proved for constant fields, and that the radius reaches every point of the box."
  },
  {
   "property": "C113",
   "status": "partial",
   "theorems": [
    "C113_series_bounder_partial",
    "C113_series_refuted"
   ],
   "note": "Refuted: the loop compares the range of the first model only; for x'=x^2 a step beyond the time of explosion is returned. Proved when the range of the first model is in the interior of the first bound."
  },
  {
   "property": "C114",
   "status": "partial",
   "theorems": [
    "C114_history_partial",
    "C114_dwell_partial",
    "C114_exact_history",
    "C114_dwell_reset",
    "C114_dwell_refuted"
   ],
   "note": "Point and time are proved for all histories, and that there are no other points with exact operations. The dwell time is proved for histories without reach steps; it is refuted for reach steps, which reset it (apply_parameter_reach_step calls apply_map)."
  },
  {
   "property": "C115",
   "status": "partial",
   "theorems": [
    "C115_state_constraint",
    "C115_state_time_constraint",
    "C115_parameter_constraint",
    "C115_signs",
    "C115_time_bound_partial",
    "C115_time_bound_refuted"
   ],
   "note": "All constraints are proved except new_state_time_bound, which imposes gamma(x)<=t instead of the documented t<=gamma(x)."
  },
  {
   "property": "C116",
   "status": "proved",
   "theorems": [
    "C116_is_empty",
    "C116_is_empty_after",
    "C116_inside",
    "C116_subset",
    "C116_separated",
    "C116_satisfies_constraint",
    "C116_satisfies",
    "C116_never_satisfied",
    "C116_tests_change_nothing"
   ],
   "note": "For all sound function models and contractors; satisfies(constraint) never answers true (C116_never_satisfied)."
  },
  {
   "property": "C117",
   "status": "proved",
   "theorems": [
    "C117_split",
    "C117_restrict",
    "C117_product_box",
    "C117_product",
    "C117_exact"
   ],
   "note": "The direction of a split is an argument."
  },
  {
   "property": "C118",
   "status": "proved",
   "theorems": [
    "C118_uniform",
    "C118_kuhn",
    "C118_sorted"
   ],
   "note": "Under the assumption that the new error coefficients do not overflow."
  },
  {
   "property": "C119",
   "status": "partial",
   "theorems": [
    "C119_real_set_partial",
    "C119_ball_refuted"
   ],
   "note": "Proved for real boxes whose rounded ends are finite and in order; refuted for boxes with ends given as balls (make_domain of affine_set.cpp ignores the error of the upper end)."
  },
  {
   "property": "C12",
   "status": "partial",
   "theorems": [
    "C12_value_error_partial",
    "C12_pm",
    "C12_overflow_refuted"
   ],
   "note": "value +- error covers the bounds when the midpoint computation does not overflow or lose a half-bit; the general claim is refuted by overflow."
  },
  {
   "property": "C120",
   "status": "partial",
   "theorems": [
    "C120_arithmetic_partial",
    "C120_variables_partial",
    "C120_degree_refuted"
   ],
   "note": "Proved for degrees from 1 (variables) and all coefficient types with enclosing operations. Refuted in part: a variable of degree 0 stores a term of degree 1."
  },
  {
   "property": "C121",
   "status": "partial",
   "theorems": [
    "C121_formula_partial",
    "C121_functions_partial",
    "C121_empty_partial",
    "C121_abs_partial",
    "C121_empty_refuted",
    "C121_zero_refuted",
    "C121_missing_refuted",
    "C121_abs_refuted"
   ],
   "note": "Proved for every formula whenever a differential is returned and no assertion fails. Refuted in part: a differential without terms (exp(0*x), exp(x*y) at the origin to degree 1) makes the code read the first term of an empty list; asin, acos and abs have no series; abs of bounds which contain zero is the negation."
  },
  {
   "property": "C122",
   "status": "partial",
   "theorems": [
    "C122_compose_partial",
    "C122_vector_partial",
    "C122_alias_refuted",
    "C122_restore_refuted",
    "C122_degree_refuted"
   ],
   "note": "Proved for distinct objects and outer degree at least 1. Refuted in part: compose(f,f) on one object loses the constant term; a failed assertion leaves y with values zero; the degree of the resulting vector is that of y."
  },
  {
   "property": "C123",
   "status": "proved",
   "theorems": [
    "C123_derivative",
    "C123_antiderivative"
   ],
   "note": "For every degree and number of variables, for functions with an expansion whose derivative has an expansion."
  },
  {
   "property": "C124",
   "status": "partial",
   "theorems": [
    "C124_value_gradient_partial",
    "C124_jacobian_partial",
    "C124_affine_refuted"
   ],
   "note": "Proved for values, gradients and Jacobians. Refuted for the vector of affine functions: every entry of row i is stored for the variable i."
  },
  {
   "property": "C125",
   "status": "partial",
   "theorems": [
    "C125_flow_partial",
    "C125_flow_all_partial",
    "C125_parameters_refuted",
    "C125_degree_refuted"
   ],
   "note": "Proved for autonomous vector fields and for vector fields of time and parameters. Refuted for flow(df,x0,a): the first parameter is the variable which is the time. Vector fields of degree 0 fail an assertion."
  },
  {
   "property": "C126",
   "status": "proved",
   "theorems": [
    "C126_lie"
   ],
   "note": "For every degree at least 1, dimension and vector field."
  },
  {
   "property": "C127",
   "status": "partial",
   "theorems": [
    "C127_arithmetic_partial",
    "C127_functions_partial",
    "C127_compose_partial",
    "C127_antiderivative_partial",
    "C127_derivative_refuted",
    "C127_derivative_constant_refuted",
    "C127_alias_refuted"
   ],
   "note": "Proved except for the derivative, which writes outside the array for degree 2 or more and returns 65536 coefficients for degree 0, and for compose(f,f) on one object, which loses the constant term."
  },
  {
   "property": "C128",
   "status": "proved",
   "theorems": [
    "C128_bounds_contain"
   ],
   "note": "For every sound arithmetic of float bounds (C07-C14); the value of an expression is given by the relation denotes. Dyadic truncation (C67) and wrap-around of efforts are left out."
  },
  {
   "property": "C129",
   "status": "partial",
   "theorems": [
    "C129_converges_partial",
    "C129_limit_partial",
    "C129_limit_refuted",
    "C129_expression_refuted"
   ],
   "note": "Refuted: the n-th term of a limit of reals is computed with effort n-1 only, so that it may stay inaccurate; and the float bounds of a limit of reals use +two^(-n), which is the exclusive or of 2 and -n (about 2^32), so that no expression containing such a limit converges. Proved for numbers without limits of reals, given continuous float operations, and for limits with terms accurate along the diagonal."
  },
  {
   "property": "C13",
   "status": "proved",
   "theorems": [
    "C13_pow",
    "C13_pow_integer",
    "C13_pow_float"
   ],
   "note": "Integer powers of bounds enclose every power, for all exponents."
  },
  {
   "property": "C130",
   "status": "partial",
   "theorems": [
    "C130_accuracy_partial",
    "C130_terminates_partial",
    "C130_zero_never",
    "C130_negative_refuted",
    "C130_infinity_refuted",
    "C130_limit_refuted"
   ],
   "note": "Refuted: a negative accuracy gives the bounds 0; accuracy 0, infinity and some limits of computable numbers never end. Proved: for positive accuracies the result contains the number and is accurate, and the computation ends iff some effort is accurate enough."
  },
  {
   "property": "C131",
   "status": "proved",
   "theorems": [
    "C131_comparisons",
    "C131_decided",
    "C131_choice"
   ],
   "note": "Decidedness for numbers whose bounds converge (C129)."
  },
  {
   "property": "C132",
   "status": "partial",
   "theorems": [
    "C132_when_partial",
    "C132_unsatisfiable",
    "C132_double_effort",
    "C132_when_refuted",
    "C132_double_refuted"
   ],
   "note": "Refuted: if the other term has no value (sqrt of a negative number) the bounds are NaN until its condition is found false; double-precision bounds always use effort 0, so that they may stay wide. Proved if both terms have values."
  },
  {
   "property": "C133",
   "status": "partial",
   "theorems": [
    "C133_round_partial",
    "C133_same_partial",
    "C133_same_refuted"
   ],
   "note": "Refuted: same(r,r) is false unless the double bounds of r are a single number. Proved: same is true only for equal numbers; round is within 1, and ends for numbers whose bounds converge."
  },
  {
   "property": "C134",
   "status": "proved",
   "theorems": [
    "C134_feasible_point"
   ],
   "note": "For bounds with non-finite ends counted as the whole line."
  },
  {
   "property": "C135",
   "status": "partial",
   "theorems": [
    "C135_no_feasible_point",
    "C135_contains_partial",
    "C135_contains_refuted",
    "C135_exception_refuted"
   ],
   "note": "The answer false is right. Finding: the tests definitely(not subset(...)) on an upper interval are never true, so that inequality constraints and the inclusion of X in D are never tested, and true is answered for infeasible problems; the answer true is right if X is inside D and satisfies the inequalities. Finding: inverse is called once outside the try block, so that SingularMatrixException leaves the function."
  },
  {
   "property": "C136",
   "status": "partial",
   "theorems": [
    "C136_validate_partial",
    "C136_validate_refuted"
   ],
   "note": "True implies that g(v) is in C for some v. Finding: the domain D is never used, so that infeasible problems are validated."
  },
  {
   "property": "C137",
   "status": "partial",
   "theorems": [
    "C137_certificate",
    "C137_validate_infeasibility_partial",
    "C137_validate_infeasibility_refuted"
   ],
   "note": "is_infeasibility_certificate is right, and validate_infeasibility is if x is in D. Finding: for x outside D a feasible problem may be declared infeasible, since the derivative is bounded on D only. In the Python interface (optimization_submodule.cpp:91-93) the names validate_infeasibility and is_infeasibility_certificate are bound to validate_feasibility and contains_feasible_point."
  },
  {
   "property": "C138",
   "status": "partial",
   "theorems": [
    "C138_feasible_partial",
    "C138_minimise_partial",
    "C138_minimise_refuted"
   ],
   "note": "Infeasibility is reported only for infeasible problems, for any iterates; for feasible problems it is missing that the point is in D (C136). Finding: minimise returns a single approximate point; for x^2=2 no run returns a feasible point."
  },
  {
   "property": "C139",
   "status": "partial",
   "theorems": [
    "C139_almost_partial",
    "C139_almost_refuted"
   ],
   "note": "Accepted points are in D and their approximate value is in C. Finding: cast_exact_widen returns its argument instead of the widened box, so that the error makes no difference."
  },
  {
   "property": "C14",
   "status": "partial",
   "theorems": [
    "C14_max_min_abs_widen",
    "C14_hlf_partial",
    "C14_hlf_refuted",
    "C14_narrow_lower_partial",
    "C14_narrow_refuted",
    "C14_positive_min_sound",
    "C14_positive_max_sound"
   ],
   "note": "max, min, abs and widen enclose. hlf encloses only when the halves are representable (or the ambient rounding happens to suit), narrow only on its lower end; both full claims are refuted by witnesses."
  },
  {
   "property": "C140",
   "status": "partial",
   "theorems": [
    "C140_intersection_partial",
    "C140_overloads",
    "C140_intersection_refuted"
   ],
   "note": "Proved for two constraint sets and for a constraint set with a box. Refuted for bounded constraint sets: the bounds of the constraints are used in place of the domain, so points are lost or added, or a coordinate beyond the end is accessed; without constraints the dimension is lost. C140_overloads says what these overloads compute."
  },
  {
   "property": "C141",
   "status": "proved",
   "theorems": [
    "C141_separated"
   ],
   "note": ""
  },
  {
   "property": "C142",
   "status": "proved",
   "theorems": [
    "C142_inside",
    "C142_bounding_box"
   ],
   "note": ""
  },
  {
   "property": "C143",
   "status": "proved",
   "theorems": [
    "C143_covers"
   ],
   "note": ""
  },
  {
   "property": "C144",
   "status": "partial",
   "theorems": [
    "C144_overlaps_partial",
    "C144_overlaps_refuted"
   ],
   "note": "Proved: a common point of the closed sets, when the searched domain has its ends in the right order and the bounds of the constraints are floats. Refuted otherwise: touching sets, wrong order of ends, real bounds which are not floats."
  },
  {
   "property": "C145",
   "status": "partial",
   "theorems": [
    "C145_satisfies_partial",
    "C145_satisfies_refuted"
   ],
   "note": "True is right up to the rounding of the bounds. False without an upper bound is returned whenever the quick test fails, because a default-constructed kleenean is true; false for a constraint which holds with equality."
  },
  {
   "property": "C146",
   "status": "partial",
   "theorems": [
    "C146_effort_refuted"
   ],
   "note": "Refuted: the effort is not used."
  },
  {
   "property": "C147",
   "status": "proved",
   "theorems": [
    "C147_operations",
    "C147_split"
   ],
   "note": "Splitting a validated set needs a bounded domain."
  },
  {
   "property": "C148",
   "status": "partial",
   "theorems": [
    "C148_is_empty_partial",
    "C148_is_empty_refuted"
   ],
   "note": "True is right; false is returned for empty sets too."
  },
  {
   "property": "C149",
   "status": "partial",
   "theorems": [
    "C149_conversion_partial",
    "C149_conversion_refuted"
   ],
   "note": "No point is lost; points may be added."
  },
  {
   "property": "C15",
   "status": "proved",
   "theorems": [
    "C15_add_sub_neg",
    "C15_floats"
   ],
   "note": "Every rounding mode in force; uniform precision of value and error."
  },
  {
   "property": "C150",
   "status": "partial",
   "theorems": [
    "C150_outer",
    "C150_optimal_partial",
    "C150_optimal_refuted"
   ],
   "note": "Proved for the subdivision, affine, reduce and constraint pavers. Refuted for OptimalConstraintPaver: the search starts in the cell enclosing the values of the constraint functions instead of the values of the function, so points of the set are missing; proved for the points in the cell in which the search starts if the multipliers are not negative."
  },
  {
   "property": "C151",
   "status": "proved",
   "theorems": [
    "C151_kept"
   ],
   "note": "All five pavers."
  },
  {
   "property": "C152",
   "status": "partial",
   "theorems": [
    "C152_ends_partial",
    "C152_forever_refuted"
   ],
   "note": "Refuted: for a function which is known with an error the ranges do not become small, and the subdivision, reduce and constraint pavers split the domain forever. Proved: the affine paver always ends, the subdivision and constraint pavers end if the ranges become small."
  },
  {
   "property": "C153",
   "status": "partial",
   "theorems": [
    "C153_depth_partial",
    "C153_optimal_refuted"
   ],
   "note": "Proved: added points are in cells reached by splitting, of the depth asked for (or the first cell). Refuted for the optimal constraint paver: a cell is added although both halves of the domain have been shown to have no point mapped to it."
  },
  {
   "property": "C154",
   "status": "partial",
   "theorems": [
    "C154_certificate_partial",
    "C154_disjoint",
    "C154_certificate_refuted"
   ],
   "note": "Proved for multipliers which are not negative; a negative multiplier, which the code does not check for, excludes points of the set."
  },
  {
   "property": "C155",
   "status": "partial",
   "theorems": [
    "C155_feasible_partial",
    "C155_feasible_rational_partial",
    "C155_feasible_refuted",
    "C155_fixed_refuted"
   ],
   "note": "False as stated: the range of a non-basic variable is not checked to be non-empty, and a fixed variable is taken to be 0 (two counterexamples in double precision). Proved when the other variables are at a finite bound and have a non-empty range."
  },
  {
   "property": "C156",
   "status": "partial",
   "theorems": [
    "C156_infeasible_partial",
    "C156_infeasible_float_partial",
    "C156_infeasible_refuted"
   ],
   "note": "False as stated for floats: a basic variable which cannot be told from its bound gets no part in the certificate (counterexample). Proved in exact arithmetic, and for floats when every basic variable is decided to be inside or outside its bounds."
  },
  {
   "property": "C157",
   "status": "proved",
   "theorems": [
    "C157_compute_p",
    "C157_extend_p",
    "C157_extend_p_fails",
    "C157_compute_vt"
   ],
   "note": ""
  },
  {
   "property": "C158",
   "status": "partial",
   "theorems": [
    "C158_feasible_partial",
    "C158_feasible_refuted"
   ],
   "note": "False as stated: the answer rests on a comparison with tolerances (counterexample for all sequences of steps). Proved: a point exists which violates the constraints by no more than the tolerances."
  },
  {
   "property": "C159",
   "status": "partial",
   "theorems": [
    "C159_check_partial",
    "C159_check_refuted"
   ],
   "note": "False as stated: complete arrays are accepted without a check (counterexample). Proved for arrays shorter than the number of variables, without distinctness."
  },
  {
   "property": "C16",
   "status": "partial",
   "theorems": [
    "C16_mul_partial",
    "C16_mul_underflow_refuted",
    "C16_rec_partial",
    "C16_div_partial",
    "C16_rec_zero_refuted",
    "C16_hlf_partial",
    "C16_hlf_refuted",
    "C16_sqr_partial",
    "C16_pow",
    "C16_floats_partial",
    "C16_sqr_nonneg"
   ],
   "note": "False as stated: products that underflow in the default mode, reciprocals of balls containing zero, halving of a subnormal error. Proved without underflow and with zero excluded."
  },
  {
   "property": "C160",
   "status": "proved",
   "theorems": [
    "C160_union",
    "C160_join",
    "C160_ordered"
   ],
   "note": "Second model of the class of C76, with rational bounds and real points."
  },
  {
   "property": "C161",
   "status": "partial",
   "theorems": [
    "C161_intersect_partial",
    "C161_intersect_sound_partial",
    "C161_intersect_refuted",
    "C161_convert_refuted"
   ],
   "note": "False as stated: intervals which only touch do not count, and unions made by conversion are not sorted (counterexamples). Proved: for intervals of positive length the test holds iff there is a common inner point; a positive answer is right for all non-empty intervals. Second model of the class of C76, with rational bounds and real points."
  },
  {
   "property": "C162",
   "status": "partial",
   "theorems": [
    "C162_subset_partial",
    "C162_subset_sound",
    "C162_covers",
    "C162_inside",
    "C162_subset_refuted"
   ],
   "note": "False for intervals which are points (counterexample). Proved both ways when the intervals of the first union have positive length; a positive answer is always right. Second model of the class of C76, with rational bounds and real points."
  },
  {
   "property": "C163",
   "status": "partial",
   "theorems": [
    "C163_intersection_partial",
    "C163_intersection_refuted"
   ],
   "note": "False: the loop advances the wrong iterator, and the result misses common intervals (counterexample). Proved: the result has only common points. Second model of the class of C76, with rational bounds and real points."
  },
  {
   "property": "C164",
   "status": "partial",
   "theorems": [
    "C164_measure_partial",
    "C164_measure_refuted",
    "C164_empty_refuted"
   ],
   "note": "False for unions made by conversion (overlaps count twice), and undefined for the empty union. Proved for unions of non-empty intervals made by the other constructors. Second model of the class of C76, with rational bounds and real points."
  },
  {
   "property": "C165",
   "status": "partial",
   "theorems": [
    "C165_bounding_box_partial",
    "C165_bounding_box_refuted"
   ],
   "note": "False if the list has an empty interval (counterexample). Proved for non-empty intervals. Second model of the class of C76, with rational bounds and real points."
  },
  {
   "property": "C166",
   "status": "proved",
   "theorems": [
    "C166_adjoin",
    "C166_remove",
    "C166_clear",
    "C166_is_empty"
   ],
   "note": ""
  },
  {
   "property": "C167",
   "status": "partial",
   "theorems": [
    "C167_restrict_partial",
    "C167_restrict_refuted"
   ],
   "note": "False: locations which the argument does not store are not restricted (counterexample). Proved: exactly those are left alone, the others are intersected."
  },
  {
   "property": "C168",
   "status": "partial",
   "theorems": [
    "C168_overlaps_partial",
    "C168_covers_partial",
    "C168_inside_partial",
    "C168_separated_refuted",
    "C168_separated_any_refuted",
    "C168_missing_refuted",
    "C168_inside_refuted"
   ],
   "note": "separated answers true for every stored location; all three access the end of the map for other locations; inside compares only the first location with cells. Proved: overlaps and covers for stored locations, inside for pavings with cells in one location."
  },
  {
   "property": "C169",
   "status": "partial",
   "theorems": [
    "C169_subset_partial",
    "C169_intersect_partial",
    "C169_subset_refuted"
   ],
   "note": "An assertion fails when the second paving does not store a location of the first (counterexample). Proved: every answer is right."
  },
  {
   "property": "C17",
   "status": "partial",
   "theorems": [
    "C17_error_operations",
    "C17_error_product_defined",
    "C17_expressions",
    "C17_expressions_positive",
    "C17_nan_lost_refuted",
    "C17_pow_partial",
    "C17_pow_refuted",
    "C17_bound_operations",
    "C17_positive_bounds",
    "C17_float_plus_error"
   ],
   "note": "Every operation is an upper bound; expressions too, unless an intermediate result is a NaN (0*inf), which max then loses. Powers with exponent 2^31 or more are cast to a negative exponent."
  },
  {
   "property": "C170",
   "status": "partial",
   "theorems": [
    "C170_adjoin_partial",
    "C170_everywhere_partial",
    "C170_of_list_partial",
    "C170_adjoin_ignored_refuted",
    "C170_adjoin_refuted"
   ],
   "note": "Refuted for a location which already has a set: adjoin is std::map::insert, so the new set is ignored. Proved for new locations, for construction from a set of locations and from a list with different locations."
  },
  {
   "property": "C171",
   "status": "proved",
   "theorems": [
    "C171_overlaps",
    "C171_covers",
    "C171_separated",
    "C171_missing"
   ],
   "note": "The queries on the sets of one location are any which are right."
  },
  {
   "property": "C172",
   "status": "partial",
   "theorems": [
    "C172_inside_partial",
    "C172_inside_complete_partial",
    "C172_inside_missing_refuted",
    "C172_inside_refuted",
    "C172_bounding_box_partial"
   ],
   "note": "Refuted: if the boxes lack a location of the set an assertion fails, also when the set is empty there. Proved otherwise."
  },
  {
   "property": "C173",
   "status": "partial",
   "theorems": [
    "C173_intersection_partial",
    "C173_intersection_any_refuted",
    "C173_intersection_refuted"
   ],
   "note": "Refuted: the assertion of continuous_set fails before has_location is tested, so every location of the bounds has to be constrained. Proved under that condition."
  },
  {
   "property": "C174",
   "status": "proved",
   "theorems": [
    "C174_iterator"
   ],
   "note": "Cells of one location are a list."
  },
  {
   "property": "C175",
   "status": "proved",
   "theorems": [
    "C175_make_space",
    "C175_index",
    "C175_contains",
    "C175_append",
    "C175_adjoin",
    "C175_indices"
   ],
   "note": ""
  },
  {
   "property": "C176",
   "status": "proved",
   "theorems": [
    "C176_named",
    "C176_euclidean",
    "C176_euclidean_coordinates",
    "C176_euclidean_defined",
    "C176_round_trip",
    "C176_reorder",
    "C176_to_labelled"
   ],
   "note": "Intervals are of any type."
  },
  {
   "property": "C177",
   "status": "partial",
   "theorems": [
    "C177_bounds_partial",
    "C177_bounds_weaker_partial",
    "C177_first_bound_refuted",
    "C177_bounded_partial",
    "C177_bounds_refuted"
   ],
   "note": "Refuted: a second bound on a variable of a VariablesBox is ignored. Proved for different variables (which a bounded constraint set checks); no point is lost otherwise."
  },
  {
   "property": "C178",
   "status": "proved",
   "theorems": [
    "C178_set",
    "C178_insert",
    "C178_of_array"
   ],
   "note": ""
  },
  {
   "property": "C179",
   "status": "proved",
   "theorems": [
    "C179_constraint_set",
    "C179_bounded_set"
   ],
   "note": "Whether a constraint holds is any function of its arguments; the indicator is the subject of C46."
  },
  {
   "property": "C18",
   "status": "partial",
   "theorems": [
    "C18_conversions_partial",
    "C18_upper_conversion_refuted",
    "C18_positive_partial",
    "C18_float_div_lower_refuted",
    "C18_positive_lower_quotient_refuted"
   ],
   "note": "UpperBound(F,PR) and UpperBound(Bounds,PR) round down; float / PositiveLowerBound rounds down; PositiveLowerBound / PositiveUpperBound multiplies. The other conversions and quotients are proved."
  },
  {
   "property": "C180",
   "status": "partial",
   "theorems": [
    "C180_equal_partial",
    "C180_equal_defined_partial",
    "C180_equal_complete_partial",
    "C180_equal_refuted"
   ],
   "note": "Refuted: the same variables in another order fail an assertion. Proved otherwise."
  },
  {
   "property": "C181",
   "status": "proved",
   "theorems": [
    "C181_neg_add"
   ],
   "note": "Proved in every precision; sizes which differ fail the assertion."
  },
  {
   "property": "C182",
   "status": "partial",
   "theorems": [
    "C182_bounds_partial",
    "C182_point_partial",
    "C182_refuted"
   ],
   "note": "Finding: with wide bounds the error can be half the true distance (the same fault as for Taylor models, C36); proved within twice the error, and exactly for single floats below half the overflow threshold."
  },
  {
   "property": "C183",
   "status": "partial",
   "theorems": [
    "C183_refuted",
    "C183_nonnegative_partial"
   ],
   "note": "Finding: add_err in model_utilities.hpp adds the lower bound to -x instead of subtracting it, so that the error changes by the constant; adding -4 to the model 3+/-1/4 gives a negative error and an empty range. Proved for nonnegative floats, where the error is only too large."
  },
  {
   "property": "C184",
   "status": "partial",
   "theorems": [
    "C184_refuted",
    "C184_partial"
   ],
   "note": "Finding: misplaced parentheses in the error, mag(a1.value()) is added instead of being multiplied by a2.error(): 1 times 0+/-8 gives 0+/-1. Proved within twice the error if the error of the second factor is at most 1 (the gradient is rounded twice)."
  },
  {
   "property": "C185",
   "status": "proved",
   "theorems": [
    "C185_range",
    "C185_of_affine",
    "C185_of_taylor"
   ],
   "note": "Bounds must be finite, their midpoints must not overflow, and degrees must fit in 16 bits."
  },
  {
   "property": "C186",
   "status": "partial",
   "theorems": [
    "C186_product_refuted",
    "C186_partial"
   ],
   "note": "Finding: the product adds the values and part of the gradient: 2 times 3 is 5 with slope 3. Proved for negation, sum, and sum and product with a constant."
  },
  {
   "property": "C187",
   "status": "proved",
   "theorems": [
    "C187_evaluate",
    "C187_basis",
    "C187_of_function"
   ],
   "note": "for every coefficient type whose operations enclose the real ones"
  },
  {
   "property": "C188",
   "status": "proved",
   "theorems": [
    "C188_linear"
   ],
   "note": "for ordered polynomials, kept ordered"
  },
  {
   "property": "C189",
   "status": "partial",
   "theorems": [
    "C189_refuted",
    "C189_partial"
   ],
   "note": "false: a polynomial whose first index is not 0, such as the coordinate, fails an assertion; true exactly when it has no terms or a constant term"
  },
  {
   "property": "C19",
   "status": "proved",
   "theorems": [
    "C19_invariant",
    "C19_add_is_union",
    "C19_restrict_is_intersection",
    "C19_remove_is_difference",
    "C19_add_cell",
    "C19_add_tree_below_cell",
    "C19_prepend",
    "C19_prepend_defined"
   ],
   "note": ""
  },
  {
   "property": "C190",
   "status": "partial",
   "theorems": [
    "C190_refuted",
    "C190_partial",
    "C190_sqr_partial"
   ],
   "note": "false for the zero polynomial without terms, whose last term is read; true for all other ordered polynomials"
  },
  {
   "property": "C191",
   "status": "proved",
   "theorems": [
    "C191_norm"
   ],
   "note": "uses T_k(cos t)=cos(k t)"
  },
  {
   "property": "C192",
   "status": "partial",
   "theorems": [
    "C192_refuted",
    "C192_partial",
    "C192_basis"
   ],
   "note": "false for the zero polynomial without terms, whose first term is read; true for all other polynomials, in whatever order of terms"
  },
  {
   "property": "C193",
   "status": "proved",
   "theorems": [
    "C193_linear",
    "C193_norm"
   ],
   "note": "for every coefficient type whose operations enclose the real ones"
  },
  {
   "property": "C194",
   "status": "partial",
   "theorems": [
    "C194_refuted",
    "C194_partial"
   ],
   "note": "false: a polynomial whose first term is not constant fails an assertion; true exactly when it has no terms or its first term is constant"
  },
  {
   "property": "C195",
   "status": "partial",
   "theorems": [
    "C195_refuted",
    "C195_sqr_refuted",
    "C195_partial",
    "C195_ordered_partial",
    "C195_sqr_partial"
   ],
   "note": "false: a sum is stored in reverse lexicographic order, but the product takes the degree of the last term of a group for the largest, so (1+x)*(1+x) writes outside the buffer; whenever the product is computed it is correct, and it exists for terms in lexicographic order"
  },
  {
   "property": "C20",
   "status": "proved",
   "theorems": [
    "C20_subset_exact",
    "C20_intersect_exact",
    "C20_has_enabled_exact",
    "C20_all_enabled_exact",
    "C20_cell_enabled_exact",
    "C20_equality_exact",
    "C20_count_exact"
   ],
   "note": ""
  },
  {
   "property": "C21",
   "status": "proved",
   "theorems": [
    "C21_mince_preserves",
    "C21_mince_depth",
    "C21_mince_keeps_deeper_leaves",
    "C21_recombine_preserves",
    "C21_recombine_canonical",
    "C21_recombine_minimal"
   ],
   "note": ""
  },
  {
   "property": "C22",
   "status": "proved",
   "theorems": [
    "C22_round_trip",
    "C22_injective",
    "C22_reader_terminates",
    "C22_reader_in_range",
    "C22_short_leaves_undetected_refuted"
   ],
   "note": "Arrays with too few leaf bits are read out of range (witness)."
  },
  {
   "property": "C23",
   "status": "partial",
   "theorems": [
    "C23_primary_path",
    "C23_primary_nested",
    "C23_primary_exhaust",
    "C23_split_partition",
    "C23_cell_nonempty",
    "C23_smallest_enclosing_partial",
    "C23_inside_means",
    "C23_large_boxes_refuted",
    "C23_corner_overflow",
    "C23_affine_grid",
    "C23_rounded_grid"
   ],
   "note": "Nesting, exhaustion and partition proved for all dimensions, extents, words and monotone grids. The enclosing-cell search is proved correct whenever it returns; for boxes beyond the primary cell of extent 31 the int corners overflow (refuted with a witness)."
  },
  {
   "property": "C24",
   "status": "proved",
   "theorems": [
    "C24_reroot_same_box",
    "C24_raise_to_level",
    "C24_subset_exact",
    "C24_equal_exact",
    "C24_nested_or_disjoint",
    "C24_less_transitive",
    "C24_less_irreflexive",
    "C24_less_total",
    "C24_less_exact"
   ],
   "note": "All cells and extents; grids strictly monotone per coordinate."
  },
  {
   "property": "C25",
   "status": "proved",
   "theorems": [
    "C25_adjoin_cell",
    "C25_cell_constructor"
   ],
   "note": ""
  },
  {
   "property": "C26",
   "status": "proved",
   "theorems": [
    "C26_adjoin",
    "C26_restrict",
    "C26_remove",
    "C26_remove_cell",
    "C26_join",
    "C26_intersection",
    "C26_difference",
    "C26_restrict_to_extent",
    "C26_mince",
    "C26_recombine",
    "C26_branches",
    "C26_mince_exact"
   ],
   "note": "trees are values in the model; the argument is a distinct object (aliasing adjoin(self) not modelled)"
  },
  {
   "property": "C27",
   "status": "partial",
   "theorems": [
    "C27_subset_pavings",
    "C27_subset_partial",
    "C27_intersect",
    "C27_cell_subset",
    "C27_cell_intersect",
    "C27_equal_sound",
    "C27_subset_refuted"
   ],
   "note": "false as stated: an empty sub-paving whose root cell is disjoint from the other root is reported as not a subset (C27_subset_refuted); exact in every other case"
  },
  {
   "property": "C28",
   "status": "proved",
   "theorems": [
    "C28_iteration",
    "C28_cells"
   ],
   "note": ""
  },
  {
   "property": "C29",
   "status": "proved",
   "theorems": [
    "C29_outer_covers_set",
    "C29_outer_exact"
   ],
   "note": "the set is given by sound three-valued tests; bounding box in lattice coordinates"
  },
  {
   "property": "C30",
   "status": "partial",
   "theorems": [
    "C30_inner_sound",
    "C30_inner_complete",
    "C30_lower_overt_sound",
    "C30_lower_overt_complete",
    "C30_lower_open_sound",
    "C30_inner_open_only",
    "C30_lower_open_complete_refuted"
   ],
   "note": "soundness of all three proved; the completeness of the open-set lower approximation fails after a removal (refuted), and inner approximation of a set that is open but not closed adds nothing unless the whole primary cell is covered"
  },
  {
   "property": "C31",
   "status": "partial",
   "theorems": [
    "C31_clone_paving_partial",
    "C31_clone_subpaving_refuted"
   ],
   "note": "false for sub-pavings: clone() calls the (Grid,Bool) constructor with a pointer; proved for pavings"
  },
  {
   "property": "C32",
   "status": "partial",
   "theorems": [
    "C32_product_cell",
    "C32_product_partial",
    "C32_image_partial",
    "C32_product_unequal_refuted",
    "C32_image_refuted"
   ],
   "note": "false as stated: products of cells of unequal depth truncate or read out of range; image() ignores all but the first level of each word"
  },
  {
   "property": "C33",
   "status": "proved",
   "theorems": [
    "C33_total_orders",
    "C33_meaning",
    "C33_addition",
    "C33_subtraction",
    "C33_overflow_refuted"
   ],
   "note": "Total orders without any bound; compatibility with addition when entries (and, for the graded order, degrees) stay below 2^16, as the property says; C33_overflow_refuted shows what happens beyond."
  },
  {
   "property": "C34",
   "status": "proved",
   "theorems": [
    "C34_poly",
    "C34_coef",
    "C34_combine_sorted",
    "C34_remove_zeros",
    "C34_embed",
    "C34_sorted_operations",
    "C34_check",
    "C34_equality"
   ],
   "note": "Any commutative ring; std::sort is a relation (permutation without inversion)."
  },
  {
   "property": "C35",
   "status": "partial",
   "theorems": [
    "C35_horner",
    "C35_power",
    "C35_agree",
    "C35_univariate_partial",
    "C35_univariate_refused",
    "C35_univariate_refuted"
   ],
   "note": "Multivariate Horner and power evaluation proved in full. FINDING: univariate Horner omits the final multiplication by x^(lowest exponent): x evaluates to 1."
  },
  {
   "property": "C36",
   "status": "partial",
   "theorems": [
    "C36_add_sub",
    "C36_neg_scal",
    "C36_bounds_partial",
    "C36_point_partial",
    "C36_bounds_refuted",
    "C36_overflow_refuted"
   ],
   "note": "Addition, subtraction, negation and scaling by a float enclose and keep the order. Refuted for constants given by wide bounds (error can be half the true distance; proved within twice the error) and for floats of at least 2^(emax-1); single floats below that are proved."
  },
  {
   "property": "C37",
   "status": "partial",
   "theorems": [
    "C37_mul_partial",
    "C37_ifma_partial",
    "C37_mul_refuted"
   ],
   "note": "Refuted: the double rounding of fma_err loses enclosure. Proved within twice the stored error for all models without 16-bit index overflow, and exactly when the left factor has at most one term."
  },
  {
   "property": "C38",
   "status": "partial",
   "theorems": [
    "C38_sweep",
    "C38_unique",
    "C38_relative_bounds_partial",
    "C38_bounds_refuted"
   ],
   "note": "Proved for every policy with float coefficients and for relative sweepers with bounds coefficients; refuted for the other sweepers with bounds coefficients, which drop the magnitude."
  },
  {
   "property": "C39",
   "status": "partial",
   "theorems": [
    "C39_norm_radius",
    "C39_range_partial",
    "C39_refines",
    "C39_inconsistent",
    "C39_range_refuted",
    "C39_consistent_refuted"
   ],
   "note": "Range proved when degrees fit in 16 bits and refuted otherwise; norm, radius, refines, inconsistent proved; consistent refuted (rounding)."
  },
  {
   "property": "C40",
   "status": "partial",
   "theorems": [
    "C40_antiderivative",
    "C40_derivative_partial",
    "C40_derivative_refuted"
   ],
   "note": "Antiderivative proved in full. The derivative encloses only the derivative of the polynomial: its error is cleared, so the derivative of an enclosed function is not enclosed (refuted)."
  },
  {
   "property": "C41",
   "status": "partial",
   "theorems": [
    "C41_refinement_partial",
    "C41_refinement_refuted",
    "C41_empty_refuted"
   ],
   "note": "Refuted in general and for two models without terms; proved for constant models with finite coefficient bounds."
  },
  {
   "property": "C42",
   "status": "partial",
   "theorems": [
    "C42_terminates",
    "C42_no_new_variables",
    "C42_simplify_partial",
    "C42_simplify_refuted",
    "C42_predicates_partial",
    "C42_likely_refuted"
   ],
   "note": "Finding: sqrt(sqr(x)) is simplified to x and atan(tan(x)) to x, which changes values for x<0 and outside (-pi/2,pi/2); a conjunction with a LIKELY constant becomes definite. Proved otherwise: termination, no new variables, and value preservation when no square of a negative number meets a square root and no tangent outside the principal range meets an arctangent."
  },
  {
   "property": "C43",
   "status": "partial",
   "theorems": [
    "C43_derivative_partial",
    "C43_derivative_exists_partial",
    "C43_derivative_refuted"
   ],
   "note": "Finding: the derivatives of asin and acos are wrong (1/(1-sqrt(x))), and the derivative of pow(x,0) is undefined at 0. Proved for all other operators: where e and derivative(e,v) are defined, the latter is the partial derivative; and it is defined inside the domain of smoothness."
  },
  {
   "property": "C44",
   "status": "proved",
   "theorems": [
    "C44_substitute",
    "C44_substitute_defined",
    "C44_substitute_list",
    "C44_unmentioned",
    "C44_predicates"
   ],
   "note": "Expressions of Real and predicates; the cross-type substitutions are the identity on the parts modelled."
  },
  {
   "property": "C45",
   "status": "proved",
   "theorems": [
    "C45_constant",
    "C45_affine",
    "C45_polynomial",
    "C45_additive",
    "C45_additive_vector",
    "C45_additive_vector_throws"
   ],
   "note": "Also shown: the vector query throws for abs, max and min because of a derivative it computes and does not use."
  },
  {
   "property": "C46",
   "status": "partial",
   "theorems": [
    "C46_indicator",
    "C46_indicator_exists",
    "C46_negative_partial",
    "C46_negative_refuted"
   ],
   "note": "Finding: indicator(e,NEGATIVE) of a conjunction or disjunction is not the negation of indicator(e,POSITIVE) (min stays min). Proved: the sign of the positive indicator for all predicates; the negative one without connectives."
  },
  {
   "property": "C47",
   "status": "partial",
   "theorems": [
    "C47_formula_partial",
    "C47_vector_partial",
    "C47_scalar_refuted",
    "C47_moved_refuted"
   ],
   "note": "Proved for every algebra, DAG, argument and order of evaluation, for formulae without scalar nodes, and for vectors whose components are distinct nodes (or values intact after a move). Refuted otherwise: Formula::scalar nodes compile to binary instructions reading the wrong list, and two components that are the same node are moved from twice."
  },
  {
   "property": "C48",
   "status": "partial",
   "theorems": [
    "C48_hull_reduce_partial",
    "C48_hull_reduce_vector_partial",
    "C48_returns",
    "C48_sqr_refuted",
    "C48_max_refuted",
    "C48_sin_refuted",
    "C48_pow_refuted",
    "C48_hlf_diverges"
   ],
   "note": "Proved for every enclosing arithmetic, procedure, box and codomain for points whose intermediate values are on the principal branch. Refuted in general: squares and powers lose negative arguments, max and min lose the smaller or larger argument, trigonometric functions lose other branches; nul, hlf and abs never return."
  },
  {
   "property": "C49",
   "status": "partial",
   "theorems": [
    "C49_gradient_partial",
    "C49_asin_refuted",
    "C49_assertion_refuted"
   ],
   "note": "Proved in exact real arithmetic for every procedure, with sharing, at every point of differentiability, except asin/acos (refuted: wrong derivative) and abs/max/min (the code asserts false)."
  },
  {
   "property": "C50",
   "status": "partial",
   "theorems": [
    "C50_abs_refuted",
    "C50_max_min_refuted",
    "C50_abs_partial",
    "C50_mag_mig",
    "C50_max_min_partial"
   ],
   "note": "abs of a negative ball is the ball itself; max and min are exchanged."
  },
  {
   "property": "C51",
   "status": "proved",
   "theorems": [
    "C51_tests",
    "C51_comparisons",
    "C51_conversions"
   ],
   "note": ""
  },
  {
   "property": "C52",
   "status": "partial",
   "theorems": [
    "C52_next_partial",
    "C52_next_value",
    "C52_out_of_bounds",
    "C52_refuted"
   ],
   "note": "FINDING: when the degree increases the increment also executes ++_p[_n], one cell past the array; the index itself is always the right successor."
  },
  {
   "property": "C53",
   "status": "partial",
   "theorems": [
    "C53_evaluate_partial"
   ],
   "note": "Proved when no product of the Horner scheme has a NaN bound; missing: arguments with infinite bounds meeting a zero factor."
  },
  {
   "property": "C54",
   "status": "proved",
   "theorems": [
    "C54_embed_error",
    "C54_discard"
   ],
   "note": "The empty list of discarded variables (undefined behaviour in the source) is not modelled."
  },
  {
   "property": "C55",
   "status": "partial",
   "theorems": [
    "C55_common_subexpressions_partial",
    "C55_common_subexpressions_vector_partial",
    "C55_common_subexpressions_refuted"
   ],
   "note": "Finding: with constants that are not exactly known, pi*x+pi*y becomes pi*x+pi*x. Proved when incomparable constants are recognised as the same."
  },
  {
   "property": "C56",
   "status": "partial",
   "theorems": [
    "C56_opposite_partial",
    "C56_opposite_refuted"
   ],
   "note": "Finding: opposite throws bad_variant_access for every pair of comparisons that could be opposite. Proved: never a wrong true (it never returns true)."
  },
  {
   "property": "C57",
   "status": "partial",
   "theorems": [
    "C57_upper_reach_partial",
    "C57_zero_time_refuted"
   ],
   "note": "Proved for positive evolution times. Refuted for time 0: the initial set is then put in the final sets only, and the reach set is empty."
  },
  {
   "property": "C58",
   "status": "partial",
   "theorems": [
    "C58_schedule_independent",
    "C58_terminates",
    "C58_reconditioning_refuted"
   ],
   "note": "Schedule independence is proved in full. Termination is proved when every step makes progress; refuted otherwise: reconditioning an enclosure whose error stays large re-queues it at the same time for ever."
  },
  {
   "property": "C59",
   "status": "partial",
   "theorems": [
    "C59_final_partial",
    "C59_final_refuted"
   ],
   "note": "Refuted: the last step is not shortened, so final sets are states at some later time. Proved: they are states at one time not before the requested one, and everything up to that time is in the reach set."
  },
  {
   "property": "C60",
   "status": "partial",
   "theorems": [
    "C60_lower_partial",
    "C60_split_refuted"
   ],
   "note": "Proved when the initial enclosure is not split by the initial subdivision; refuted otherwise, since the pieces are all kept in lower semantics."
  },
  {
   "property": "C61",
   "status": "partial",
   "theorems": [
    "C61_map_partial",
    "C61_initial_refuted"
   ],
   "note": "Proved for the iterates from 1 to n. Refuted for iterate 0: the initial set is not put in the reach set."
  },
  {
   "property": "C62",
   "status": "partial",
   "theorems": [
    "C62_chain_reach_flow",
    "C62_chain_reach_map_partial",
    "C62_map_initial_refuted",
    "C62_terminates"
   ],
   "note": "Proved in full for vector fields (any schedule). For iterated maps proved for all iterates but the initial points, and refuted for these: the orbit of a map does not contain its initial set. Termination proved for bounded domains."
  },
  {
   "property": "C63",
   "status": "partial",
   "theorems": [
    "C63_safety_flow_partial",
    "C63_safety_map_partial",
    "C63_unsafe_certified_refuted"
   ],
   "note": "Refuted: inclusion in the safe set is tested before each stage and never after the last one. Proved: a positive certificate's chain reach set contains all reachable states, so the system is safe if that set is included in the safe set."
  },
  {
   "property": "C64",
   "status": "partial",
   "theorems": [
    "C64_upper_reach_flow_partial",
    "C64_upper_reach_map_partial",
    "C64_upper_reach_refuted",
    "C64_upper_reach_evolve_flow",
    "C64_upper_reach_evolve_map"
   ],
   "note": "upper_reach_evolve proved in full. upper_reach refuted for two or more steps: cells reached in the middle of a step are treated as evolved. Proved for at most one step, and when all reached cells are final cells."
  },
  {
   "property": "C65",
   "status": "partial",
   "theorems": [
    "C65_upper_evolve_partial",
    "C65_rounding_refuted"
   ],
   "note": "Refuted: the number of steps is rounded to nearest, so the evolution may go past the requested time (and see C59 for vector fields). Proved for maps when the number of steps is not rounded up."
  },
  {
   "property": "C66",
   "status": "partial",
   "theorems": [
    "C66_rational_arithmetic",
    "C66_rational_division",
    "C66_rational_powers",
    "C66_rational_equality",
    "C66_rational_constructor",
    "C66_rational_order_partial",
    "C66_rational_order_refuted",
    "C66_rational_max_min",
    "C66_rational_rounding"
   ],
   "note": "Everything holds except comparisons with NaN: NaN<x and x<NaN are both true for every x (finding). pow(Rational,INT_MIN) negates INT_MIN and is excluded."
  },
  {
   "property": "C67",
   "status": "partial",
   "theorems": [
    "C67_dyadic_arithmetic_partial",
    "C67_dyadic_addition_refuted",
    "C67_dyadic_order_partial",
    "C67_dyadic_order_refuted",
    "C67_dyadic_max_min",
    "C67_dyadic_powers_partial",
    "C67_dyadic_powers_refuted",
    "C67_dyadic_rounding_partial",
    "C67_dyadic_to_rational",
    "C67_dyadic_from_mpf_refuted",
    "C67_dyadic_copies_partial",
    "C67_dyadic_copies_refuted"
   ],
   "note": "Exact for numbers of at most 4000 bits and exponents up to 4000. Findings: results wider than 65535 bits are truncated; NaN<=x is true; pow(inf,0) is inf; Dyadic(mpf_t) yields 0; assignment to a moved-from Dyadic truncates to 64 bits."
  },
  {
   "property": "C68",
   "status": "partial",
   "theorems": [
    "C68_rational_bounds_partial",
    "C68_rational_bounds_refuted",
    "C68_rational_bounds_comparisons",
    "C68_rational_bounds_sets",
    "C68_dyadic_bounds_partial",
    "C68_dyadic_bounds_refuted",
    "C68_dyadic_ball_partial",
    "C68_dyadic_ball_sets_partial"
   ],
   "note": "Findings: hlf(Bounds<Rational>) swaps the ends; pow(Bounds<Rational>,even) ignores the absolute value it computes; neg(Bounds<Dyadic>) does not swap the ends. Finite entries only; dyadic entries of moderate size; products of dyadic bounds are the same template as for floats and are not repeated."
  },
  {
   "property": "C69",
   "status": "partial",
   "theorems": [
    "C69_decimal_arithmetic",
    "C69_decimal_division",
    "C69_decimal_conversions",
    "C69_decimal_order_partial",
    "C69_decimal_order_refuted",
    "C69_decimal_parse",
    "C69_decimal_print_parse"
   ],
   "note": "Everything holds except that operator<= decides >= and operator> decides < (finding)."
  },
  {
   "property": "C70",
   "status": "partial",
   "theorems": [
    "C70_integer_from_builtin_partial",
    "C70_integer_from_builtin_refuted",
    "C70_integer_get_partial",
    "C70_integer_get_refuted",
    "C70_factorials",
    "C70_binomials_partial",
    "C70_binomials_refuted",
    "C70_integer_print_partial",
    "C70_integer_print_refuted"
   ],
   "note": "Findings: Integer(Int64) is wrong from 2^63-2^32 on, Integer(Int32) for all negative numbers, get<long>() fails on INT64_MAX, bin(uint8_t 31,16) overflows, and printing more than 511 digits overruns a 512-character buffer."
  },
  {
   "property": "C71",
   "status": "partial",
   "theorems": [
    "number_types",
    "C71_interval_relations_partial",
    "C71_membership",
    "C71_positive_answers",
    "C71_interval_relations_refuted",
    "C71_equal_refuted"
   ],
   "note": "Proved for non-empty intervals; sound for empty ones only as far as stated (refuted in general); equal compares the lower ends with <= (refuted)."
  },
  {
   "property": "C72",
   "status": "partial",
   "theorems": [
    "C72_intersection",
    "C72_hull_partial",
    "C72_hull_empty",
    "C72_hull_point",
    "C72_hull_refuted"
   ],
   "note": "Intersection exact; hull smallest for non-empty intervals and with the canonical empty interval; refuted for other empty intervals."
  },
  {
   "property": "C73",
   "status": "proved",
   "theorems": [
    "C73_relations",
    "C73_empty",
    "C73_approximations",
    "C73_operations",
    "C73_represented",
    "C73_refinement"
   ],
   "note": ""
  },
  {
   "property": "C74",
   "status": "partial",
   "theorems": [
    "C74_box_relations_partial",
    "C74_box_interiors",
    "C74_box_membership",
    "C74_box_approximations",
    "C74_box_operations",
    "C74_dimensions",
    "C74_equal_refuted"
   ],
   "note": "Proved for non-empty boxes; equal inherits the comparison of the lower ends with <= (refuted)."
  },
  {
   "property": "C75",
   "status": "partial",
   "theorems": [
    "C75_split_partial",
    "C75_split_widest",
    "C75_float_split",
    "C75_float_split_refuted",
    "C75_vertices_partial",
    "C75_vertices_refuted",
    "C75_products",
    "C75_projection"
   ],
   "note": "Splitting at the float midpoint is right unless it overflows (refuted then); the box without coordinates has no vertex (refuted)."
  },
  {
   "property": "C76",
   "status": "partial",
   "theorems": [
    "C76_normal_form",
    "C76_canonical",
    "C76_measure",
    "C76_join",
    "C76_intersect_partial",
    "C76_subset_partial",
    "C76_intersection_partial",
    "C76_bounding_box",
    "C76_separated_refuted",
    "C76_subset_refuted",
    "C76_intersection_refuted",
    "C76_convert_refuted",
    "C76_measure_empty_refuted"
   ],
   "note": "Construction, join, bounding_box and measure proved; touching intervals are answered separated, subset is incomplete for single points, intersection drops the wrong interval, the converting constructor does not sort, measure of nothing reads out of bounds (all refuted)."
  },
  {
   "property": "C77",
   "status": "partial",
   "theorems": [
    "C77_widen_narrow",
    "C77_widen_domain_partial",
    "C77_widen_domain_refuted"
   ],
   "note": "widen_domain rounds lower ends upwards (refuted); right if they are single-precision numbers."
  },
  {
   "property": "C78",
   "status": "proved",
   "theorems": [
    "C78_inverse"
   ],
   "note": "Bounds with an infinite or NaN end count as the whole line (checked arithmetic); C81_nan_refuted shows what happens otherwise."
  },
  {
   "property": "C79",
   "status": "proved",
   "theorems": [
    "C79_linear_solve",
    "C79_gauss_seidel"
   ],
   "note": "Checked arithmetic, as C78."
  },
  {
   "property": "C80",
   "status": "proved",
   "theorems": [
    "C80_step",
    "C80_unique",
    "ck_sound"
   ],
   "note": "Checked arithmetic, as C78. Existence is proved from an n-dimensional minimisation argument, without Brouwer's theorem."
  },
  {
   "property": "C81",
   "status": "partial",
   "theorems": [
    "C81_zero_partial",
    "C81_newton_unique",
    "C81_outside_refuted",
    "C81_precision_refuted",
    "C81_nan_refuted"
   ],
   "note": "Refuted: the zero may lie outside the box, the result may be wider than the maximum error, and a NaN yields NoSolutionException although there is a zero. The partial theorem says what holds instead."
  },
  {
   "property": "C82",
   "status": "partial",
   "theorems": [
    "C82_solve_all",
    "C82_solve_partial",
    "C82_no_solution_refuted",
    "C82_singular_refuted",
    "C82_unique_refuted",
    "C82_order_refuted"
   ],
   "note": "solve_all is right about what it returns. Refuted for solve: NoSolutionException although there is a zero, an exception which is not a SolverException, a result although there are two zeros; the order of the set of results is not a strict weak order."
  },
  {
   "property": "C83",
   "status": "partial",
   "theorems": [
    "C83_fixed_point_partial",
    "C83_fixed_point_refuted"
   ],
   "note": "What is returned contains a fixed point; NoSolutionException is thrown although there is one (refuted)."
  },
  {
   "property": "C84",
   "status": "partial",
   "theorems": [
    "C84_equality",
    "C84_order",
    "C84_queries",
    "C84_join",
    "C84_restrict_refuted",
    "C84_restrict_partial"
   ],
   "note": "Restriction to fewer variables always fails an assertion; the rest holds in full."
  },
  {
   "property": "C85",
   "status": "partial",
   "theorems": [
    "C85_built",
    "C85_extends",
    "C85_new_mode",
    "C85_new_transition",
    "C85_failed_partial",
    "C85_failed_refuted"
   ],
   "note": "new_transition leaves its guard behind when it throws; everything else holds for every history."
  },
  {
   "property": "C86",
   "status": "partial",
   "theorems": [
    "C86_sort",
    "C86_fails",
    "C86_error_refuted"
   ],
   "note": "It fails exactly for circular equations, but often with a failed assertion instead of AlgebraicLoopError."
  },
  {
   "property": "C87",
   "status": "partial",
   "theorems": [
    "C87_dynamic_function",
    "C87_auxiliary_function",
    "C87_composite_dynamic_function",
    "C87_composite_auxiliary_function",
    "C87_exists_partial",
    "C87_composite_exists_partial",
    "C87_exists_refuted"
   ],
   "note": "The functions are right whenever they exist; chains of auxiliary variables are substituted in the wrong order and fail."
  },
  {
   "property": "C88",
   "status": "partial",
   "theorems": [
    "C88_composite_reset",
    "C88_reset_partial",
    "C88_reset_refuted"
   ],
   "note": "Right for compositions; for a single automaton the results come in the order of the reset, not of the state variables."
  },
  {
   "property": "C89",
   "status": "partial",
   "theorems": [
    "C89_guard",
    "C89_guard_function",
    "C89_invariant_partial",
    "C89_invariant_refuted"
   ],
   "note": "Guards are right; invariant functions are wrong for conjunctions."
  },
  {
   "property": "C90",
   "status": "partial",
   "theorems": [
    "C90_kind",
    "C90_urgent_partial",
    "C90_urgent_refuted"
   ],
   "note": "The first component which gives a kind decides."
  },
  {
   "property": "C91",
   "status": "proved",
   "theorems": [
    "C91_reachability",
    "C91_composite_reachability"
   ],
   "note": "For compositions of components with different discrete variables."
  },
  {
   "property": "C92",
   "status": "proved",
   "theorems": [
    "C92_target",
    "C92_has_mode",
    "C92_events",
    "C92_cache",
    "C92_queries",
    "C92_mode"
   ],
   "note": "For compositions of components with different discrete variables."
  },
  {
   "property": "C93",
   "status": "partial",
   "theorems": [
    "C93_check_mode",
    "C93_composite_check_partial",
    "C93_composite_check_refuted"
   ],
   "note": "Exact for single automata; for compositions the urgency checks need different names of the components."
  },
  {
   "property": "C94",
   "status": "proved",
   "theorems": [
    "C94_crossings"
   ],
   "note": "Every crossing kind, with its crossing or grazing time, is right for all trajectories; events left out stay inactive."
  },
  {
   "property": "C95",
   "status": "partial",
   "theorems": [
    "C95_orbit_covers_partial",
    "C95_final_start_refuted"
   ],
   "note": "Finding: a set starting exactly at the maximum time gives an empty orbit. Proved for runs whose start and jumps are before the maximum time, for all schedules of the workload."
  },
  {
   "property": "C96",
   "status": "proved",
   "theorems": [
    "C96_orbit_entries"
   ],
   "note": "All entries of all orbits, both semantics."
  },
  {
   "property": "C97",
   "status": "partial",
   "theorems": [
    "C97_jumps_partial",
    "C97_jumps_refuted"
   ],
   "note": "Finding: for an urgent guard which decreases during the step, the whole starting set jumps. Proved if the derivative of the guard is nonnegative somewhere in the step; all the other conditions always."
  },
  {
   "property": "C98",
   "status": "partial",
   "theorems": [
    "C98_lower_orbit_partial",
    "C98_lower_orbit_refuted",
    "C98_grazing_refuted"
   ],
   "note": "Findings: lower orbits contain unreachable states, because of decreasing guards, and evolution goes on through an invariant which is grazed. Proved for convex blocking guards, nondecreasing urgent guards, no reconditioning."
  },
  {
   "property": "C99",
   "status": "partial",
   "theorems": [
    "C99_timing_partial",
    "C99_before_final_time_refuted"
   ],
   "note": "Finding: after a creep step the kind BEFORE_FINAL_TIME is set although the final time is straddled. The other claims are proved."
  }
 ]
}
