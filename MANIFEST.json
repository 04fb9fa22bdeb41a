{
 "claims": [
  {
   "property": "C01",
   "status": "proved",
   "theorems": [
    "C01_membership",
    "C01_ends",
    "C01_boundaries",
    "C01_membership_realset"
   ],
   "note": "Membership of every double in every interval and real set."
  },
  {
   "property": "C02",
   "status": "partial",
   "theorems": [
    "C02_isempty_partial",
    "C02_isempty_sound",
    "C02_isempty_refuted",
    "C02_fst",
    "C02_size",
    "C02_size_refuted",
    "C02_fst_realset",
    "C02_isempty_realset_partial"
   ],
   "note": "Exact for bounds below 2^53 in magnitude; emptiness is sound for all bounds. False beyond 2^54 (refuted)."
  },
  {
   "property": "C03",
   "status": "proved",
   "theorems": [
    "C03_intersection",
    "C03_intersection_borders"
   ],
   "note": "Exact for every pair of constructible intervals."
  },
  {
   "property": "C04",
   "status": "partial",
   "theorems": [
    "C04_difference_partial",
    "C04_difference_exact_when_returned",
    "C04_difference_raises",
    "C04_difference_refuted"
   ],
   "note": "Exact when no two bounds are adjacent doubles and bounds are moderate; the situation in which ValueError is raised is characterised exactly; the unguarded claim is refuted."
  },
  {
   "property": "C05",
   "status": "partial",
   "theorems": [
    "C05_union_partial",
    "C05_union_refuted"
   ],
   "note": "Exact for moderate bounds; refuted beyond 2^53 (ValueError)."
  },
  {
   "property": "C06",
   "status": "proved",
   "theorems": [
    "C06_complement"
   ],
   "note": "Exact for every constructible interval (a point at infinity excepted); for real sets see C11_complement_partial."
  },
  {
   "property": "C07",
   "status": "partial",
   "theorems": [
    "C07_intersects_partial",
    "C07_intersects_complete",
    "C07_intersects_refuted",
    "C07_intersects_adjacent_refuted",
    "C07_intersects_realset_partial"
   ],
   "note": "Complete for all bounds; sound for non-empty receiver without adjacent bounds; otherwise refuted."
  },
  {
   "property": "C08",
   "status": "partial",
   "theorems": [
    "C08_contains_interval_partial",
    "C08_contains_proper_partial",
    "C08_contains_interval_refuted",
    "C08_contains_proper_refuted",
    "C08_contains_realset_partial",
    "C08_contains_realset_refuted"
   ],
   "note": "Exact for moderate bounds and non-empty argument; refuted otherwise."
  },
  {
   "property": "C09",
   "status": "partial",
   "theorems": [
    "C09_eq_partial",
    "C09_hash_refuted",
    "C09_eq_refuted",
    "C09_eq_realset_partial"
   ],
   "note": "Equality exact for moderate bounds; hash consistency is refuted."
  },
  {
   "property": "C10",
   "status": "partial",
   "theorems": [
    "C10_simplify_partial",
    "C10_simplify_receiver_partial",
    "C10_simplify_refuted",
    "C10_receiver_mutated"
   ],
   "note": "Exact and canonical for ascending or left-closed inputs without adjacent bounds; element loss is refuted with a witness elsewhere."
  },
  {
   "property": "C11",
   "status": "partial",
   "theorems": [
    "C11_union_partial",
    "C11_intersection_partial",
    "C11_difference_partial",
    "C11_complement_partial",
    "C11_union_refuted"
   ],
   "note": "Same guards as C10; element loss in union refuted with a witness."
  },
  {
   "property": "C12",
   "status": "partial",
   "theorems": [
    "C12_chop_partial",
    "C12_chop_refuted"
   ],
   "note": "All intervals with moderate bounds, all finite points except -FLT_MAX, for which an empty piece is produced (refuted)."
  },
  {
   "property": "C13",
   "status": "proved",
   "theorems": [
    "C13_xmirror",
    "C13_xmirror_involutive",
    "C13_xmirror_realset",
    "C13_xmirror_realset_sorted"
   ],
   "note": "All intervals and real sets."
  },
  {
   "property": "C14",
   "status": "partial",
   "theorems": [
    "C14_comparator_partial",
    "C14_comparator_order",
    "C14_comparator_refuted"
   ],
   "note": "Moderate bounds; refuted beyond 2^54."
  },
  {
   "property": "C15",
   "status": "partial",
   "theorems": [
    "C15_json_interval",
    "C15_json_realset_refuted"
   ],
   "note": "Intervals round-trip; the RealSet round trip always fails (refuted for every real set)."
  },
  {
   "property": "C16",
   "status": "partial",
   "theorems": [
    "C16_add_pointwise",
    "C16_mul_pointwise",
    "C16_add_total",
    "C16_mul_total",
    "C16_negate",
    "C16_commutative",
    "C16_quadratic_order_refuted",
    "C16_undefined_order_refuted",
    "C16_inplace_refuted",
    "C16_quadratic_product_refuted",
    "C16_eq_sound"
   ],
   "note": "Pointwise whenever the operation succeeds, total for constant/linear operands, commutative where both orders succeed. Refuted in general: whether an operation raises depends on operand order (Quadratic+Linear vs Linear+Quadratic, Undefined+Linear vs Linear+Undefined), += can raise where + does not. Exact rational coefficients (no rounding)."
  },
  {
   "property": "C17",
   "status": "proved",
   "theorems": [
    "C17_from_points",
    "C17_from_points_raises",
    "C17_root",
    "C17_invert",
    "C17_quadratic_from_points",
    "C17_intersection",
    "C17_intersects_refuted",
    "C17_derivative",
    "C17_argvertex"
   ],
   "note": "Exact rational coefficients (no rounding). A finding on intersects() of identical lines is recorded as C17_intersects_refuted."
  },
  {
   "property": "C18",
   "status": "partial",
   "theorems": [
    "C18_add_function",
    "C18_mul_function",
    "C18_add_function_total",
    "C18_mul_function_total",
    "C18_stretch",
    "C18_gap_refuted",
    "C18_undefined_refuted"
   ],
   "note": "Adding/multiplying/stretching a piecewise function by a constant or linear function is proved pointwise and total; the sum of two piecewise functions raises TypeError in the cases of C18_gap_refuted and C18_undefined_refuted."
  },
  {
   "property": "C19",
   "status": "partial",
   "theorems": [
    "C19_xmirror",
    "C19_xmirror_total",
    "C19_xshift",
    "C19_xshift_integral",
    "C19_xmirror_integral_refuted"
   ],
   "note": "Values of mirrored and shifted functions proved at every double (shift: when the subtraction of the bounds is exact); integral preserved by shifting; integral preservation by mirroring is false (C19_xmirror_integral_refuted)."
  },
  {
   "property": "C20",
   "status": "proved",
   "theorems": [
    "C20_integral_additive",
    "C20_trapezoid",
    "C20_order_raises",
    "C20_fundamental"
   ],
   "note": "For half-open constant/linear pieces, exact rational arithmetic."
  },
  {
   "property": "C21",
   "status": "proved",
   "theorems": [
    "C21_fit_proper",
    "C21_fit_extended",
    "C21_fit_quantiles",
    "C21_fit_empty"
   ],
   "note": "Exact arithmetic for cdf values; every non-empty sample of finite doubles, every tolerance, with and without additional end points."
  },
  {
   "property": "C22",
   "status": "proved",
   "theorems": [
    "C22_support_points",
    "C22_best_split"
   ],
   "note": "Exact arithmetic; also the optimality of each split."
  },
  {
   "property": "C23",
   "status": "partial",
   "theorems": [
    "C23_difference",
    "C23_range",
    "C23_total",
    "C23_monotone",
    "C23_empty",
    "C23_additive_partial",
    "C23_set",
    "C23_fitted",
    "C23_point",
    "C23_additive_refuted",
    "C23_point_refuted",
    "C23_repeated_minimum"
   ],
   "note": "Difference formula and additivity for cdfs without a jump, i.e. fitted to samples whose minimum occurs once; range, total mass and monotonicity for all fitted non-point distributions; point distributions below 2^53. With a repeated minimum the difference formula still holds for every interval that does not end at the minimum (C23_repeated_minimum). Additivity is refuted for samples with a repeated minimum."
  },
  {
   "property": "C24",
   "status": "partial",
   "theorems": [
    "C24_crop_partial",
    "C24_unsat_outside",
    "C24_unsat_sound",
    "C24_fitted",
    "C24_zero_refuted",
    "C24_jump_refuted",
    "C24_beyond_refuted",
    "C24_point_refuted",
    "C24_union_refuted",
    "C24_receiver_changed_refuted",
    "C24_points_refuted",
    "C24_point",
    "C24_point_moved_refuted"
   ],
   "note": "crop of an interval proved for cdfs that are continuous inside the interval, when each cut piece keeps at least two doubles and the interval has positive probability between its first and last double; fitted distributions meet this inside the range of the samples (C24_fitted). Refuted in general: intervals of probability 0 touching the support are not refused, jumps inside the interval are scaled wrongly, restrictions beyond the largest sample give cdf values above 1, points are never refused, unions get equal weights. Cropping to a point changes the receiver itself (C24_receiver_changed_refuted), so that the restriction to two points keeps only the second (C24_points_refuted). A distribution in one point keeps its point if the interval begins below it (C24_point); at the closed lower bound it is moved to the upper bound, or refused with AssertionError for a ray (C24_point_moved_refuted)."
  },
  {
   "property": "C25",
   "status": "partial",
   "theorems": [
    "C25_mixture_partial",
    "C25_closed",
    "C25_jumps_lost",
    "C25_weights",
    "C25_fitted",
    "C25_jump_refuted",
    "C25_density_refuted",
    "C25_density_partial"
   ],
   "note": "Proved for any number of continuous cdfs and point distributions with weights that sum to 1, when no density of the mixture is in (0, 1e-8]: merged(x) = sum w_i F_i(x) for every x and the result is proper; closed under merging; the density of the result is the mixture of the densities; the exact loss for cdfs with jumps and the place where the merged cdf reaches 1. Refuted in general: jumps of non-point cdfs (repeated smallest sample) are dropped, densities of 1e-8 or less are dropped."
  },
  {
   "property": "C26",
   "status": "partial",
   "theorems": [
    "C26_inverse_partial",
    "C26_fitted",
    "C26_point_partial",
    "C26_flat_refuted",
    "C26_flat_value_refuted",
    "C26_jump_refuted"
   ],
   "note": "Proved for every cdf of any number of pieces that rises continuously to 1 with slopes of at least 1e-4 (the code's threshold for an invertible function): cdf(ppf(y)) = y for 0 <= y <= 1, ppf(cdf(x)) = x on rising stretches, undefined outside [0,1]. C26_fitted: distributions fitted to samples with a unique minimum meet the continuity hypothesis. The full claim is refuted for flatter slopes (no quantile function, or a wrong one) and for a jump at the minimum (quantiles below the support); a point distribution has no quantile below 1. Probabilities are rationals in the model, not doubles."
  },
  {
   "property": "C27",
   "status": "proved",
   "theorems": [
    "C27_probability_of_label_event",
    "C27_unknown_labels_rejected",
    "C27_fitted_is_a_measure",
    "C27_measure_laws"
   ],
   "note": "Fitting on labelled data gives relative frequencies and a probability measure; p() of label collections (with duplicates) is exact for symbolic and integer types; unknown labels raise."
  },
  {
   "property": "C28",
   "status": "partial",
   "theorems": [
    "C28_crop_conditions_partial",
    "C28_integer_crop_conditions",
    "C28_crop_leaves_receiver",
    "C28_unknown_labels_rejected",
    "C28_single_label_refuted",
    "C28_single_label_partial"
   ],
   "note": "Proved for integer types and for collections of labels of symbolic types, including that no other object changes. False for a bare label of probability zero of a symbolic type (C28_single_label_refuted)."
  },
  {
   "property": "C29",
   "status": "proved",
   "theorems": [
    "C29_merge_is_the_mixture",
    "C29_merge_defined",
    "C29_bad_weights_rejected",
    "C29_surplus_weights_refuted",
    "C29_update_is_the_mixture",
    "C29_update_changes_only_the_receiver",
    "C29_self_update_refuted"
   ],
   "note": "merge and update; the sum of the result is the sum of the weights, which is within 1e-10 of 1. Surplus weights and self-update are refuted corner cases."
  },
  {
   "property": "C30",
   "status": "partial",
   "theorems": [
    "C30_k_mpe_levels_partial",
    "C30_k_mpe_prefix",
    "C30_mpe_is_the_maximum",
    "C30_covers_every_state_refuted"
   ],
   "note": "Everything but coverage of zero-probability states, which is refuted."
  },
  {
   "property": "C31",
   "status": "proved",
   "theorems": [
    "C31_symbolic_type",
    "C31_single_bijection",
    "C31_collection_bijection",
    "C31_labels_accepted_iff_known",
    "C31_integer_labels",
    "C31_integer_type_rejects"
   ],
   "note": "Single labels and collections, symbolic and integer types."
  },
  {
   "property": "C32",
   "status": "proved",
   "theorems": [
    "C32_sum_convolves",
    "C32_sum_is_proper",
    "C32_expectation_adds"
   ],
   "note": "Convolution, normalisation and additivity of the expectation for all ranges."
  },
  {
   "property": "C33",
   "status": "proved",
   "theorems": [
    "C33_scale",
    "C33_round_trip",
    "C33_proxy_round_trip",
    "C33_special",
    "C33_standardised",
    "C33_monotone",
    "C33_numeric_type",
    "C33_json",
    "C33_empty_refuted"
   ],
   "note": "Over the real numbers of the standard library (its three axioms); an empty data column is refuted (all results undefined), hence the quantifier."
  },
  {
   "property": "C34",
   "status": "partial",
   "theorems": [
    "C34_batch_partial",
    "C34_continue_partial",
    "C34_retract_partial",
    "C34_unweighted",
    "C34_precision_refuted",
    "C34_retract_last_refuted",
    "C34_retract_stuck_refuted",
    "C34_estimate_refuted"
   ],
   "note": "Mean and covariance after any history of weighted updates equal the batch values (exact rationals); retract undoes update for all but the last remaining sample, where it raises or leaves an unusable state (refuted); precision and re-estimation are refuted."
  },
  {
   "property": "C35",
   "status": "partial",
   "theorems": [
    "C35_learn_partial",
    "C35_no_rows",
    "C35_postprocess",
    "C35_adjacent_refuted",
    "C35_learn_mixed_partial"
   ],
   "note": "Proved for every family of leaf distributions, all data, all settings: termination, tree shape, exactly one leaf per row, counts, priors, fitted rows. Missing: numeric columns whose computed midpoint coincides with the smaller value (adjacent doubles), where the claim is false (C35_adjacent_refuted). C35_learn_mixed_partial: for tables with numeric, symbolic and integer columns learning returns a tree whose leaves are fitted to their rows and to which the theorems on trees with numeric variables apply (without close_convex_gaps)."
  },
  {
   "property": "C36",
   "status": "partial",
   "theorems": [
    "C36_max_depth_partial",
    "C36_max_depth_zero_refuted",
    "C36_hyperparameters_partial",
    "C36_min_samples_limit",
    "C36_min_samples_refuted"
   ],
   "note": "max_depth >= 1, min_samples_leaf, min_impurity_improvement and greedy optimality proved under the hypotheses of C54. False without them: max_depth=0 means unlimited, min_samples_leaf violated for symbolic features without symbolic targets (refutations). max_leaves is never read by the code."
  },
  {
   "property": "C37",
   "status": "partial",
   "theorems": [
    "C37_encode_any",
    "C37_encode_partial",
    "C37_learnt_discrete",
    "C37_boundary_refuted",
    "C37_learnt_mixed_partial"
   ],
   "note": "Proved for every tree whose splits partition the domain and for every tree learnt from symbolic and integer columns (C37_learnt_discrete). False for numeric splits at the boundary: C37_boundary_refuted. C37_learnt_mixed_partial: for trees learnt from tables with numeric columns, every world whose numeric values are off the split points."
  },
  {
   "property": "C38",
   "status": "proved",
   "theorems": [
    "C38_apply",
    "C38_apply_discrete",
    "C38_unknown_variable"
   ],
   "note": "For every tree shape and every family of value sets; read in terms of values for symbolic and integer variables; unknown variables raise."
  },
  {
   "property": "C39",
   "status": "partial",
   "theorems": [
    "C39_infer_partial",
    "C39_infer_shared",
    "C39_infer_empty",
    "C39_infer_any",
    "C39_infer_same_refuted",
    "C39_infer_mixed_partial",
    "C39_infer_fitted_partial",
    "C39_learnt_mixed_partial",
    "C39_infer_union_partial",
    "C39_infer_split"
   ],
   "note": "For symbolic and integer variables and every query/evidence over distinct variables: conditional probability over worlds, in [0,1], unsatisfiable exactly if P(e)=0. For shared variables the claim is false (C39_infer_same_refuted); what is computed instead is C39_infer_shared. C39_infer_any covers every leaf distribution family with the stated contract. C39_infer_mixed_partial and C39_infer_fitted_partial prove it for trees over numeric, symbolic and integer variables together; the numeric events are intervals whose bounds (with those of the splits) are not neighbouring doubles and at which no cdf jumps. C39_infer_union_partial: the same for unions of such intervals (in ascending order) as query or evidence; C39_infer_split: splitting an interval into a union does not change the answer. C39_learnt_mixed_partial: the same for every tree learnt from a table with numeric columns."
  },
  {
   "property": "C40",
   "status": "partial",
   "theorems": [
    "C40_posterior_partial",
    "C40_posterior_infer",
    "C40_posterior_refuted",
    "C40_posterior_mixed_partial",
    "C40_posterior_cdf_infer",
    "C40_posterior_jumps",
    "C40_posterior_restricted_partial",
    "C40_posterior_fitted_refuted"
   ],
   "note": "Proved for all variables without evidence and for evidence variables on the paths of the contributing leaves; otherwise false (C40_posterior_refuted). Numeric variables in mixed trees: posterior cdf = weighted average of the leaf cdfs and = infer of (-inf, x] when the leaf cdfs are continuous, also with interval evidence on the asked variable if it is on the path; for leaf cdfs with jumps the exact loss; on a fitted tree the posterior contradicts infer (C40_posterior_fitted_refuted)."
  },
  {
   "property": "C41",
   "status": "partial",
   "theorems": [
    "C41_conditional_partial",
    "C41_conditional_infer",
    "C41_twice_refuted",
    "C41_conditional_mixed_partial",
    "C41_narrowed_exists"
   ],
   "note": "Proved for trees whose decision nodes have two children (all learnt trees), all queries and evidence including shared variables. False for trees with one-child nodes, i.e. for conditioning twice (C41_twice_refuted). Trees with numeric variables (C41_conditional_mixed_partial): leaves, measure, inference and variable distributions for evidence in intervals which every possible leaf distribution can be restricted to exactly (continuous cdf or point above the lower bound), densities 0 or above 1e-8."
  },
  {
   "property": "C42",
   "status": "partial",
   "theorems": [
    "C42_expectation_partial",
    "C42_moment_partial",
    "C42_linear",
    "C42_mixed_partial",
    "C42_points_refuted"
   ],
   "note": "Symbolic and integer variables, under the side condition of C40 for evidence variables (C42_expectation_partial, C42_moment_partial); numeric variables without evidence whose leaf distributions are continuous with piece ends that are no neighbouring doubles (C42_mixed_partial). A leaf in which the variable always has the same value adds 0 instead of the value: C42_points_refuted."
  },
  {
   "property": "C43",
   "status": "partial",
   "theorems": [
    "C43_mpe_partial",
    "C43_mixed_partial"
   ],
   "note": "Trees whose decision nodes have two children: symbolic and integer variables (C43_mpe_partial); numeric variables whose leaf distributions are continuous with piece ends that are no neighbouring doubles, or points (C43_mixed_partial), except for the largest number of an interval in the evidence."
  },
  {
   "property": "C44",
   "status": "partial",
   "theorems": [
    "C44_solver_partial",
    "C44_kmpe_complete_partial",
    "C44_kmpe_single_partial",
    "C44_two_symbolic_refuted",
    "C44_symbolic_order_refuted",
    "C44_repeated_refuted",
    "C44_leaves_order_refuted"
   ],
   "note": "Branch-and-bound proved to terminate and to enumerate every combination once, in order, when at most the variable examined last is symbolic and its states are single values; over several leaves completeness is proved. Refuted: two symbolic variables (never terminates), states with several values (order), symbolic before numeric (repetitions), several leaves (order). Costs are exact."
  },
  {
   "property": "C45",
   "status": "partial",
   "theorems": [
    "C45_prune_partial",
    "C45_one_child_refuted",
    "C45_single_variable"
   ],
   "note": "Symbolic and integer variables, without the approximate option: termination, total prior, sample counts, all single-variable marginals, and no mergeable siblings remain. Requires two children per decision node (one-child nodes raise: C45_one_child_refuted)."
  },
  {
   "property": "C46",
   "status": "partial",
   "theorems": [
    "C46_json_partial",
    "C46_copy",
    "C46_equal",
    "C46_copy_equal",
    "C46_known",
    "C46_default_dependencies",
    "C46_learnt",
    "C46_conditioned",
    "C46_pruned",
    "C46_discrete",
    "C46_discrete_equal",
    "C46_settings_refuted",
    "C46_targets_refuted",
    "C46_mixed",
    "C46_mixed_learnt",
    "C46_mixed_equal",
    "C46_subclass_refuted"
   ],
   "note": "Reading what was written gives back all nodes, paths, priors, distributions, hyperparameters, dependencies and minimal distances for every writable tree (C46_json_partial); a copy also has the same variables (C46_copy). Which trees equal their image is characterised exactly (C46_equal, C46_copy_equal, C46_known, C46_default_dependencies). Learnt, conditioned and pruned trees are listed in the order reading needs (C46_learnt, C46_conditioned, C46_pruned), and trees over symbolic and integer variables are writable (C46_discrete, C46_discrete_equal). Missing because false: settings are lost (C46_settings_refuted) and trees with targets differ from their image and copy (C46_targets_refuted). Trees over numeric, symbolic and integer variables are writable (C46_mixed), every tree learnt from such a table is read back and copied with the same nodes and distributions (C46_mixed_learnt), and equality is characterised exactly (C46_mixed_equal); a numeric variable whose domain is a subclass of Numeric changes (C46_subclass_refuted)."
  },
  {
   "property": "C47",
   "status": "proved",
   "theorems": [
    "C47_history",
    "C47_errors",
    "C47_constructor",
    "C47_made",
    "C47_subtract_self",
    "C47_copy",
    "C47_deepcopy",
    "C47_json",
    "C47_delete_forgets_refuted",
    "C47_json_declared_refuted",
    "C47_deepcopy_refuted"
   ],
   "note": "every history of set, delete, update, += and -= on a fresh map: look-ups, membership, iteration order and exactly when operations raise; copies and JSON as well. Refuted: deleting makes a declared name unknown, JSON loses declared variables without a value, deep copies lose other kinds of values."
  },
  {
   "property": "C48",
   "status": "partial",
   "theorems": [
    "C48_normalized_raises",
    "C48_normalized",
    "C48_normalized_sum",
    "C48_normalized_zeros",
    "C48_int_array_refuted"
   ],
   "note": "Lists and float arrays: proved for all inputs (signs, zero replacement, exact raising conditions). For numpy integer arrays the claim is false (C48_int_array_refuted)."
  },
  {
   "property": "C49",
   "status": "proved",
   "theorems": [
    "C49_sort"
   ],
   "note": "introsort/heapsort for every depth bound, array and n."
  },
  {
   "property": "C50",
   "status": "proved",
   "theorems": [
    "C50_bisect",
    "C50_bisect_safe",
    "C50_bisect_empty_refuted"
   ],
   "note": "All non-empty arrays; the empty array is out of contract (C50_bisect_empty_refuted)."
  },
  {
   "property": "C51",
   "status": "proved",
   "theorems": [
    "C51_heap",
    "C51_delitem_refuted"
   ],
   "note": "Every history of pushes and pops, for any heapq meeting its documentation (instance given). __delitem__ breaks the order (C51_delitem_refuted)."
  },
  {
   "property": "C52",
   "status": "partial",
   "theorems": [
    "C52_roulette",
    "C52_roulette_range",
    "C52_roulette_zero_refuted"
   ],
   "note": "All 0 < x <= total; at x = 0 an element of weight zero is selected (refuted)."
  },
  {
   "property": "C53",
   "status": "partial",
   "theorems": [
    "C53_block_totals",
    "C53_running_statistics",
    "C53_population_variance",
    "C53_gini",
    "C53_gini_range",
    "C53_symbol_counts",
    "C53_gini_range_refuted"
   ],
   "note": "Totals, running left/right sums and histograms, population variance and Gini value proved for all data; Gini range proved when symbols are below the listed domain size, which holds when every symbolic variable is a target (C53_symbol_counts) and is refuted otherwise (C53_gini_range_refuted). Exact rationals instead of doubles."
  },
  {
   "property": "C54",
   "status": "partial",
   "theorems": [
    "C54_best_split_partial",
    "C54_default_configuration",
    "C54_improvement_range_partial",
    "C54_improvement_range_refuted",
    "C54_inverted_refuted",
    "C54_sample_count_refuted",
    "C54_sparse_dependencies_refuted"
   ],
   "note": "Optimality, legality and exactness of the reported split proved for all data and blocks under full (default) dependencies and a symbolic target whenever there is a symbolic feature; refuted without the latter (C54_sample_count_refuted) and for sparse dependencies. Improvement >= 0, and <= 1 with at most one varying numeric target; refuted in general (3/2 reached; negative with inverted impurity)."
  },
  {
   "property": "C55",
   "status": "partial",
   "theorems": [
    "C55_likelihood",
    "C55_pdf_partial",
    "C55_pdf_refuted",
    "C55_likelihood_mixed"
   ],
   "note": "likelihood() proved, also for trees with numeric variables (slope of the cdf, 1 at the point of a point distribution); pdf() agrees if labels equal values, otherwise it raises or differs (C55_pdf_refuted)."
  },
  {
   "property": "C56",
   "status": "partial",
   "theorems": [
    "C56_jaccard_categorical",
    "C56_jaccard_categorical_symmetric",
    "C56_numeric_partial",
    "C56_numeric_symmetric_partial",
    "C56_points_refuted",
    "C56_learnt_partial",
    "C56_integer_ranges_refuted"
   ],
   "note": "Categorical, integer and numeric distributions. Integer: compared position by position, right only for the same range (C56_integer_ranges_refuted). Numeric: distributions with densities, piece ends below 2^53, and the computed centre of every slice inside the slice; for two single values whose doubles have odd mantissas the result is NaN instead of 0 (C56_points_refuted). C56_learnt_partial applies it to learnt distributions."
  },
  {
   "property": "C57",
   "status": "partial",
   "theorems": [
    "C57_transitions",
    "C57_refit_refuted",
    "C57_refit_partial",
    "C57_grounding",
    "C57_alignment_partial",
    "C57_alignment_refuted",
    "C57_prior_twice_refuted",
    "C57_impossible_leaf_refuted",
    "C57_leaf_order_refuted"
   ],
   "note": "Transition model proved for all data. Alignment proved up to ten steps with ascending leaf numbers (C57_alignment_partial); from eleven steps on it is false for every input (C57_alignment_refuted). Also refuted: leaf priors are counted twice, impossible leaves keep weight, marginals are paired with sorted instead of inserted leaf numbers, refitting keeps stale leaves. Belief propagation itself is an oracle."
  },
  {
   "property": "C58",
   "status": "partial",
   "theorems": [
    "C58_interval_sample",
    "C58_any_point",
    "C58_realset_sample_partial",
    "C58_realset_sample_refuted",
    "C58_categorical_sample_partial",
    "C58_categorical_sample_refuted",
    "C58_numeric_partial",
    "C58_numeric_point",
    "C58_numeric_jump_refuted",
    "C58_numeric_close_refuted"
   ],
   "note": "Intervals, real sets and categorical distributions (for u > 0; u = 0 refuted). Numeric distributions: for continuous cdfs whose last piece exceeds 1 by at most 2^-26 the pieces are chosen with exactly their probabilities and every sample has positive density (C58_numeric_partial); single values (C58_numeric_point). Refuted: sampling raises ValueError if the least sample occurs twice (C58_numeric_jump_refuted) or samples are very close (C58_numeric_close_refuted)."
  },
  {
   "property": "C59",
   "status": "partial",
   "theorems": [
    "C59_equivalence_same_size_partial",
    "C59_equivalence_refuted"
   ],
   "note": "Same-size domains; refuted for domains of different size (prefix comparison)."
  },
  {
   "property": "C60",
   "status": "proved",
   "theorems": [
    "C60_variance",
    "C60_expectation"
   ],
   "note": "All integer distributions, exact arithmetic."
  },
  {
   "property": "C61",
   "status": "proved",
   "theorems": [
    "C61_divergence",
    "C61_divergence_separates"
   ],
   "note": "All probability vectors, exact arithmetic."
  },
  {
   "property": "C62",
   "status": "partial",
   "theorems": [
    "C62_linspace_partial",
    "C62_single_sample_refuted"
   ],
   "note": "All n except n = 1, where the claim is refuted."
  },
  {
   "property": "C63",
   "status": "proved",
   "theorems": [
    "C63_list2intset"
   ],
   "note": ""
  },
  {
   "property": "C64",
   "status": "proved",
   "theorems": [
    "C64_crop",
    "C64_split",
    "C64_split_raises"
   ],
   "note": ""
  },
  {
   "property": "C65",
   "status": "proved",
   "theorems": [
    "C65_from_points",
    "C65_from_points_domain"
   ],
   "note": "Abscissae below 2^53 in magnitude (beyond, the closing of the last piece has no effect)."
  },
  {
   "property": "C66",
   "status": "partial",
   "theorems": [
    "C66_simplify",
    "C66_simplify_sound",
    "C66_receiver_refuted"
   ],
   "note": "Result equal and minimal, for ascending non-empty pieces; \"f is left unchanged\" is false (C66_receiver_refuted)."
  },
  {
   "property": "C67",
   "status": "partial",
   "theorems": [
    "C67_eq_partial",
    "C67_eq_refuted"
   ],
   "note": "Holds for equal numbers of pieces; false otherwise (C67_eq_refuted): only the common prefix is compared."
  },
  {
   "property": "C68",
   "status": "proved",
   "theorems": [
    "C68_normalize",
    "C68_multiply_by_leaf_prior"
   ],
   "note": "normalize() and multiply_by_leaf_prior() on trees over symbolic and integer variables."
  },
  {
   "property": "C69",
   "status": "proved",
   "theorems": [
    "C69_marginals",
    "C69_leaf_frequencies",
    "C69_mixed_marginals_partial"
   ],
   "note": "Symbolic and integer columns, exact arithmetic. For tables that also have numeric columns C69_mixed_marginals_partial: marginals of symbolic and integer variables are relative frequencies, those of numeric variables the mixture of the fitted leaf cdfs weighted by row shares."
  },
  {
   "property": "C70",
   "status": "partial",
   "theorems": [
    "C70_precision_refuted"
   ],
   "note": "Refuted: a stretch that no single split improves is kept."
  },
  {
   "property": "C71",
   "status": "proved",
   "theorems": [
    "C71_rectify",
    "C71_rectify_unbounded"
   ],
   "note": ""
  },
  {
   "property": "C72",
   "status": "partial",
   "theorems": [
    "C72_update_partial",
    "C72_update_refuted"
   ],
   "note": "The code merges with weights 1/(1+w) and w/(1+w) (proved); with 1-w and w it is refuted."
  },
  {
   "property": "C73",
   "status": "partial",
   "theorems": [
    "C73_variable_json_partial",
    "C73_variable_json_equal",
    "C73_settings",
    "C73_setting_values",
    "C73_toplevel_settings",
    "C73_settings_lost_refuted"
   ],
   "note": "kind, name and domain survive; settings are always reset to the defaults, so equality holds exactly for default settings (refuted otherwise)."
  },
  {
   "property": "C74",
   "status": "partial",
   "theorems": [
    "C74_label_set",
    "C74_label_assignment_partial",
    "C74_value_assignment_partial",
    "C74_by_name_refuted",
    "C74_value_set_refuted",
    "C74_same_name_refuted"
   ],
   "note": "proved when entries are set by variable and variables have distinct names; refuted: setting by name is unchecked, value assignments do not check sets, a second variable of the same name."
  },
  {
   "property": "C75",
   "status": "partial",
   "theorems": [
    "C75_affine_partial",
    "C75_add",
    "C75_update_after_refuted"
   ],
   "note": "Exact for the reported mean and covariance; the result forgets its weights so that later updates are wrong (refuted)."
  },
  {
   "property": "C76",
   "status": "partial",
   "theorems": [
    "C76_linreg_partial",
    "C76_errors",
    "C76_small_refuted"
   ],
   "note": "Minimality proved for variances not below the code's threshold; below 1e-8 a perfect fit is reported (refuted)."
  },
  {
   "property": "C77",
   "status": "partial",
   "theorems": [
    "C77_pickle_refuted",
    "C77_json_partial",
    "C77_type",
    "C77_numeric_json_partial",
    "C77_numeric_made",
    "C77_numeric_pickle_refuted",
    "C77_numeric_type_partial",
    "C77_subclass_refuted"
   ],
   "note": "Types and the parameters of symbolic and integer distributions survive their own JSON (C77_type, C77_json_partial), and so do numeric distributions with constant and linear pieces, which all distributions the library makes have (C77_numeric_json_partial, C77_numeric_made). Numeric types survive exactly if they are Numeric or have a scaler (C77_numeric_type_partial, C77_subclass_refuted). Pickling or deep copying any distribution fails (C77_pickle_refuted, C77_numeric_pickle_refuted)."
  },
  {
   "property": "C78",
   "status": "partial",
   "theorems": [
    "C78_discrete",
    "C78_sequences_partial",
    "C78_other_variables",
    "C78_point_spoils",
    "C78_queries_change_the_model_refuted",
    "C78_expectation_moment_refuted"
   ],
   "note": "Proved for all sequences of queries on symbolic/integer trees (C78_discrete) and on trees with numeric variables as long as no evidence for a variable that is asked for meets the path of a leaf in a single double (C78_sequences_partial, C78_other_variables). Refuted in general: posterior with point evidence replaces the distribution in the leaf by a Dirac impulse (C78_point_spoils, C78_queries_change_the_model_refuted). mpe, k_mpe and sampling are not among the calls."
  },
  {
   "property": "C79",
   "status": "partial",
   "theorems": [
    "C79_moment_partial",
    "C79_continuous",
    "C79_integral_unique",
    "C79_mean_between",
    "C79_variance",
    "C79_fitted",
    "C79_point",
    "C79_point_center_refuted",
    "C79_jump_refuted",
    "C79_neighbours_refuted"
   ],
   "note": "Proved for every cdf (any number of pieces) that rises continuously to 1 and has no rising piece of a single double: each moment is the Riemann-Stieltjes integral (between all lower and upper sums), exactly for continuous cdfs (C79_continuous), otherwise up to the mass the last piece puts beyond the largest sample (C79_moment_partial); the sums determine the integral (C79_integral_unique); the mean lies in the support (C79_mean_between), the variance is not negative (C79_variance). C79_fitted: fitted distributions meet the hypotheses if the least sample occurs once and no two samples are neighbouring doubles. Refuted otherwise: a jump at the minimum loses mass, so that the expectation of 1, 1, 2 is below 1 (C79_jump_refuted), neighbouring doubles lose mass (C79_neighbours_refuted), moments of a single value around another value are wrong (C79_point_center_refuted). Arithmetic over the rationals."
  },
  {
   "property": "C80",
   "status": "partial",
   "theorems": [
    "C80_k_mpe_partial",
    "C80_mpe",
    "C80_fitted",
    "C80_point",
    "C80_repeated_refuted"
   ],
   "note": "Proved for every cdf that is not concentrated in a point, rises on bounded pieces and whose rising pieces have moderate bounds that are not neighbouring doubles: mpe is exactly the set of the values of highest density (C80_mpe); k_mpe lists every positive density with exactly its values in descending order and k_mpe(k) is its prefix (C80_k_mpe_partial); fitted distributions meet the hypotheses if no two samples are neighbouring doubles (C80_fitted); single values (C80_point). Refuted: k_mpe lists the same entry once per piece of that density, e.g. for samples 0, 1, 4, 5 (C80_repeated_refuted)."
  },
  {
   "property": "C81",
   "status": "partial",
   "theorems": [
    "C81_numeric",
    "C81_fitted",
    "C81_joint",
    "C81_infer",
    "C81_symmetric",
    "C81_reflexive",
    "C81_variables"
   ],
   "note": "Trees over symbolic and integer variables: same variables with same settings (C81_variables), same joint distribution (C81_joint), same answers of infer (C81_infer), reflexive and symmetric (C81_reflexive, C81_symmetric). Numeric distributions with bounds below 2^53, among them all fitted ones: same cdf and same probability of every interval (C81_numeric, C81_fitted), although only the common prefix of the pieces is compared (C67). Missing: the two parts are not combined for trees with numeric variables."
  },
  {
   "property": "C82",
   "status": "partial",
   "theorems": [
    "C82_training_rows_partial",
    "C82_closed_refuted"
   ],
   "note": "Proved for every table whose split points are not neighbouring doubles and are taken by at most one row (trainable), with close_convex_gaps=False. Refuted for close_convex_gaps=True, the default (C82_closed_refuted). Missing: other tables."
  },
  {
   "property": "C83",
   "status": "partial",
   "theorems": [
    "C83_closed_partial",
    "C83_point_partial",
    "C83_top_refuted",
    "C83_thin_refuted",
    "C83_mass_refuted",
    "C83_error_refuted",
    "C83_tree_partial"
   ],
   "note": "Proved for leaf distributions fitted to numbers below 2^53 with at least one gap, when no density of the result is 1e-8 or less: the exact density, positive in the whole hull and only there, and the exact cdf; a leaf with one value becomes uniform on its hull if the hull is not too narrow; other parts of the tree stay as they are. Refuted otherwise: the upper end of the hull, wide gaps, repeated least values, narrow hulls."
  },
  {
   "property": "C84",
   "status": "partial",
   "theorems": [
    "C84_json_partial",
    "C84_equal",
    "C84_quadratic_refuted"
   ],
   "note": "A function is read back unchanged exactly if its pieces are constant or linear and its intervals in order; otherwise reading fails and nothing is changed silently. Quadratic pieces, which products produce, cannot be read."
  },
  {
   "property": "C85",
   "status": "partial",
   "theorems": [
    "C85_meaning",
    "C85_accepted",
    "C85_rejected",
    "C85_infer_partial",
    "C85_foreign_refuted",
    "C85_bind_labels_partial",
    "C85_bind_integers_refuted",
    "C85_infer_union_partial"
   ],
   "note": "Acceptance and meaning are proved for every dictionary over the variables of the tree; labels which a scaler merges with a bound are left open, and blurred numbers are not covered. The answer of infer is proved for numbers, lists and intervals with bounds in the grid, also for closed infinite bounds (C85_infer_partial), and for unions of intervals that are open at infinity and stay in ascending order after scaling (C85_infer_union_partial). Refuted: a variable of another tree with the same name is taken for the own one; bind accepts integers outside the domain, which only infer rejects."
  },
  {
   "property": "C86",
   "status": "partial",
   "theorems": [
    "C86_reverse_partial"
   ],
   "note": "Trees over numeric and discrete variables, every dictionary of sayable things; numeric sets are intervals and unions of intervals with bounds on the grid of the leaf. Missing: blurred numbers, unions closed at infinity, bounds that are neighbouring doubles."
  },
  {
   "property": "C87",
   "status": "partial",
   "theorems": [
    "C87_rows",
    "C87_fresh",
    "C87_sample_partial",
    "C87_share"
   ],
   "note": "Rows, fresh outcomes and shares for every tree and random source. Success and possible values: numeric distributions are single values or continuous cdfs (jumps are refused by the random source, C58), the outcome 0 of the roulette wheel excepted."
  },
  {
   "property": "C88",
   "status": "partial",
   "theorems": [
    "C88_consistent_partial",
    "C88_bound_refuted",
    "C88_union_refuted",
    "C88_leaf_partial"
   ],
   "note": "Proved for intervals, sets of values, and single values that are no bounds of splits; for leaves, sets only. Refuted: a value at which a split was made is assigned to the wrong side (C88_bound_refuted); unions of intervals raise TypeError (C88_union_refuted). Intervals of a single number are left out for leaves."
  },
  {
   "property": "C89",
   "status": "partial",
   "theorems": [
    "C89_numeric_divergence_partial",
    "C89_symmetry_refuted",
    "C89_points_refuted",
    "C89_learnt_partial",
    "C89_learnt_zero_refuted"
   ],
   "note": "Continuous cdfs with a rising piece of at least three doubles and piece ends below 2^53. Single values are counted twice, so that the divergence of two of them is 2 (C89_points_refuted); it is not symmetric (C89_symmetry_refuted). Learnt distributions have an end one double past the last sample: for them, if two samples differ, the divergence is within [0, 1] and 0 exactly if the cdfs agree at every piece end (C89_learnt_partial), so densities that differ by one double are not told apart (C89_learnt_zero_refuted). Divergence from or to a learnt single value is not covered."
  }
 ]
}