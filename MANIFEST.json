{
 "claims": [
  {
   "property": "C01",
   "status": "proved",
   "theorems": [
    "C01_evaluate_dtype",
    "C01_evaluate_same_dtype",
    "C01_traverse",
    "C01_evaluate_trees",
    "C01_evaluate_sum"
   ],
   "note": "arrays of the documented sizes, depth 1..64, arbitrary contents; both out-of-bounds read modes"
  },
  {
   "property": "C02",
   "status": "proved",
   "theorems": [
    "C02_is_actual_leaf",
    "C02_points_land_on_leaves"
   ],
   "note": "all split arrays without stray nodes"
  },
  {
   "property": "C03",
   "status": "proved",
   "theorems": [
    "C03_is_leaves_parent",
    "C03_is_leaves_parent_leaves",
    "C03_prunable_iff"
   ],
   "note": "mask for all arrays; existence for arrays without stray nodes"
  },
  {
   "property": "C04",
   "status": "proved",
   "theorems": [
    "C04_make_tree",
    "C04_tree_depths",
    "C04_every_node_has_a_depth"
   ],
   "note": ""
  },
  {
   "property": "C05",
   "status": "proved",
   "theorems": [
    "C05_check_tree",
    "C05_check_tree_real",
    "C05_float32",
    "C05_forest_well_formed"
   ],
   "note": "structure of every tree in every reached state, and debug.check_tree reports nothing but possibly non-finite leaf values (nothing at all with real numbers)"
  },
  {
   "property": "C06",
   "status": "proved",
   "theorems": [
    "C06_float32_parallel_refuted",
    "C06_float32",
    "C06_leaf_indices",
    "C06_overflow_refuted"
   ],
   "note": "Settings that meet settings_ok, any arithmetic with flaws. The excluded settings (no minimum number of points per leaf and 2^bits - 1 cutpoints) are shown to break the property by C06_overflow_refuted. With float32 and cumulative sums computed in parallel (as jax does on CPU), which do not meet flaws, C06_float32_parallel_refuted shows a chain with default settings that breaks the property"
  },
  {
   "property": "C07",
   "status": "proved",
   "theorems": [
    "C07_updates",
    "C07_float32_drift",
    "C07_float32_refuted",
    "C07_residuals"
   ],
   "note": "every reachable state of every execution: equality in exact real arithmetic (C07_residuals); in any arithmetic the exact sequence of updates (C07_updates); in single precision the accumulated error is at most 3 * steps * trees * B / 2^24 where B bounds the values met (C07_float32_drift), and it can be nonzero (C07_float32_refuted)"
  },
  {
   "property": "C08",
   "status": "proved",
   "theorems": [
    "C08_gbart",
    "C08_float32",
    "C08_min_points_per_leaf"
   ],
   "note": ""
  },
  {
   "property": "C09",
   "status": "proved",
   "theorems": [
    "C09_growable_leaves"
   ],
   "note": ""
  },
  {
   "property": "C10",
   "status": "proved",
   "theorems": [
    "C10_float32",
    "C10_rules_valid",
    "C10_no_useless_predictor"
   ],
   "note": "bins within max_split, at least one point per leaf"
  },
  {
   "property": "C11",
   "status": "proved",
   "theorems": [
    "C11_gbart",
    "C11_constant"
   ],
   "note": ""
  },
  {
   "property": "C12",
   "status": "proved",
   "theorems": [
    "C12_proposals",
    "C12_counters"
   ],
   "note": "the proposed node is a growable leaf / a parent of leaves when all p_nonterminal are positive"
  },
  {
   "property": "C13",
   "status": "proved",
   "theorems": [
    "C13_transition_prior_ratio",
    "C13_prior_positive",
    "C13_rule_present"
   ],
   "note": "exact real arithmetic; any distribution of the rules, the same in prior and proposal"
  },
  {
   "property": "C14",
   "status": "proved",
   "theorems": [
    "C14_likelihood_ratio"
   ],
   "note": "exact real arithmetic; the marginal likelihood is an improper Riemann integral over the leaf value"
  },
  {
   "property": "C15",
   "status": "proved",
   "theorems": [
    "C15_leaf_posterior"
   ],
   "note": "exact real arithmetic; posterior defined by proportionality of densities"
  },
  {
   "property": "C16",
   "status": "proved",
   "theorems": [
    "C16_noise_variance",
    "C16_nothing_else",
    "C16_positive",
    "C16_positive_residual"
   ],
   "note": "exact real arithmetic"
  },
  {
   "property": "C17",
   "status": "proved",
   "theorems": [
    "C17_one_change_per_tree"
   ],
   "note": "the counters equal the numbers of changes when all p_nonterminal are positive"
  },
  {
   "property": "C18",
   "status": "proved",
   "theorems": [
    "C18_parallel_exact",
    "C18_float32_parallel_refuted",
    "C18_categorical_interval",
    "C18_categorical_total",
    "C18_categorical_nonzero_weight",
    "C18_categorical_all_zero"
   ],
   "note": "Interval characterisation in exact (real) arithmetic for a uniform draw in [0,total), whatever the order of the cumulative sums (C18_parallel_exact); nonzero-weight validity for any float arithmetic satisfying the laws in Laws.v, e.g. float32 with sums from left to right; refuted for float32 with parallel sums (C18_float32_parallel_refuted)."
  },
  {
   "property": "C19",
   "status": "proved",
   "theorems": [
    "C19_randint_masked",
    "C19_randint_masked_none"
   ],
   "note": "The draw r_bits mod count is mapped bijectively to the True entries; no True entry gives n."
  },
  {
   "property": "C20",
   "status": "proved",
   "theorems": [
    "C20_randint_exclude",
    "C20_randint_exclude_all",
    "C20_randint_exclude_sup_refuted"
   ],
   "note": "Bijective image of the draw when some value is allowed; when all are excluded the documented \"returns sup\" is refuted, the result is between sup and the size of exclude."
  },
  {
   "property": "C21",
   "status": "proved",
   "theorems": [
    "C21_split_range_exact",
    "C21_split_range_overflow_refuted",
    "C21_choose_split_uniform"
   ],
   "note": "C21_split_range_overflow_refuted shows that the condition on the largest cutpoint is needed; C46_overflow_rejected shows that with a minimum of one point per leaf the proposals made with a wrong range do no harm"
  },
  {
   "property": "C22",
   "status": "partial",
   "theorems": [
    "C22_choose_variable",
    "C22_choose_variable_overflow_refuted",
    "C22_ancestor_variables",
    "C22_ancestor_variables_256_refuted",
    "C22_choose_variable_max_split_0_refuted",
    "C22_choose_variable_p_refuted"
   ],
   "note": "Proved when every predictor has cutpoints (max_split >= 1), fewer than the largest value of their type, and the rules above the node are valid. The statement for arbitrary max_split, and the documented return value p, are refuted: see the _refuted theorems (no cutpoints; 2^bits - 1 cutpoints; 2^8 predictors; returned value)."
  },
  {
   "property": "C23",
   "status": "proved",
   "theorems": [
    "C23_count_batch_size",
    "C23_batch_sizes",
    "C23_counts"
   ],
   "note": "Counts and hence the chain for any float arithmetic; both batch sizes in real arithmetic."
  },
  {
   "property": "C24",
   "status": "proved",
   "theorems": [
    "C24_unique",
    "C24_unique_small",
    "C24_any_size_refuted"
   ],
   "note": "size >= x.size; for smaller sizes the exact behaviour is C24_unique_small and the docstring is refuted (C24_any_size_refuted)"
  },
  {
   "property": "C25",
   "status": "proved",
   "theorems": [
    "C25_rounding",
    "C25_float32_refuted",
    "C25_overflow_refuted",
    "C25_integers_single_precision",
    "C25_floats_single_precision",
    "C25_many_bins_refuted",
    "C25_integers",
    "C25_integers_inexact",
    "C25_floats",
    "C25_int64_refuted",
    "C25_int64",
    "C25_no_data_refuted"
   ],
   "note": "Integers (any unsigned type, signed types up to 32 bits, with jax's type promotion in 32 and 64 bits mode; C25_int64_refuted: int64 predictors are averaged in double precision; C25_int64: up to 2^53 this is right, with unused values 2^63) and exact real floats; C25_rounding: rounding to nearest as in float32 if no two values are adjacent floats and nothing overflows; C25_float32_refuted, C25_overflow_refuted: otherwise two values may fall in the same bin. C25_integers_inexact, C25_integers_single_precision, C25_floats_single_precision: quantile positions computed with rounding, up to 512 bins; C25_many_bins_refuted: with thousands of bins two cutpoints can coincide. C25_no_data_refuted: n = 0."
  },
  {
   "property": "C26",
   "status": "proved",
   "theorems": [
    "C26_uniform",
    "C26_inside",
    "C26_bins"
   ],
   "note": "n >= 1, num_bins >= 1, real numbers"
  },
  {
   "property": "C27",
   "status": "proved",
   "theorems": [
    "C27_bin_predictors",
    "C27_padding",
    "C27_monotone",
    "C27_quantile_bins"
   ],
   "note": "any total order; rows shorter than 2^64"
  },
  {
   "property": "C28",
   "status": "proved",
   "theorems": [
    "C28_predict_train",
    "C28_thresholds",
    "C28_only_comparisons"
   ],
   "note": "for gbart in real arithmetic, all arguments that satisfy args_ok; C28_thresholds also needs at least one point per leaf (true unless initkw changes it)"
  },
  {
   "property": "C29",
   "status": "proved",
   "theorems": [
    "C29_autobatch",
    "C29_pointwise",
    "C29_no_silent_errors",
    "C29_evaluate_trace",
    "C29_bin_predictors",
    "C29_quantilized_floats",
    "C29_quantilized_integers"
   ],
   "note": "arrays with any number of axes, any axes; C29_pointwise shows that vmapped functions qualify; at least one argument must be batched (otherwise lax.scan raises); C29_evaluate_trace, C29_bin_predictors, C29_quantilized_*: the three uses in the library"
  },
  {
   "property": "C30",
   "status": "proved",
   "theorems": [
    "C30_batches",
    "C30_fewest_refuted"
   ],
   "note": "also C30_fewest_refuted: the number of batches is not always the smallest possible (not promised by the documentation)"
  },
  {
   "property": "C31",
   "status": "proved",
   "theorems": [
    "C31_schedule"
   ],
   "note": "For any callback, state, key and any non-negative n_burn, n_save, n_skip. chain is the specification of the chain (split key, step)."
  },
  {
   "property": "C32",
   "status": "proved",
   "theorems": [
    "C32_gbart",
    "C32_sequential_guarantee"
   ],
   "note": "For any two choices of the lengths and callbacks."
  },
  {
   "property": "C33",
   "status": "proved",
   "theorems": [
    "C33_callbacks"
   ],
   "note": "Calls in program order; asynchronous delivery by jax.debug is not modelled."
  },
  {
   "property": "C34",
   "status": "proved",
   "theorems": [
    "C34_keys_not_reused",
    "C34_only_these_draws"
   ],
   "note": "run_draws lists the draws of a run; keys pairwise different and underived from each other; two generators that agree on the listed draws give the same run_mcmc result, for any callback."
  },
  {
   "property": "C35",
   "status": "partial",
   "theorems": [
    "C35_init",
    "C35_step",
    "C35_steps",
    "C35_saved_ratios",
    "C35_saved_ratios_steps",
    "C35_traced",
    "C35_input_changes",
    "C35_reached",
    "C35_refuted"
   ],
   "note": "Dictionaries on a heap: without saved ratios, step and any number of steps leave every existing dictionary unchanged and return a new one representing the new state; under jit/scan this holds always. Called directly with saved ratios, the 'ratios' dictionary of the input is overwritten (mcmcstep.py:1282): C35_refuted, C35_input_changes; C35_saved_ratios says that nothing else is."
  },
  {
   "property": "C36",
   "status": "proved",
   "theorems": [
    "C36_affine"
   ],
   "note": "for gbart in real arithmetic; the linear regression of jax is any function that returns the smallest sum of squares and a rank that does not depend on the response"
  },
  {
   "property": "C37",
   "status": "proved",
   "theorems": [
    "C37_unspecified_is_zero"
   ],
   "note": "any float arithmetic, any random numbers, every step of the chain; hypothesis: the value an out-of-bounds gather from the count array returns is >= 0 (the array is unsigned)"
  },
  {
   "property": "C38",
   "status": "partial",
   "theorems": [
    "C38_check_tree",
    "C38_check_trace",
    "C38_depths",
    "C38_trace_depths",
    "C38_points",
    "C38_points_totals",
    "C38_forest_points",
    "C38_trace_points",
    "C38_points_refuted"
   ],
   "note": "all proved; the counts of points per leaf are kept in 8 bits by the code, so they are right for trees of depth up to 8 and C38_points_refuted shows a deeper tree for which they are wrong"
  },
  {
   "property": "C39",
   "status": "proved",
   "theorems": [
    "C39_cutpoint_type_refuted",
    "C39_minimal_dtype",
    "C39_stored_values",
    "C39_cutpoint_type"
   ],
   "note": "minimal type; stored values fit; the type of the cutpoints has no effect on the chain provided it holds max_split + 1 (with 64 bits nothing can wrap); with max_split = 2^bits - 1 it has (C39_cutpoint_type_refuted). Leaf indices and traversal in their minimal type equal those with unbounded integers (also C01, C06). Bin indices: see C27"
  },
  {
   "property": "C40",
   "status": "partial",
   "theorems": [
    "C40_trace_fields_partial",
    "C40_trace_fields_refuted"
   ],
   "note": "Proved when both phases have at least one iteration; refuted with no burn-in or no saved samples (empty_trace ignores the list of fields)."
  },
  {
   "property": "C41",
   "status": "partial",
   "theorems": [
    "C41_depths_partial",
    "C41_all_depths_refuted"
   ],
   "note": "holds for depth >= 2; refuted for the documented depth 1 (C41_all_depths_refuted)"
  },
  {
   "property": "C42",
   "status": "proved",
   "theorems": [
    "C42_data_order"
   ],
   "note": "exact arithmetic; every step of the chain, any permutation, any batch sizes"
  },
  {
   "property": "C43",
   "status": "proved",
   "theorems": [
    "C43_progress_log"
   ],
   "note": "printevery >= 1. The [:.2f] formatting of the four frequencies is not modelled, the numbers are."
  },
  {
   "property": "C44",
   "status": "proved",
   "theorems": [
    "C44_batch_sizes",
    "C44_memory",
    "C44_unknown_platform",
    "C44_cpu_number"
   ],
   "note": "whatever the rounded logarithms; C44_cpu_number assumes rounding to the nearest integer"
  },
  {
   "property": "C45",
   "status": "proved",
   "theorems": [
    "C45_print_tree",
    "C45_print_all"
   ],
   "note": "compact and complete printing: order, contents, categories, drawing and links"
  },
  {
   "property": "C46",
   "status": "proved",
   "theorems": [
    "C46_acceptance",
    "C46_overflow_rejected"
   ],
   "note": "exact real arithmetic; likelihood of a tree is the product of the integrals over its leaves. Proposals of cutpoint 0, due to the wraparound of the range, are always rejected (C46_overflow_rejected); C13_rule_present: with fewer than 2^bits - 1 cutpoints there are none"
  },
  {
   "property": "C47",
   "status": "proved",
   "theorems": [
    "C47_shapes",
    "C47_residuals",
    "C47_sigma_positive"
   ],
   "note": "for gbart in real arithmetic"
  },
  {
   "property": "C48",
   "status": "proved",
   "theorems": [
    "C48_tree_prior",
    "C48_offset",
    "C48_scale",
    "C48_scale_single",
    "C48_harmonic_mean",
    "C48_quantile",
    "C48_sigest_given",
    "C48_sigest_single",
    "C48_sigest_variance",
    "C48_sigest_regression",
    "C48_sigest_documented_refuted"
   ],
   "note": "Prior in the units of the response; C48_sigest_documented_refuted: for n<=p the code uses the standard deviation where the documentation says variance. lstsq and gammainccinv are external, hypotheses stated."
  },
  {
   "property": "C49",
   "status": "proved",
   "theorems": [
    "C49_probability",
    "C49_growth",
    "C49_pruning",
    "C49_detailed_balance",
    "C49_gbart",
    "C49_joint",
    "C49_joint_stationary",
    "C49_new_leaves",
    "C49_total",
    "C49_stationary"
   ],
   "note": "Real arithmetic; the draws are independent and exactly uniform (integers: the bits modulo n are uniform). The prior of the rules is the one implied by the code: uniform over the variables with available cutpoints, those without any cutpoint and those for which the range wraps around (finding: the latter two dilute the documented prior). The probabilities are shown to exist and to be unique. C49_total and C49_stationary turn detailed balance into a Markov kernel with the posterior as stationary distribution, over a family of states that differ only in the tree and is closed under the update. C49_joint, C49_joint_stationary and C49_new_leaves add the values of the leaves. Settings with a minimum of at least one point per leaf."
  },
  {
   "property": "C50",
   "status": "proved",
   "theorems": [
    "C50_failures",
    "C50_test",
    "C50_means"
   ],
   "note": "Complete constructor and predict, with the checks of the inputs (ModelInterface.v)."
  },
  {
   "property": "C51",
   "status": "partial",
   "theorems": [
    "C51_same_fit",
    "C51_list_columns",
    "C51_index_columns_refuted",
    "C51_index_columns_partial"
   ],
   "note": "Proved: frames give the same fit as arrays; with a column format compared as a list (polars) predictions are accepted exactly for the same columns. Refuted for a pandas Index with two or more columns (C51_index_columns_refuted); C51_index_columns_partial says what holds for it."
  },
  {
   "property": "C52",
   "status": "proved",
   "theorems": [
    "C52_goes_bad",
    "C52_rates",
    "C52_compare_resid",
    "C52_sigma_prior",
    "C52_sigma_posterior",
    "C52_no_errors",
    "C52_distributions",
    "C52_min_points",
    "C52_show_tree"
   ],
   "note": "All the underscore diagnostic methods of gbart and the trace functions of debug they use."
  },
  {
   "property": "C53",
   "status": "proved",
   "theorems": [
    "C53_admissible",
    "C53_moves",
    "C53_forest",
    "C53_tree"
   ],
   "note": "SpecErgodic defines admissible structures, their size and reachability by some outcomes of the draws. C53_moves gives positive probabilities (in the sense of has_probability) for the single moves of a tree; C53_tree and C53_forest follow by induction on the path. The condition on the parity is stated in C53_forest: moves are possibly always accepted, so a tree can change parity at each step."
  },
  {
   "property": "C54",
   "status": "proved",
   "theorems": [
    "C54_broadcast",
    "C54_vmap",
    "C54_ppf",
    "C54_vmap_ppf"
   ],
   "note": "any number of axes; excluded arguments (not used by the package) are not modelled; scipy's scalar function, the cast and the reciprocal are parameters; nested vmap not covered"
  },
  {
   "property": "C55",
   "status": "proved",
   "theorems": [
    "C55_trees",
    "C55_noise_variance",
    "C55_marginal",
    "C55_invariant",
    "C55_noise_invariant",
    "C55_step_one_tree",
    "C55_whole_step"
   ],
   "note": "C55_trees: the posterior as a function of the tree being updated is proportional to the density that the update leaves invariant (C49_joint_stationary). C55_marginal: the posterior of the rules used there is the integral of the joint density over the values of the leaves. C55_invariant: the whole posterior density is invariant under the update of one tree (rules and values of the leaves) with the other trees and the noise variance fixed, over a family of states closed under the update. C55_noise_variance: as a function of the noise variance the posterior is an inverse gamma density, and b / G with G the gamma draw has that distribution. C55_noise_invariant: the whole posterior is invariant under that update. C55_step_one_tree, C55_whole_step: for every setting with one tree, the whole step (tree, then noise variance) leaves the posterior invariant, as an iterated sum and integral; the families of states required are shown to exist. For more than one tree the updates are proved invariant one at a time, given the rest; their composition in one statement is not formalised."
  },
  {
   "property": "C56",
   "status": "proved",
   "theorems": [
    "C56_constant",
    "C56_finite",
    "C56_bad_response"
   ],
   "note": "in IEEE single precision; the scale and the standardisation agree with ModelBART.v in real arithmetic (scale_real, standardize_real); the product 2 k is taken in single precision"
  },
  {
   "property": "C57",
   "status": "proved",
   "theorems": [
    "C57_override",
    "C57_accepted",
    "C57_auto",
    "C57_same_settings",
    "C57_valid",
    "C57_min_points"
   ],
   "note": "The call is modelled with the keyword dictionary and the signature of init; values of the wrong type count as an exception; C57_same_settings connects it with the settings used in the theorems about gbart"
  }
 ]
}