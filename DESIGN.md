# Formal model of bartz in Rocq (Coq 8.16.1)

Source: `/repo` (Gattocrucco/bartz at the pinned commit), read as text. Properties: `properties.jsonl`.
Theorems per property: `MANIFEST.json`. Wrong programs tried against the theorems: `seeded/LOG.jsonl`.

How to read that log. `first_failures` is where the rebuild stopped, per file. `theorems_failed` are the theorems whose own
proof stopped. `theorems_not_built` come after a failure in the same file, or in a file that imports it: they were not
checked against the edit, so they are not shown to fail on their own. In most entries the failure is in a supporting lemma.
A proof that stops shows that the edit is noticed; it does not prove that the theorem's statement is false of the edited
program. Entries with `automatic` are single-token edits made by a script:
the claim they break was not worked out, and those with a note about the model not compiling, a time limit or an equivalent edit
are not evidence for the theorems. Where `statement_refuted` is present, the negation of that theorem's statement was
proved, at concrete arguments, of the edited program in the scratch copy. `theorems_not_built` was assigned after the fact from the order of the declarations in the current files; earlier
versions of the log counted all the theorems of a failing file as failed.

Contents: 1 layout, 2 modelling conventions, 3 plan per property, 4 what is modelled and what is not,
5 trusted base, 6 findings about the code, 7 assumptions of each theorem.

## 1. Layout of `rocq/theories/`

* `Base.v` – jax-array primitives on Coq lists (gather, scatter, cumsum, searchsorted, scatter-add,
  sort, integer wrap), the record of float operations `fops`, random keys and generators `rng`.
* `Model*.v` – the model, function by function, no proofs; each definition cites the lines of `/repo` it models.
  `ModelJaxext`, `ModelGrove`, `ModelStep`, `ModelLoop`, `ModelPrep`, `ModelDebug`, `ModelBART`,
  `ModelInterface` (rest of BART.py), `ModelAutobatch`, `ModelBatched` (the three functions that use it), `ModelBatchSize`, `ModelCallback` (pure_callback_ufunc), `ModelHeap` (the step as a program on
  mutable dictionaries).
* `Spec*.v` – small specifications that do not use the model's helpers (inductive decision trees,
  reachability, priors, proposal probabilities, posterior densities, chains, executions, ...).
* `Laws.v`, `Laws32.v` – the facts on float arithmetic and on the generator that some theorems assume; proof that
  reals and IEEE single precision (Flocq) with the generator of jax satisfy them.
* `LemBase.v`, `Proof*.v` – lemmas.
* `Prop*.v` – the theorems named after the properties, with `Print Assumptions` and examples that meet the hypotheses.
* `Examples.v`, `ExampleRun.v`, `ExampleReal.v` – concrete instances shared by the examples.

## 2. Modelling conventions

* Integers are `Z`; an array is a `list`. Where the code stores or computes in a minimal unsigned dtype there is an
  explicit `wrap bits` (`mod 2^bits`): bins, node indices in traversals, leaf indices, cutpoints (also `l + 1` in
  `split_range`), variables, counts in `debug.points_per_leaf_distr`, midpoints of integer predictors (signed wrap).
  int32 quantities are not wrapped (node numbers are at most 2^(d+1)+1 with d the depth; iteration counters).
* A gather `a[i]` normalizes negative indices; out of bounds it follows an *out-of-bounds mode* that is a
  parameter (clip, or fill with any value): theorems hold for both. A scatter out of bounds is dropped (jax default).
* In `ModelStep` a `(p, n)` matrix is the list of its n columns, in `ModelPrep`/`ModelBART` the list of its p rows.
  Arrays with a leading `num_trees` axis are lists over trees; the arrays of one tree are one record.
  `ModelHeap` keeps the separate arrays and dictionaries, and is proved to refine `ModelStep` (C35).
* `vmap` is `map`, `lax.scan` is a fold. `jit` has no effect on values.
* Floats: the model is parametric in a record `fops` of operations **without any law**, including the cumulative sum,
  which may be in any order. Structural theorems (C05, C06, C08–C12, C17, C37, C41, ...) hold for every such record
  that satisfies the class `flaws` of `Laws.v` (cumulative sums do not change at zeros and their total is positive),
  some for every record at all. Exact-arithmetic theorems (C07, C13–C16, C23, C36, C42, C46–C50, C53, ...)
  instantiate it with Coq's reals. `PropFloat32`, `PropFloatPrep`, `PropCumsum` instantiate it with IEEE binary32.
* Randomness: a key is a symbolic path of `random.split` calls; a generator is a record of functions from keys to
  draws. Theorems quantify over all generators satisfying `rlaws` (uniform draws in range), i.e. over all random
  outcomes. `random.randint(key, lo, hi)` is lo plus some bits modulo hi - lo, or lo when hi <= lo (jax's behaviour).
  In C49 and C53 the draws with different keys are independent and uniform: `SpecChance.has_probability` defines the
  probability of an event as the iterated integral/average over the draws that the event depends on.
* Exceptions raised by Python or jax at trace time are `None`.

## 3. Plan per property

| id | modelled | how proved |
|----|----------|------------|
| C01 | traverse_tree/forest, evaluate_forest | induction on depth against an inductive decision tree decoded from the heap |
| C02 | is_actual_leaf | reachability predicate, induction on the index |
| C03 | is_leaves_parent, prune allowed | direct; existence by strong induction on height |
| C04 | make_tree, tree_depth(s) | loop invariant |
| C05 | init, step and all they call | invariant over histories |
| C06 | leaf_indices updates | invariant; landing node is unique; refuted on cutpoint overflow and for parallel float32 sums |
| C07 | resid updates, reals; any arithmetic; single precision with Flocq | invariant; forward error analysis of the updates by induction over trees and steps |
| C08 | counts, accept | invariant |
| C09 | affluence | invariant |
| C10 | choose_variable, choose_split, accept | invariant: empty range => one child empty => rejected |
| C11 | init, step | invariant |
| C12 | sample_moves, counters | case analysis |
| C13 | compute_partial_ratio, complete_ratio, choose_*, reals | algebra + counting lemma relating old and new tree |
| C14 | precompute_likelihood_terms, compute_likelihood_ratio, reals | algebra against the Gaussian integral (improper Riemann integral) |
| C15 | precompute_leaf_terms, accept_move_and_sample_leaves, reals | case analysis + sums; posterior by proportionality of densities |
| C16 | sample_sigma, reals | algebra |
| C17 | whole step | refinement to grow/prune on inductive trees |
| C18–C20 | categorical, randint_masked, randint_exclude | induction; C20's last clause is refuted; C18 refuted for parallel float32 sums |
| C21 | split_range, choose_split | induction on the ancestor chain; refuted at the largest cutpoint |
| C22 | choose_variable | from C20, C21; partial: refuted for max_split = 0, overflow, 2^8 predictors |
| C23 | aggregation functions, whole chain | sums over filters; simulation relation |
| C24 | unique | loop invariant; refuted for size < x.size |
| C25 | quantilizer | integers with wrap, reals, float32 (Flocq); positions of the quantiles: round-half-even of rationals, any approximation, float32 (Flocq) |
| C26, C27, C28 | prepcovars, evaluate_trace, predict | order reasoning |
| C29, C30 | autobatch on n-d arrays, and its three uses | index algebra; divisor lemmas |
| C31–C33, C40 | run_mcmc | induction on scans; C40 partial (refuted for empty phases) |
| C34 | key derivation | list of consumed keys, prefix-freeness; dependence lemma |
| C35 | the step on Python dictionaries | heap model and refinement; partial: refuted with saved ratios |
| C36 | gbart.__init__, reals | algebra; least squares specified as minimum |
| C37 | init/step with None and Some 0 | simulation relation |
| C38, C45 | debug.py | counting lemmas; structural induction; C38 partial (8-bit counts) |
| C39 | wraps in the model | bounds; simulation between dtypes |
| C41 | trace-time shape check | partial: refuted for depth 1, proved for >= 2 |
| C42 | step, reals | simulation relation up to permutation |
| C43, C44 | callbacks, batch size | arithmetic |
| C46 | accept/reject of the proposal, reals | composition of C13–C15 into one statement on posteriors |
| C47 | gbart results | composition of C07, C16, C31 with the transformations of the response |
| C48 | prior settings of gbart | algebra; chi-squared quantiles through the incomplete gamma integral |
| C49 | whole step as a random transition, of the structure and of the values of the leaves | probabilities of the outcomes of the proposal, times acceptance, against prior x marginal likelihood; sums over all moves; reversible matrices; products over the points grouped by leaf |
| C50 | constructor with x_test, predict, means | composition of C28, C31, C47 |
| C51 | DataFrame/Series inputs | case analysis; partial: refuted for pandas Index |
| C52 | diagnostic methods of gbart | composition of C07, C12, C16, C38 |
| C53 | the chain as a graph on forests | paths of grow and prune moves, each with positive probability (from C49) |
| C54 | pure_callback_ufunc, gammainccinv, arrays with any number of axes | characterisation of broadcasting by axes, induction on shapes |
| C55 | the whole posterior density of trees and noise variance; step | factorisation of the density in the tree being updated (C49_joint) and in the noise variance; iterated improper integral over the values of the leaves, hence invariance of the whole density under the update of one tree and under the update of the noise variance; with one tree, composition of the two, over the finite family of the structures that the tree can take; change of variables in the integral of the gamma density |
| C56 | _process_scale_settings, _transform_input in any arithmetic (the same functions as in ModelBART.v in real arithmetic) | bounds on the rounded operations of Flocq's binary32; case analysis of the division by zero; induction on the steps for the residuals |
| C57 | the keyword dictionary of _setup_mcmc, dict.update, the signature and defaults of init, the automatic batch sizes | lookup after update for any dictionary without repeated keys; case analysis on the parameters |

## 4. What is modelled and what is not

| file | modelled | not modelled |
|------|----------|--------------|
| grove.py | all functions; `evaluate_forest(dtype=...)` in ModelDtype.v (elsewhere the sum has the type of the leaves) | – |
| mcmcstep.py | all functions: init, step, sample_*, grow/prune moves, ratios, counts, aggregation with and without batches, accept stages, sample_sigma, `_choose_suffstat_batch_size`; dictionaries and copies (ModelHeap) | float dtypes `small_float`, `large_float` (one arithmetic for both); order of float sums other than cumsum (only relevant without exact arithmetic); int32 overflow; the `opt` dtypes; argument donation by jit |
| mcmcloop.py | all functions: run_mcmc, callbacks, evaluate_trace, traces as dictionaries | asynchronous delivery of `jax.debug.callback`; `:.2f` formatting of the log; `lru_cache` |
| prepcovars.py | all functions; integer predictors of any type, floats as reals with +inf and as float32 | nan and -inf predictors; the operations of float32 linspace (a parameter: exact in gbart, any operations with small error, and jax's formula with rounding); extra arguments of searchsorted (`**kw`) |
| jaxext.py | minimal_unsigned_dtype, signed_to_unsigned/ensure_unsigned, huge_value, unique, autobatch (all of its inner functions), pure_callback_ufunc and gammainccinv (scipy's function and the cast as parameters) | float_type, castto, excluded arguments of pure_callback_ufunc, vmap_nodoc, LeafDict (wrappers around jax/scipy without own semantics); the text of the warning of autobatch |
| BART.py | all methods of gbart, including input formats, checks and underscore diagnostics | the floating point types in `initkw` (the other entries are in ModelInitkw.v; the theorems about whole fits are for min_points_per_leaf, batch sizes and save_ratios); dtype conversions of the inputs; numerical algorithms of lstsq and gammainccinv (specified by what they compute) |
| debug.py | print_tree, depth and points distributions, checks, describe_error, check_trace | formatting of numbers in print_tree; the dtype check `check_types` is on the modelled dtypes |
| \_\_init\_\_.py, \_version.py | – | imports and version only |

## 5. Trusted base

* Coq 8.16.1's kernel (and its virtual machine: some examples and refutations use `vm_compute`).
* The axioms that `Print Assumptions` lists (section 7), all from the standard library: the axioms of the classical real
  numbers (`ClassicalDedekindReals.sig_not_dec`, `ClassicalDedekindReals.sig_forall_dec`), functional
  extensionality (`FunctionalExtensionality.functional_extensionality_dep`), excluded middle (`Classical_Prop.classic`).
  The last one enters through Coquelicot and Flocq. No axioms are added; no section variables are left.
* Libraries used for lemmas only: Coquelicot (integrals), Flocq (binary32).
* The reading of the Python source into the model (section 2, comments in `Model*.v`), and the following facts on jax:
  out-of-bounds gathers clip or fill and scatters drop; `random.uniform` is in [0, 1), `random.uniform(0, hi)` in [0, hi)
  (proved for the float32 algorithm of jax unless hi is subnormal, `Laws32.v`); `random.randint` with hi <= lo returns lo;
  `random.split` gives keys that are as good as independent (only C49, C53); `vmap`, `scan`, `jit` preserve values;
  `searchsorted` returns the first position where the comparison holds; the prng, normal and gamma algorithms are not modelled.
* `PropCumsum.v` models `jax.lax.associative_scan`, which is what `jnp.cumsum` runs on CPU; this is
  knowledge on jax, not on `/repo`.

## 6. Findings about the code

Where the documentation, or the property one would expect, is false of the code there is a theorem `…_refuted`.

1. `randint_exclude` with all values excluded does not return `sup` (C20_randint_exclude_sup_refuted).
2. `choose_variable` may return a predictor without cutpoints, and a value larger than p instead of p (C22).
3. `jaxext.unique` with size < x.size truncates in the wrong way (C24_any_size_refuted).
4. `quantilized_splits_from_matrix` with no data (C25_no_data_refuted); `uniform_splits_from_matrix` raises.
5. `maxdepth=1`, documented as valid, raises at trace time (C41_all_depths_refuted).
6. `accept_moves_sequential_stage` overwrites the 'ratios' dictionary of its input (C35_refuted).
7. `run_mcmc` with an empty phase returns traces with all the fields of the state (C40; C40_trace_fields_refuted).
8. `next_divisor_small` does not always find the smallest divisor, because it stops at the square root (C30_fewest_refuted).
9. Constant y with n >= 2 gives scale 0, and a standardised response and noise prior that are infinite or nan (C56_constant, float32); all the residuals and the noise variances of the chain are then infinite or nan (C56_bad_response). In real arithmetic Coq gives a value to x / 0: the theorems about gbart where the scale matters exclude this case by hypothesis, the others (shapes, relations between runs) hold whatever the value is.
10. Midpoints of adjacent floats can equal the upper value, or overflow (C25_float32_refuted, C25_overflow_refuted); with thousands of bins two quantile cutpoints can be equal because of the rounding of their positions (C25_many_bins_refuted); with jax_enable_x64 the midpoints of int64 predictors are computed in double precision (C25_int64_refuted).
11. sigest for n <= p is the standard deviation, documented as variance (C48_sigest_documented_refuted); the
    regression's degrees of freedom do not subtract the intercept.
12. `debug.points_per_leaf_distr` counts leaves modulo 256 (C38_points_refuted).
13. `predict` with pandas input of two or more columns raises (C51_index_columns_refuted); its documentation says
    (m, p) for an array that is (p, m).
14. Predictors without cutpoints, and those whose range wraps around, dilute the documented prior on the rules (C49).
15. In `split_range`, `l + 1` wraps at the largest value of the cutpoint type; this happens with the default numcut=255
    (C21_split_range_overflow_refuted, C22_choose_variable_overflow_refuted, C06_overflow_refuted,
    C39_cutpoint_type_refuted). Harmless with min_points_per_leaf >= 1 (C46_overflow_rejected).
16. With exactly 2^8, 2^16 or 2^32 predictors the filler of `ancestor_variables` wraps to predictor 0
    (C22_ancestor_variables_256_refuted).
17. With float32 and cumulative sums computed in parallel, `categorical` can return an entry with zero weight; with default
    settings the sampler can then change the rule of an internal node without moving the points
    (C18_float32_parallel_refuted, C06_float32_parallel_refuted). Probability about 1e-7 per proposal.
18. autobatch with no batched argument raises inside `lax.scan`.
19. With p_nonterminal = 0 at a depth a grow move can be proposed with probability 0/0; the theorems on ratios exclude it.

## 7. Assumptions of each theorem

As listed by `Print Assumptions`, theorem by theorem (file in parentheses).

### None (closed under the global context) – 107 theorems

C01_evaluate_dtype (PropDtype), C01_evaluate_same_dtype (PropDtype), C01_evaluate_sum (PropTree), C01_evaluate_trees (PropTree), C01_traverse (PropTree), C02_is_actual_leaf (PropTree), C02_points_land_on_leaves (PropTree), C03_is_leaves_parent (PropTree), C03_is_leaves_parent_leaves (PropTree), C03_prunable_iff (PropTree), C04_every_node_has_a_depth (PropTree), C04_make_tree (PropTree), C04_tree_depths (PropTree), C05_check_tree (PropDebug), C05_forest_well_formed (PropForest), C06_leaf_indices (PropForest), C06_overflow_refuted (PropOverflow), C07_updates (PropDrift), C08_min_points_per_leaf (PropForest), C09_growable_leaves (PropForest), C10_no_useless_predictor (PropForest), C10_rules_valid (PropForest), C11_constant (PropForest), C12_counters (PropForest), C12_proposals (PropForest), C17_one_change_per_tree (PropForest), C18_categorical_nonzero_weight (PropSampling), C19_randint_masked (PropSampling), C19_randint_masked_none (PropSampling), C20_randint_exclude (PropSampling), C20_randint_exclude_all (PropSampling), C20_randint_exclude_sup_refuted (PropSampling), C21_choose_split_uniform (PropRange), C21_split_range_exact (PropRange), C21_split_range_overflow_refuted (PropRange), C22_ancestor_variables (PropRange), C22_ancestor_variables_256_refuted (PropRange), C22_choose_variable (PropRange), C22_choose_variable_max_split_0_refuted (PropRange), C22_choose_variable_overflow_refuted (PropRange), C22_choose_variable_p_refuted (PropRange), C23_count_batch_size (PropBatch), C23_counts (PropBatch), C24_any_size_refuted (PropPrep), C24_unique (PropPrep), C24_unique_small (PropPrep), C25_int64 (PropPrep), C25_int64_refuted (PropPrep), C25_integers (PropPrep), C25_integers_inexact (PropPrep), C25_no_data_refuted (PropPrep), C27_bin_predictors (PropPrep), C27_monotone (PropPrep), C27_padding (PropPrep), C27_quantile_bins (PropPrep), C29_autobatch (PropAutobatch), C29_bin_predictors (PropBatched), C29_evaluate_trace (PropBatched), C29_no_silent_errors (PropAutobatch), C29_pointwise (PropAutobatch), C29_quantilized_floats (PropBatched), C29_quantilized_integers (PropBatched), C30_batches (PropAutobatch), C30_fewest_refuted (PropAutobatch), C31_schedule (PropLoop), C32_sequential_guarantee (PropLoop), C33_callbacks (PropLoop), C34_keys_not_reused (PropKeys), C34_only_these_draws (PropKeys), C35_init (PropHeap), C35_input_changes (PropHeap), C35_reached (PropHeap), C35_refuted (PropHeap), C35_saved_ratios (PropHeap), C35_saved_ratios_steps (PropHeap), C35_step (PropHeap), C35_steps (PropHeap), C35_traced (PropHeap), C37_unspecified_is_zero (PropMinZero), C38_check_trace (PropDebug), C38_check_tree (PropDebug), C38_depths (PropDebug), C38_forest_points (PropDebug), C38_points (PropDebug), C38_points_refuted (PropDebug), C38_points_totals (PropDebug), C38_trace_depths (PropDebug), C38_trace_points (PropDebug), C39_cutpoint_type (PropTypes), C39_cutpoint_type_refuted (PropOverflow), C39_minimal_dtype (PropTypes), C39_stored_values (PropTypes), C40_trace_fields_partial (PropLoop), C40_trace_fields_refuted (PropLoop), C41_all_depths_refuted (PropDepth), C41_depths_partial (PropDepth), C43_progress_log (PropLog), C44_batch_sizes (PropBatchSize), C44_memory (PropBatchSize), C44_unknown_platform (PropBatchSize), C45_print_all (PropDebug), C45_print_tree (PropDebug), C52_goes_bad (PropDiagnostics), C54_broadcast (PropCallback), C54_ppf (PropCallback), C54_vmap (PropCallback), C54_vmap_ppf (PropCallback)

### functional_extensionality_dep, sig_forall_dec – 5 theorems

C25_floats (PropPrep), C26_bins (PropPrep), C26_inside (PropPrep), C26_uniform (PropPrep), C28_only_comparisons (PropBART)

### classic, functional_extensionality_dep, sig_forall_dec, sig_not_dec – 99 theorems

C05_check_tree_real (PropDebug), C05_float32 (PropFloat32), C06_float32 (PropFloat32), C06_float32_parallel_refuted (PropCumsum), C07_float32_drift (PropDrift), C07_float32_refuted (PropDrift), C07_residuals (PropExact), C08_float32 (PropFloat32), C08_gbart (PropFit), C10_float32 (PropFloat32), C11_gbart (PropFit), C13_prior_positive (PropMH), C13_rule_present (PropMH), C13_transition_prior_ratio (PropMH), C14_likelihood_ratio (PropMH), C15_leaf_posterior (PropExact), C16_noise_variance (PropExact), C16_nothing_else (PropExact), C16_positive (PropExact), C16_positive_residual (PropExact), C18_categorical_all_zero (PropSampling), C18_categorical_interval (PropSampling), C18_categorical_total (PropSampling), C18_float32_parallel_refuted (PropCumsum), C18_parallel_exact (PropCumsum), C23_batch_sizes (PropBatch), C25_float32_refuted (PropFloatPrep), C25_floats_single_precision (PropLinspace), C25_integers_single_precision (PropLinspace), C25_many_bins_refuted (PropLinspace), C25_overflow_refuted (PropFloatPrep), C25_rounding (PropFloatPrep), C28_predict_train (PropBART), C28_thresholds (PropBART), C32_gbart (PropFit), C36_affine (PropBART), C42_data_order (PropOrder), C44_cpu_number (PropBatchSize), C46_acceptance (PropMH), C46_overflow_rejected (PropMH), C47_residuals (PropBART), C47_shapes (PropBART), C47_sigma_positive (PropBART), C48_harmonic_mean (PropPrior), C48_offset (PropPrior), C48_quantile (PropPrior), C48_scale (PropPrior), C48_scale_single (PropPrior), C48_sigest_documented_refuted (PropPrior), C48_sigest_given (PropPrior), C48_sigest_regression (PropPrior), C48_sigest_single (PropPrior), C48_sigest_variance (PropPrior), C48_tree_prior (PropPrior), C49_detailed_balance (PropBalance), C49_gbart (PropFit), C49_growth (PropBalance), C49_joint (PropJoint), C49_joint_stationary (PropJoint), C49_new_leaves (PropJoint), C49_probability (PropBalance), C49_pruning (PropBalance), C49_stationary (PropKernel), C49_total (PropKernel), C50_failures (PropInterface), C50_means (PropInterface), C50_test (PropInterface), C51_index_columns_partial (PropInterface), C51_index_columns_refuted (PropInterface), C51_list_columns (PropInterface), C51_same_fit (PropInterface), C52_compare_resid (PropDiagnostics), C52_distributions (PropDiagnostics), C52_min_points (PropDiagnostics), C52_no_errors (PropDiagnostics), C52_rates (PropDiagnostics), C52_show_tree (PropDiagnostics), C52_sigma_posterior (PropDiagnostics), C52_sigma_prior (PropDiagnostics), C53_admissible (PropErgodic), C53_forest (PropErgodic), C53_moves (PropErgodic), C53_tree (PropErgodic), C55_invariant (PropInvariant), C55_marginal (PropInvariant), C55_noise_invariant (PropInvariant), C55_noise_variance (PropBayes), C55_step_one_tree (PropWholeStep), C55_trees (PropBayes), C55_whole_step (PropWholeStep), C56_bad_response (PropScale), C56_constant (PropScale), C56_finite (PropScale), C57_accepted (PropInitkw), C57_auto (PropInitkw), C57_min_points (PropReplaced), C57_override (PropInitkw), C57_same_settings (PropInitkw), C57_valid (PropReplaced)
