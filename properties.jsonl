{"id": "C01", "title": "Forest evaluation follows the decision rules", "statement": "grove.traverse_tree / traverse_forest return, for every point and tree, the index of the leaf obtained by starting at the root and repeatedly going left iff x[var] < split until a node with split 0 or the bottom level is met; grove.evaluate_forest returns the leaf value there, per tree, or summed over trees; with an explicit dtype the values are converted to it before the sum.", "quantifier": "all depths d>=1, all tree arrays (also ill-formed ones), all points, all numbers of trees", "why_tests_cant": "tests only compare predictions of a few sampled forests; the heap layout has exponentially many shapes per depth", "anchors": ["src/bartz/grove.py:traverse_tree", "src/bartz/grove.py:traverse_forest", "src/bartz/grove.py:evaluate_forest"]}
{"id": "C02", "title": "Leaf mask is exactly the set of reachable leaves", "statement": "On a tree without stray nodes, grove.is_actual_leaf (with or without the bottom level) is True exactly at the nodes that can be reached from the root through decision nodes only and are not decision nodes; every point lands on a node marked True.", "quantifier": "all depths, all split arrays without stray nodes, all points", "why_tests_cant": "exponentially many tree shapes", "anchors": ["src/bartz/grove.py:is_actual_leaf"]}
{"id": "C03", "title": "Leaf-parent mask is exact", "statement": "grove.is_leaves_parent is True exactly at the decision nodes whose two children are both leaves; a well-formed tree whose root is a decision node always has at least one such node, so pruning is possible iff the tree is not a single root.", "quantifier": "all depths, all split arrays (all well-formed ones for the existence part)", "why_tests_cant": "exponentially many tree shapes; the existence part is an induction on depth", "anchors": ["src/bartz/grove.py:is_leaves_parent", "src/bartz/mcmcstep.py:prune_move"]}
{"id": "C04", "title": "Tree sizes and node depths", "statement": "make_tree(depth) has 2**depth zero entries, tree_depth inverts it, and tree_depths gives for each node its distance from the root (0 for the unused slot 0).", "quantifier": "all depths, all node indices", "why_tests_cant": "tests look at a few depths", "anchors": ["src/bartz/grove.py:make_tree", "src/bartz/grove.py:tree_depth", "src/bartz/grove.py:tree_depths"]}
{"id": "C05", "title": "Sampled forests are always well-formed", "statement": "Starting from mcmcstep.init and after any number of mcmcstep.step calls with any random keys, every tree of the forest has the right array lengths, an unused slot 0 equal to zero, and no stray decision nodes (the structural bits of debug.check_tree are never set).", "quantifier": "all datasets, all settings accepted by init with depth>=2, all random outcomes, all numbers of steps, any float rounding", "why_tests_cant": "depends on the whole random history of accepted/rejected moves; a test samples one history", "anchors": ["src/bartz/mcmcstep.py:step", "src/bartz/mcmcstep.py:init", "src/bartz/debug.py:check_tree"]}
{"id": "C06", "title": "Cached leaf membership never drifts", "statement": "After init and after any sequence of steps the cached leaf index of every datapoint in every tree equals what a fresh tree traversal of the current forest returns. (Except with no minimum number of points per leaf and a predictor with as many cutpoints as the largest value of their integer type: there it is false. Also, with floating point, only if cumulative sums are computed from left to right.)", "quantifier": "all datasets, all random outcomes, all numbers of steps, any float rounding", "why_tests_cant": "incremental cache over unbounded histories", "anchors": ["src/bartz/mcmcstep.py:apply_grow_to_indices", "src/bartz/mcmcstep.py:apply_moves_to_leaf_indices", "src/bartz/mcmcstep.py:step"]}
{"id": "C07", "title": "Residuals do not drift", "statement": "After init and any sequence of steps, the residuals kept in the state equal the response minus the prediction of the current forest at the training points, when arithmetic is exact; in single precision the difference is bounded by a quantity proportional to the number of steps, the number of trees, the largest value met and 2^-24.", "quantifier": "all datasets, all random outcomes, all numbers of steps; real arithmetic, and single precision", "why_tests_cant": "incremental cache over unbounded histories; the test measures round-off on one run", "anchors": ["src/bartz/mcmcstep.py:accept_move_and_sample_leaves", "src/bartz/mcmcstep.py:adapt_leaf_trees_to_grow_indices", "src/bartz/BART.py:_compare_resid"]}
{"id": "C08", "title": "Minimum number of points per leaf", "statement": "If min_points_per_leaf=m is given to init, then in every reachable state every leaf of every tree that has at least one split contains at least m training points.", "quantifier": "all datasets, m, random outcomes, numbers of steps, any float rounding", "why_tests_cant": "must hold along every history", "anchors": ["src/bartz/mcmcstep.py:accept_move_and_sample_leaves", "src/bartz/mcmcstep.py:compute_count_trees"]}
{"id": "C09", "title": "Growable leaves are exactly the affluent non-bottom leaves", "statement": "In every reachable state the leaves that can be proposed for growth are exactly the leaves above the bottom level that contain at least twice the minimum number of points.", "quantifier": "all datasets, settings, random outcomes, numbers of steps", "why_tests_cant": "the mask is cached incrementally and computed before the accept/reject decision is known", "anchors": ["src/bartz/mcmcstep.py:growable_leaves", "src/bartz/mcmcstep.py:accept_moves_parallel_stage"]}
{"id": "C10", "title": "Decision rules are always meaningful", "statement": "With min_points_per_leaf>=1 (as gbart sets), in every reachable state every decision node uses an existing predictor, a cutpoint between 1 and that predictor's number of cutpoints, and a cutpoint strictly inside the range left by its ancestors; in particular a predictor with no cutpoints is never used.", "quantifier": "all datasets with bins within max_split, all random outcomes, all numbers of steps", "why_tests_cant": "relies on empty proposals always being rejected, over all histories", "anchors": ["src/bartz/mcmcstep.py:choose_variable", "src/bartz/mcmcstep.py:choose_split", "src/bartz/mcmcstep.py:accept_move_and_sample_leaves"]}
{"id": "C11", "title": "Too few datapoints: the function is constant", "statement": "If there are fewer than 2*min_points_per_leaf datapoints then no tree ever gets a split, so the fitted function has the same value at all points in every sample.", "quantifier": "all datasets with n<2m, random outcomes, numbers of steps", "why_tests_cant": "must hold along every history", "anchors": ["src/bartz/mcmcstep.py:init", "src/bartz/mcmcstep.py:growable_leaves"]}
{"id": "C12", "title": "Move selection and counters", "statement": "A grow move is proposed only when a growable leaf exists and a prune only when the tree is not a root; if exactly one kind is possible that kind is proposed; acceptances never exceed proposals, proposals never exceed the number of trees, and equal it when every tree can move.", "quantifier": "all states reachable, all random outcomes", "why_tests_cant": "depends on random outcomes and float comparisons", "anchors": ["src/bartz/mcmcstep.py:sample_moves", "src/bartz/mcmcstep.py:accept_moves_final_stage"]}
{"id": "C13", "title": "Metropolis-Hastings transition and prior ratio is correct and reversible", "statement": "For each grow move the transition-and-prior ratio used equals prior(new)*P(new->old) / (prior(old)*P(old->new)) of the BART tree prior and of the proposal actually used; the prune move that undoes it uses exactly the inverse number.", "quantifier": "all reachable trees, all growable leaves, all rules, all 0<p_nonterminal<1; real arithmetic", "why_tests_cant": "detailed balance is a statement about all pairs of trees; tests only compare final distributions statistically", "anchors": ["src/bartz/mcmcstep.py:compute_partial_ratio", "src/bartz/mcmcstep.py:compute_p_prune", "src/bartz/mcmcstep.py:complete_ratio", "src/bartz/mcmcstep.py:choose_leaf", "src/bartz/mcmcstep.py:choose_leaf_parent"]}
{"id": "C14", "title": "Likelihood ratio is the marginal likelihood ratio", "statement": "The log likelihood ratio used for a grow move equals the log of the ratio between the Gaussian marginal likelihoods (leaf value integrated out) of the two children and of the parent leaf, and 1/ntree is the prior variance of a leaf.", "quantifier": "all residual vectors, sizes, sigma2>0, ntree>0; real arithmetic", "why_tests_cant": "algebraic identity over all reals", "anchors": ["src/bartz/mcmcstep.py:precompute_likelihood_terms", "src/bartz/mcmcstep.py:compute_likelihood_ratio"]}
{"id": "C15", "title": "Leaf values are drawn from their conditional posterior", "statement": "Each new leaf value equals posterior mean + standard normal draw * posterior standard deviation, where the posterior is that of a N(0,1/ntree) leaf given the partial residuals (response minus all other current trees) of the points in that leaf of the new tree and noise variance sigma2.", "quantifier": "all states satisfying the residual identity, all moves, accepted or not; real arithmetic", "why_tests_cant": "must hold for all leaves under each of the accept/reject x grow/prune cases", "anchors": ["src/bartz/mcmcstep.py:precompute_leaf_terms", "src/bartz/mcmcstep.py:accept_move_and_sample_leaves"]}
{"id": "C16", "title": "Noise variance update", "statement": "The new noise variance is (beta + |y - forest|^2/2) divided by a Gamma(alpha + n/2) draw, with the residual norm of the current forest, it is always positive when beta>0 or n>0 with a non-zero residual, and nothing else in the state changes.", "quantifier": "all reachable states, all positive gamma draws; real arithmetic", "why_tests_cant": "over all histories", "anchors": ["src/bartz/mcmcstep.py:sample_sigma"]}
{"id": "C17", "title": "One step changes each tree by at most one accepted move", "statement": "After one step each tree, read as a decision tree, either has the same structure, or has one leaf replaced by a decision node with two leaves (grow), or one decision node with two leaf children replaced by a leaf (prune), according to the acceptance flag; nothing else in its structure changes.", "quantifier": "all reachable states, all random outcomes", "why_tests_cant": "the state is modified as if the move was accepted and then repaired; all case combinations and shapes matter", "anchors": ["src/bartz/mcmcstep.py:accept_moves_parallel_stage", "src/bartz/mcmcstep.py:accept_moves_final_stage", "src/bartz/mcmcstep.py:apply_moves_to_split_trees"]}
{"id": "C18", "title": "Categorical sampling has the requested distribution", "statement": "mcmcstep.categorical returns i exactly when the uniform draw lies in an interval of length distr[i] (disjoint, covering [0,total)); entries with zero weight are never returned; if all weights are zero it returns n. (With floating point, zero-weight entries are excluded only if cumulative sums are computed from left to right.)", "quantifier": "all weight vectors, all draws", "why_tests_cant": "for all vectors and draws", "anchors": ["src/bartz/mcmcstep.py:categorical"]}
{"id": "C19", "title": "Masked integer sampling is uniform on the mask", "statement": "mcmcstep.randint_masked maps the integer draws 0..count-1 one-to-one onto the True positions of the mask, and returns n if the mask is all False.", "quantifier": "all masks, all draws", "why_tests_cant": "for all masks", "anchors": ["src/bartz/mcmcstep.py:randint_masked"]}
{"id": "C20", "title": "Sampling with exclusions is uniform on the remaining values", "statement": "mcmcstep.randint_exclude maps the integer draws one-to-one onto the values of [0,sup) not excluded, whatever duplicates or values >= sup the exclusion list contains; if all values are excluded it returns sup.", "quantifier": "all sup, all exclusion lists, all draws", "why_tests_cant": "for all lists", "anchors": ["src/bartz/mcmcstep.py:randint_exclude"]}
{"id": "C21", "title": "Allowed split range at a node is exact", "statement": "mcmcstep.split_range returns [l,r) such that s is in it iff 1<=s<=max_split and s is compatible with every ancestor splitting on the same variable (greater than its cutpoint when in its right subtree, less when in its left subtree), and choose_split returns a member whenever it is non-empty; provided that no rule above, of which the node is on the right, has the largest value of its integer type as cutpoint (else the range wraps around and is wrong).", "quantifier": "all tree arrays, nodes at any depth, variables", "why_tests_cant": "all tree shapes", "anchors": ["src/bartz/mcmcstep.py:split_range", "src/bartz/mcmcstep.py:choose_split"]}
{"id": "C22", "title": "New rules use a variable with available cutpoints", "statement": "mcmcstep.choose_variable picks uniformly among the variables that have a non-empty range of allowed splits at the node, and returns p if there are none.", "quantifier": "all well-formed trees, nodes, max_split vectors, draws", "why_tests_cant": "all tree shapes and max_split vectors", "anchors": ["src/bartz/mcmcstep.py:choose_variable", "src/bartz/mcmcstep.py:fully_used_variables", "src/bartz/mcmcstep.py:ancestor_variables"]}
{"id": "C23", "title": "Batch sizes do not change results", "statement": "Counting points per leaf and summing residuals per leaf gives the same result for every batch size, including no batching; hence in exact arithmetic the whole MCMC is independent of resid_batch_size and count_batch_size.", "quantifier": "all index arrays, values, sizes, batch sizes>=1; real arithmetic for residuals", "why_tests_cant": "for all sizes including non-divisible and empty ones", "anchors": ["src/bartz/mcmcstep.py:_aggregate_batched_onetree", "src/bartz/mcmcstep.py:_aggregate_batched_alltrees", "src/bartz/mcmcstep.py:_aggregate_scatter"]}
{"id": "C24", "title": "unique", "statement": "jaxext.unique(x, size, fill) returns the distinct values of x in increasing order padded with fill, and their number.", "quantifier": "all arrays, sizes, fill values", "why_tests_cant": "for all arrays and sizes", "anchors": ["src/bartz/jaxext.py:unique"]}
{"id": "C25", "title": "Quantile cutpoints", "statement": "quantilized_splits_from_matrix returns for each predictor an increasing list of max_split cutpoints, at most max_bins-1, each separating two consecutive distinct observed values, padded with the maximum value; if max_bins is at least the number of distinct values, all consecutive distinct values are separated; max_split is the number of used cutpoints.", "quantifier": "all integer matrices of any type up to 32 bits (and unsigned 64 bits) incl. extreme values, all max_bins>=1, all n; with the quantile positions in exact arithmetic, and in single precision for max_bins<=512 and n<2^24 (where the number of distinct values per bin is even up to one in a million)", "why_tests_cant": "integer overflow and rounding corner cases for all inputs", "anchors": ["src/bartz/prepcovars.py:quantilized_splits_from_matrix", "src/bartz/prepcovars.py:_quantilized_splits_from_matrix"]}
{"id": "C26", "title": "Uniform cutpoints", "statement": "uniform_splits_from_matrix returns num_bins-1 equally spaced cutpoints strictly between min and max of each predictor (all equal if constant), so the minimum falls in bin 0 and the maximum in the last bin, and max_split = num_bins-1.", "quantifier": "all matrices with n>=1, all num_bins>=1; exact arithmetic", "why_tests_cant": "for all inputs", "anchors": ["src/bartz/prepcovars.py:uniform_splits_from_matrix"]}
{"id": "C27", "title": "Binning", "statement": "bin_predictors maps x to the bin i iff splits[i-1] < x <= splits[i] and never to a bin beyond the number of used cutpoints; it is monotone in x.", "quantifier": "all sorted cutpoint rows padded with the maximum value, all x", "why_tests_cant": "for all inputs", "anchors": ["src/bartz/prepcovars.py:bin_predictors"]}
{"id": "C28", "title": "Trees on bins are thresholds on raw predictors; predict agrees with training", "statement": "Going right at a rule (var, s) on binned predictors is the same as x_raw[var] > cutpoint[s-1]; predict at the training predictors returns exactly yhat_train; predictions depend on x only through its comparison with the cutpoints.", "quantifier": "all forests, cutpoints, points", "why_tests_cant": "for all forests and inputs", "anchors": ["src/bartz/BART.py:predict", "src/bartz/BART.py:yhat_train", "src/bartz/prepcovars.py:bin_predictors", "src/bartz/mcmcloop.py:evaluate_trace"]}
{"id": "C29", "title": "autobatch does not change the result", "statement": "For every function that acts independently along the batched axes, autobatch(func, max_io_nbytes, in_axes, out_axes) returns what func returns, for every number of bytes. In particular the predictions (evaluate_trace), the quantile grids and the binned predictors do not depend on how the computation is batched.", "quantifier": "all such functions, shapes, axes, sizes, thresholds>=1", "why_tests_cant": "for all shapes and axes", "anchors": ["src/bartz/jaxext.py:autobatch"]}
{"id": "C30", "title": "autobatch batch sizes", "statement": "The number of batches divides the batched size, every batch is within max_io_nbytes unless batches have already size 1 (then a warning is issued), and the internal assertions never fail.", "quantifier": "all sizes, byte counts, thresholds>=1", "why_tests_cant": "number-theoretic for all sizes", "anchors": ["src/bartz/jaxext.py:autobatch"]}
{"id": "C31", "title": "MCMC schedule", "statement": "run_mcmc returns the state after exactly n_burn + n_save*n_skip steps; burn-in trace entry i is the state after i+1 steps; main trace entry j is the state after n_burn+(j+1)*n_skip steps; the lengths are n_burn and n_save.", "quantifier": "all n_burn, n_save, n_skip, states, keys", "why_tests_cant": "for all lengths", "anchors": ["src/bartz/mcmcloop.py:run_mcmc"]}
{"id": "C32", "title": "Sequential guarantee", "statement": "With the same key, moving k iterations from burn-in to the saved samples, or changing the thinning, never changes the chain: the saved samples are the corresponding sub-sequence of the same chain.", "quantifier": "all n_burn, n_save, n_skip, keys", "why_tests_cant": "a test checks k=1 and thinning 2", "anchors": ["src/bartz/mcmcloop.py:run_mcmc"]}
{"id": "C33", "title": "Callback protocol", "statement": "The callback is called once per iteration with i_total=0,1,2,..., with burnin True exactly for the first n_burn calls, with i_skip counting iterations since the last saved one, and with the state after that iteration.", "quantifier": "all n_burn, n_save, n_skip", "why_tests_cant": "for all lengths", "anchors": ["src/bartz/mcmcloop.py:run_mcmc"]}
{"id": "C34", "title": "Random keys are never reused", "statement": "In a whole run of any length each random key derived from the seed is consumed by at most one draw, and no consumed key is also used to derive other keys; the run depends on the random generator only through those draws.", "quantifier": "all run lengths and numbers of trees", "why_tests_cant": "key plumbing mistakes do not crash; only independence is lost", "anchors": ["src/bartz/mcmcstep.py:step", "src/bartz/mcmcstep.py:sample_trees", "src/bartz/mcmcstep.py:sample_moves", "src/bartz/mcmcstep.py:grow_move", "src/bartz/mcmcloop.py:run_mcmc"]}
{"id": "C35", "title": "Steps do not modify their input", "statement": "mcmcstep.step (and the functions it is made of) returns a new state and leaves the input dictionary and the dictionaries it contains unchanged.", "quantifier": "all states, with or without saved ratios", "why_tests_cant": "aliasing property on all paths", "anchors": ["src/bartz/mcmcstep.py:accept_moves_sequential_stage", "src/bartz/mcmcstep.py:accept_moves_parallel_stage", "src/bartz/mcmcstep.py:accept_moves_final_stage", "src/bartz/mcmcstep.py:sample_sigma"]}
{"id": "C36", "title": "Affine equivariance of gbart", "statement": "Replacing y by a+b*y (b>0) leaves the standardized response and scaled prior unchanged, hence with the same seed yields the same trees, predictions a+b*yhat, sigma, offset, scale, sigest, lamda scaled accordingly.", "quantifier": "all datasets with n>=2 and non-constant y, all a, b>0, all seeds; real arithmetic", "why_tests_cant": "for all datasets and affine maps", "anchors": ["src/bartz/BART.py:gbart.__init__", "src/bartz/BART.py:_process_noise_variance_settings", "src/bartz/BART.py:_process_scale_settings", "src/bartz/BART.py:_process_offset_settings"]}
{"id": "C37", "title": "No minimum equals minimum 0", "statement": "Leaving min_points_per_leaf unspecified gives the same chain as min_points_per_leaf=0.", "quantifier": "all datasets, random outcomes, numbers of steps, any float rounding", "why_tests_cant": "relational property over all histories", "anchors": ["src/bartz/mcmcstep.py:init", "src/bartz/mcmcstep.py:growable_leaves", "src/bartz/mcmcstep.py:compute_p_prune"]}
{"id": "C38", "title": "Diagnostics are right", "statement": "debug.check_tree followed by describe_error lists exactly the failed checks; forest_depth_distr counts each tree once at its actual depth; points_per_leaf_distr counts each leaf once by its number of points, so it sums to the number of leaves and its first moment is n.", "quantifier": "all trees and points", "why_tests_cant": "all shapes", "anchors": ["src/bartz/debug.py:check_tree", "src/bartz/debug.py:describe_error", "src/bartz/debug.py:forest_depth_distr", "src/bartz/debug.py:points_per_leaf_distr"]}
{"id": "C39", "title": "Minimal integer types never overflow", "statement": "minimal_unsigned_dtype picks the smallest unsigned type that holds the value; traversal indices, leaf indices, bins, cutpoints and variables stored in such types never wrap around. For the computation of new cutpoints this needs the type to hold also the number of cutpoints plus one; that it holds their number is not enough.", "quantifier": "all depths, sizes, values below 2**64", "why_tests_cant": "overflow appears only at particular sizes (2**8, 2**16, ...)", "anchors": ["src/bartz/jaxext.py:minimal_unsigned_dtype", "src/bartz/grove.py:traverse_tree", "src/bartz/mcmcstep.py:init"]}
{"id": "C40", "title": "Traces contain exactly the documented fields", "statement": "burnin_trace contains only the documented subset of fields and main_trace those plus the trees, for all lengths including zero.", "quantifier": "all n_burn, n_save>=0", "why_tests_cant": "special-cased code paths for zero lengths", "anchors": ["src/bartz/mcmcloop.py:run_mcmc"]}
{"id": "C41", "title": "All documented depths work", "statement": "mcmcstep.step works for every maximum depth >=1 (maxdepth is documented as 1-based, depth 1 meaning only a root).", "quantifier": "all depths", "why_tests_cant": "tests use the default depth", "anchors": ["src/bartz/mcmcstep.py:ancestor_variables", "src/bartz/BART.py:gbart"]}
{"id": "C42", "title": "Data order does not matter (exact arithmetic)", "statement": "Permuting the datapoints (columns of X together with y) gives the same trees, leaf values and noise variances for the same random draws, and permuted residuals.", "quantifier": "all datasets, permutations, random outcomes, numbers of steps; real arithmetic", "why_tests_cant": "relational property over all histories", "anchors": ["src/bartz/mcmcstep.py:step"]}
{"id": "C43", "title": "Progress log", "statement": "With printevery=k>=1 the log prints exactly the iterations k,2k,3k,... up to the total, marks exactly those in burn-in, and the total shown is the number of iterations run.", "quantifier": "all k, n_burn, n_save, n_skip", "why_tests_cant": "for all lengths", "anchors": ["src/bartz/mcmcloop.py:make_simple_print_callback", "src/bartz/mcmcloop.py:_simple_print_callback"]}
{"id": "C44", "title": "Automatic batch sizes are valid", "statement": "The automatically chosen batch sizes are always positive integers (or no batching), for every n (including 0) and platform.", "quantifier": "all n, forest sizes, platforms", "why_tests_cant": "rounding corner cases", "anchors": ["src/bartz/mcmcstep.py:_choose_suffstat_batch_size"]}
{"id": "C45", "title": "Tree printing visits every node once", "statement": "debug.print_tree terminates and prints each reachable node exactly once, in depth-first order, with the right kind of node.", "quantifier": "all trees", "why_tests_cant": "all shapes", "anchors": ["src/bartz/debug.py:print_tree"]}
{"id": "C46", "title": "Metropolis-Hastings acceptance", "statement": "A proposed change of a tree is accepted exactly when a uniform draw in (0,1] does not exceed posterior(new) P(new->old) / (posterior(old) P(old->new)) and the children have enough points; the tree structure is then the proposed one, otherwise it stays the same. The posterior of a tree is its prior times the probability of the data given the other trees, with the leaf values integrated out.", "quantifier": "all reachable states, trees, proposals, random draws, 0<p_nonterminal<1, sigma2>0; real arithmetic", "why_tests_cant": "a statement about all pairs of trees and all data", "anchors": ["src/bartz/mcmcstep.py:accept_move_and_sample_leaves", "src/bartz/mcmcstep.py:sample_moves"]}
{"id": "C47", "title": "Results of gbart in the units of the response", "statement": "yhat_train has one row per saved iteration and one column per datapoint; in each saved iteration y_train minus that row of yhat_train is scale times the residuals of the sampler. sigma and first_sigma have one entry per saved and burn-in iteration and are positive.", "quantifier": "all arguments (x, y, settings) with n >= 1, y not constant or n = 1 where a division by the scale is involved; real arithmetic", "why_tests_cant": "a relation between the preparation of the data, a chain of any length and the postprocessing of the trace", "anchors": ["src/bartz/BART.py:gbart.__init__", "src/bartz/BART.py:gbart.yhat_train", "src/bartz/BART.py:gbart._extract_sigma"]}
{"id": "C48", "title": "Documented prior of gbart", "statement": "The prior is the documented one: a node at depth d splits with probability base/(1+d)^power, never at the last level; the function has mean offset (or the mean of y) and standard deviation half the range of y over k (1 with less than two points); the noise variance is a priori inverse chi-squared with sigdf degrees of freedom and harmonic mean lamda; if lamda is not given, the noise standard deviation is less than sigest with probability sigquant. If sigest is not given it is 1 with less than two points, the standard deviation of y if n<=p, else the root of the smallest sum of squared residuals of a linear regression with intercept over n minus the rank. (The documentation says variance of y for n<=p: refuted.)", "quantifier": "all arguments with n>=1; real arithmetic", "why_tests_cant": "a statement about distributions (integrals, quantiles) and a minimum over all regression coefficients, for all data", "anchors": ["src/bartz/BART.py:gbart._process_noise_variance_settings", "src/bartz/BART.py:gbart._process_scale_settings", "src/bartz/BART.py:gbart._process_offset_settings", "src/bartz/BART.py:gbart._setup_mcmc", "src/bartz/jaxext.py:scipy.stats.invgamma.ppf"]}
{"id": "C49", "title": "Detailed balance of the tree updates", "statement": "Within a step, the update of each tree given the other trees and the noise variance is a random transition in detailed balance with the posterior of the tree: for any two different tree structures, posterior(first) times the probability of going from the first to the second equals posterior(second) times the probability of going back. Each growth of an eligible leaf with an available rule that leaves enough points in both children, and each pruning of a pair of leaves, has positive probability; nothing else has. The probabilities of the other structures add up to at most one, the rest being the probability of keeping the structure, and the posterior is a stationary distribution of the update.", "quantifier": "all reachable states, trees, pairs of structures, values of the draws not used by the update, settings with at least one point per leaf and 0<p_nonterminal<1, sigma2>0; real arithmetic, independent exact uniform draws", "why_tests_cant": "a statement about probabilities over all random draws and about all pairs of trees", "anchors": ["src/bartz/mcmcstep.py:sample_moves", "src/bartz/mcmcstep.py:grow_move", "src/bartz/mcmcstep.py:prune_move", "src/bartz/mcmcstep.py:accept_move_and_sample_leaves", "src/bartz/mcmcstep.py:randint_masked"]}
{"id": "C50", "title": "Test predictions and posterior means of gbart", "statement": "Passing x_test changes nothing else in the result: yhat_test equals predict(x_test), and yhat_test_mean, yhat_train_mean are the averages over the saved iterations of the regression function at the points. gbart fails exactly when x_train, y_train have different lengths or x_test has a different format (number or names of predictors) than x_train.", "quantifier": "all arguments, training and test sets of any size; real arithmetic", "why_tests_cant": "a relation between two complete runs of the sampler for any data, and an exact characterisation of the failures", "anchors": ["src/bartz/BART.py:gbart.__init__", "src/bartz/BART.py:gbart.predict", "src/bartz/BART.py:gbart.yhat_train_mean", "src/bartz/BART.py:gbart._check_compatible_formats", "src/bartz/BART.py:gbart._check_same_length"]}
{"id": "C51", "title": "DataFrames and Series", "statement": "Passing the predictors as a DataFrame (a column per predictor) and the response as a Series gives the same result as passing the corresponding arrays, and a later prediction is accepted exactly if the column names are the same in the same order. (Refuted for pandas, whose Index compares elementwise: frames with the same names and two or more columns are rejected unless they share the Index object.)", "quantifier": "all DataFrames, Series and arrays, of any size", "why_tests_cant": "a relation between runs on different representations of the data, for all column names", "anchors": ["src/bartz/BART.py:gbart._process_predictor_input", "src/bartz/BART.py:gbart._process_response_input", "src/bartz/BART.py:gbart._check_compatible_formats"]}
{"id": "C52", "title": "Diagnostics of a fit", "statement": "The diagnostic methods of gbart report what they say. The residuals of the state agree with those recomputed from the trees. The acceptance and proposal rates are the counts of accepted or allowed moves over the number of moves. The harmonic mean of the noise is that of its prior, or of its posterior given the residuals. The checks of the trees find no error and no rule uses an exhausted interval. The depth distribution and the points-per-leaf distribution count every tree and every datapoint; no leaf of a tree with decisions has fewer points than the minimum.", "quantifier": "all arguments, all saved iterations and all trees; real arithmetic", "why_tests_cant": "invariants over executions of any length, and integrals for the noise", "anchors": ["src/bartz/BART.py:gbart._show_tree", "src/bartz/BART.py:gbart._sigma_harmonic_mean", "src/bartz/BART.py:gbart._compare_resid", "src/bartz/BART.py:gbart._avg_acc", "src/bartz/BART.py:gbart._avg_prop", "src/bartz/BART.py:gbart._avg_move", "src/bartz/BART.py:gbart._depth_distr", "src/bartz/BART.py:gbart._points_per_leaf_distr", "src/bartz/BART.py:gbart._check_trees", "src/bartz/BART.py:gbart._tree_goes_bad"]}
{"id": "C53", "title": "The sampler can visit every admissible forest", "statement": "Call admissible a tree structure that is a single leaf, or that has at most the maximum depth, uses the given predictors and has at least min_points_per_leaf training points in each leaf. In every state of a chain all the tree structures are admissible. In one step each tree takes, with positive probability, any admissible structure with one decision node more and any structure with one decision node less. From any state of a chain started by init, any one tree can take any admissible structure, and the whole forest can take any admissible structures for which the numbers of decision nodes of the trees change all by an even number or all by an odd number.", "quantifier": "for all training data, numbers of trees, depths, cutpoints, admissible target forests and states of the chain, with min_points_per_leaf >= 1, 0 < p_nonterminal < 1 and a proper prior on the noise variance", "why_tests_cant": "It is a statement about the existence of sequences of draws, of any length, towards each of the exponentially many structures; a finite run visits few of them and cannot tell a structure that is rare from one that is excluded by a bug in the proposal (for example a cutpoint never drawn).", "anchors": ["src/bartz/mcmcstep.py:step", "src/bartz/mcmcstep.py:sample_moves", "src/bartz/mcmcstep.py:grow_move", "src/bartz/mcmcstep.py:choose_leaf", "src/bartz/mcmcstep.py:choose_variable", "src/bartz/mcmcstep.py:choose_split", "src/bartz/mcmcstep.py:prune_move", "src/bartz/mcmcstep.py:accept_move_and_sample_leaves"]}
{"id": "C54", "title": "Broadcasting and vectorisation of the gamma quantile", "statement": "scipy.special.gammainccinv of the jax extensions applies the scalar function to its arguments broadcast together as numpy does, and fails if the shapes cannot be broadcast; under jax.vmap, with either or both arguments mapped, it returns the stack of what it returns at each position.", "quantifier": "all shapes with any number of axes, all values, all choices of mapped arguments, one level of vmap, both ways in which jax passes the arguments that are not mapped", "why_tests_cant": "all combinations of numbers of axes and sizes", "anchors": ["src/bartz/jaxext.py:pure_callback_ufunc", "src/bartz/jaxext.py:gammainccinv", "src/bartz/jaxext.py:castto"]}
{"id": "C55", "title": "All the updates of a step target the same posterior", "statement": "Consider the posterior of the regression model: independent trees with the configured prior on the rules and N(0, 1/ntree) leaf values, inverse gamma noise variance with parameters sigma2_alpha and sigma2_beta, normal responses around the sum of the trees. The update of each tree within mcmcstep.step leaves invariant the conditional distribution of that tree under this posterior given the current values of everything else, and the update of the noise variance is a draw from its conditional distribution. With one tree, the whole step leaves the posterior invariant.", "quantifier": "all reachable states, trees, keys, data, settings with at least one point per leaf and 0<p_nonterminal<1; real arithmetic, exact distributions of the draws", "why_tests_cant": "an identity between densities for all values of the parameters, and integrals", "anchors": ["src/bartz/mcmcstep.py:step", "src/bartz/mcmcstep.py:sample_trees", "src/bartz/mcmcstep.py:accept_move_and_sample_leaves", "src/bartz/mcmcstep.py:sample_sigma"]}
{"id": "C56", "title": "The standardised response consists of numbers", "statement": "If two responses differ by at least 2^-60, and the responses, the offset and k are not extreme (at most 2^40 in size; k between 2^-20 and 2^20), gbart computes a finite positive scale and finite standardised responses. If instead there are at least two responses and they are all equal, no standardised response is finite, nor is the scaled parameter lamda of the noise prior, for any offset, k, lamda. A response that is not finite makes its residual not finite in every state of the chain and the noise variance not finite after every step.", "quantifier": "all single precision responses of any number, all offsets, k, lamda; all chains of any length, all draws", "why_tests_cant": "rounding of three operations for all responses", "anchors": ["src/bartz/BART.py:gbart._process_scale_settings", "src/bartz/BART.py:gbart._transform_input", "src/bartz/BART.py:gbart.__init__", "src/bartz/mcmcstep.py:step"]}
{"id": "C57", "title": "Entries of initkw replace the sampler's arguments, and nothing else", "statement": "gbart(initkw=d): the sampler is initialised with every entry of d, and with gbart's documented value for every parameter that d does not contain (X, y, max_split, num_trees, p_nonterminal = base / (1 + depth) ** power, sigma2_alpha = sigdf / 2, sigma2_beta = lamda * sigdf / 2, min_points_per_leaf = 5, automatic batch sizes, no saved ratios). A keyword that the initialisation does not have raises. Batch sizes left to 'auto' are chosen for the data and the forest after the replacement: positive, or no batches for the counts on cpu, and within the memory bound on gpu. If the replaced values make sense the guarantees of the sampler hold, for instance the replaced minimum number of points per leaf is respected in every state.", "quantifier": "all dictionaries, all arguments, all data, both platforms", "why_tests_cant": "there are exponentially many sets of replaced arguments, and the automatic choices depend on the other entries", "anchors": ["src/bartz/BART.py:gbart._setup_mcmc", "src/bartz/mcmcstep.py:init", "src/bartz/mcmcstep.py:_choose_suffstat_batch_size"]}
