(** Model of src/bartz/mcmcstep.py.

    Arrays with a leading num_trees axis are lists over the trees; the per-tree
    arrays of the state dictionary ('leaf_trees', 'var_trees', 'split_trees',
    'leaf_indices', 'affluence_trees') are grouped in one record per tree.  The
    predictors matrix X (p, n) is the list of its n columns.  [jax.vmap] over
    trees is [map], [lax.scan] over trees is a fold. small_float and
    large_float are one type [F]. int32 quantities do not wrap around. *)
From Coq Require Import ZArith List Bool.
From Verif Require Import Base ModelJaxext ModelGrove.
Import ListNotations.
Open Scope Z_scope.

Section Step.
  Context {fo : fops} {zo : zoob} {foo : foob fo}.

  (** mcmcstep.py:98-158, the per-tree fields of the state. *)
  Record tree := mktree {
    t_leaf : list F;               (* 'leaf_trees' *)
    t_var : list Z;                (* 'var_trees' *)
    t_split : list Z;              (* 'split_trees' *)
    t_idx : list Z;                (* 'leaf_indices' *)
    t_aff : option (list bool)     (* 'affluence_trees' *)
  }.

  (** mcmcstep.py:98-158, the state. [split_bits] is the dtype of 'max_split'
      and 'split_trees'. *)
  Record bart := mkbart {
    trees : list tree;
    resid : list F;
    sigma2 : F;
    grow_prop_count : Z;
    grow_acc_count : Z;
    prune_prop_count : Z;
    prune_acc_count : Z;
    p_nonterminal : list F;
    p_propose_grow : list F;
    sigma2_alpha : F;
    sigma2_beta : F;
    max_split : list Z;
    split_bits : Z;
    y : list F;
    X : list (list Z);
    min_points_per_leaf : option Z;
    resid_batch_size : option Z;   (* 'opt' *)
    count_batch_size : option Z;   (* 'opt' *)
    ratios : option (list (F * F)) (* log_trans_prior, log_likelihood *)
  }.

  (** mcmcstep.py:47-217 [init].  The batch sizes are those already resolved by
      [_choose_suffstat_batch_size] (see ModelBatchSize.v). *)
  Definition init (X : list (list Z)) (y : list F) (max_split : list Z)
      (split_bits : Z) (num_trees : Z) (p_nonterminal : list F)
      (sigma2_alpha sigma2_beta : F) (min_points_per_leaf : option Z)
      (resid_batch_size count_batch_size : option Z) (save_ratios : bool) : bart :=
    let p_nonterminal := p_nonterminal ++ [f0] in                  (* l.162 *)
    let max_depth := zlen p_nonterminal in                         (* l.163 *)
    let sigma2 := fdiv sigma2_beta sigma2_alpha in                 (* l.173 *)
    let sigma2 := if fisfinite sigma2 && flt f0 sigma2 then sigma2 else f1 in
    let t := {|
      t_leaf := make_tree max_depth f0;
      t_var := make_tree (max_depth - 1) 0;
      t_split := make_tree (max_depth - 1) 0;
      t_idx := full (zlen y) 1;                                    (* l.193 *)
      t_aff := match min_points_per_leaf with                      (* l.198-201 *)
               | None => None
               | Some m => Some (scatter_set (make_tree (max_depth - 1) false) 1
                                   (2 * m <=? zlen y))
               end
    |} in
    {|
      trees := full num_trees t;
      resid := y;
      sigma2 := sigma2;
      grow_prop_count := 0; grow_acc_count := 0;
      prune_prop_count := 0; prune_acc_count := 0;
      p_nonterminal := p_nonterminal;
      p_propose_grow := map (gather fmode p_nonterminal)
                          (tree_depths (2 ^ (max_depth - 1)));     (* l.187 *)
      sigma2_alpha := sigma2_alpha; sigma2_beta := sigma2_beta;
      max_split := max_split; split_bits := split_bits;
      y := y; X := X;
      min_points_per_leaf := min_points_per_leaf;
      resid_batch_size := resid_batch_size;
      count_batch_size := count_batch_size;
      ratios := if save_ratios then Some (full num_trees (fnan, fnan)) else None
    |}.

  (** ** Proposals *)

  (** mcmcstep.py:485-506 [growable_leaves] *)
  Definition growable_leaves (split_tree : list Z) (affluence_tree : option (list bool))
      : list bool :=
    let is_growable := is_actual_leaf split_tree false in
    match affluence_tree with
    | None => is_growable
    | Some aff => map2 andb is_growable aff
    end.

  (** mcmcstep.py:508-527 [categorical] *)
  Definition categorical {g : rng fo} (k : key) (distr : list F) : Z * F :=
    let ecdf := fcumsum distr in
    let total := gather fmode ecdf (-1) in
    let u := r_unif_to k total in
    (searchsorted_right flt ecdf u, total).

  (** mcmcstep.py:447-483 [choose_leaf] *)
  Definition choose_leaf {g : rng fo} (split_tree : list Z)
      (affluence_tree : option (list bool)) (p_propose_grow : list F) (k : key)
      : Z * Z * F * Z :=
    let is_growable := growable_leaves split_tree affluence_tree in
    let num_growable := count_nonzero is_growable in
    let distr := map2 (fun b p => if b : bool then p else f0) is_growable p_propose_grow in
    let '(leaf_to_grow, distr_norm) := categorical k distr in
    let leaf_to_grow :=
      if negb (num_growable =? 0) then leaf_to_grow else 2 * zlen split_tree in
    let prob_choose := fdiv (gather fmode distr leaf_to_grow) distr_norm in
    let is_parent := is_leaves_parent (scatter_set split_tree leaf_to_grow 1) in
    let num_prunable := count_nonzero is_parent in
    (leaf_to_grow, num_growable, prob_choose, num_prunable).

  (** mcmcstep.py:611-617 [loop] in [ancestor_variables]; [bits] is the dtype
      of ancestor_vars (l.609). The filler of l.615 takes the dtype of var_tree,
      chosen by [init] (l.178), which is too small for it if p is 2^8,
      2^16 or 2^32. *)
  Definition ancestor_loop (bits p : Z) (var_tree : list Z)
      (carry : Z * Z * list Z) : Z * Z * list Z :=
    let '(i, index, ancestor_vars) := carry in
    let index := Z.shiftr index 1 in
    let var := gather zmode var_tree index in
    let var := if negb (index =? 0) then var else wrap (minimal_unsigned_bits (p - 1)) p in
    let ancestor_vars := scatter_set ancestor_vars i (wrap bits var) in
    (i - 1, index, ancestor_vars).

  (** mcmcstep.py:589-619 [ancestor_variables]. A negative max_num_ancestors
      makes jnp.zeros raise, see [step_traces] below. *)
  Definition ancestor_variables (var_tree max_split : list Z) (node_index : Z) : list Z :=
    let max_num_ancestors := tree_depth var_tree - 1 in
    let bits := minimal_unsigned_bits (zlen max_split) in
    let ancestor_vars := full max_num_ancestors 0 in
    let carry := (zlen ancestor_vars - 1, node_index, ancestor_vars) in
    snd (iterate (Z.to_nat max_num_ancestors)
           (ancestor_loop bits (zlen max_split) var_tree) carry).

  (** mcmcstep.py:646-654 [loop] in [split_range] *)
  Definition split_range_loop (var_tree split_tree : list Z) (ref_var : Z)
      (carry : Z * Z * Z) : Z * Z * Z :=
    let '(l, r, index) := carry in
    let right_child := negb (Z.land index 1 =? 0) in
    let index := Z.shiftr index 1 in
    let split := gather zmode split_tree index in
    let cond := (gather zmode var_tree index =? ref_var) && negb (index =? 0) in
    let l := if cond && right_child then Z.max l split else l in
    let r := if cond && negb right_child then Z.min r split else r in
    (l, r, index).

  (** mcmcstep.py:621-656 [split_range]; [bits] is the dtype of split_tree,
      which is also that of l: its initial value, a Python integer, is weakly
      typed, so the maximum on l.652 has the dtype of split_tree, and so has the
      sum on l.656. r is an int32 (l.644). *)
  Definition split_range (bits : Z) (var_tree split_tree max_split : list Z)
      (node_index ref_var : Z) : Z * Z :=
    let max_num_ancestors := tree_depth var_tree - 1 in
    let initial_r := 1 + gather_fill 0 max_split ref_var in
    let '(l, r, _) := iterate (Z.to_nat max_num_ancestors)
                        (split_range_loop var_tree split_tree ref_var)
                        (0, initial_r, node_index) in
    (wrap bits (l + 1), r).

  (** mcmcstep.py:559-587 [fully_used_variables] *)
  Definition fully_used_variables (bits : Z) (var_tree split_tree max_split : list Z)
      (leaf_index : Z) : list Z :=
    let var_to_ignore := ancestor_variables var_tree max_split leaf_index in
    map (fun v =>
           let '(l, r) := split_range bits var_tree split_tree max_split leaf_index v in
           if r - l =? 0 then v else zlen max_split)
        var_to_ignore.

  (** mcmcstep.py:658-685 [randint_exclude] *)
  Definition randint_exclude {g : rng fo} (k : key) (sup : Z) (exclude : list Z) : Z :=
    let exclude := jnp_unique exclude sup in
    let num_allowed := sup - count_nonzero (map (fun i => i <? sup) exclude) in
    let u := randint k 0 num_allowed in
    fold_left (fun u i => if i <=? u then u + 1 else u) exclude u.

  (** mcmcstep.py:529-557 [choose_variable] *)
  Definition choose_variable {g : rng fo} (bits : Z) (var_tree split_tree max_split : list Z)
      (leaf_index : Z) (k : key) : Z :=
    let var_to_ignore := fully_used_variables bits var_tree split_tree max_split leaf_index in
    randint_exclude k (zlen max_split) var_to_ignore.

  (** mcmcstep.py:687-712 [choose_split] *)
  Definition choose_split {g : rng fo} (bits : Z) (var_tree split_tree max_split : list Z)
      (leaf_index : Z) (k : key) : Z :=
    let var := gather zmode var_tree leaf_index in
    let '(l, r) := split_range bits var_tree split_tree max_split leaf_index var in
    randint k l r.

  (** mcmcstep.py:714-758 [compute_partial_ratio] *)
  Definition compute_partial_ratio (prob_choose : F) (num_prunable : Z)
      (p_nonterminal : list F) (leaf_to_grow : Z) : F :=
    let prune_allowed := negb (leaf_to_grow =? 1) in
    let p_grow := if prune_allowed then fhalf else f1 in
    let inv_trans_ratio := fmul (fmul p_grow prob_choose) (fofZ num_prunable) in
    let depth := gather zmode (tree_depths (2 ^ (zlen p_nonterminal - 1))) leaf_to_grow in
    let p_parent := gather fmode p_nonterminal depth in
    let cp_children := fsub f1 (gather fmode p_nonterminal (depth + 1)) in
    let tree_ratio :=
      fdiv (fmul (fmul cp_children cp_children) p_parent) (fsub f1 p_parent) in
    fdiv tree_ratio inv_trans_ratio.

  Record grow_proposal := mkgrow {
    g_num_growable : Z; g_node : Z; g_var : Z; g_split : Z;
    g_partial_ratio : F; g_var_tree : list Z
  }.

  (** mcmcstep.py:382-445 [grow_move].  The cast on line 432 is to the dtype of
      var_trees, chosen on line 178 from the number of predictors; [bits] is
      the dtype of split_tree. *)
  Definition grow_move {g : rng fo} (bits : Z) (var_tree split_tree : list Z)
      (affluence_tree : option (list bool)) (max_split : list Z)
      (p_nonterminal p_propose_grow : list F) (k : key) : grow_proposal :=
    let key0 := KSplit k 3 0 in
    let key1 := KSplit k 3 1 in
    let key2 := KSplit k 3 2 in
    let '(leaf_to_grow, num_growable, prob_choose, num_prunable) :=
      choose_leaf split_tree affluence_tree p_propose_grow key0 in
    let var := choose_variable bits var_tree split_tree max_split leaf_to_grow key1 in
    let var_bits := minimal_unsigned_bits (zlen max_split - 1) in
    let var_tree := scatter_set var_tree leaf_to_grow (wrap var_bits var) in
    let split := choose_split bits var_tree split_tree max_split leaf_to_grow key2 in
    let ratio := compute_partial_ratio prob_choose num_prunable p_nonterminal leaf_to_grow in
    {| g_num_growable := num_growable; g_node := leaf_to_grow; g_var := var;
       g_split := split; g_partial_ratio := ratio; g_var_tree := var_tree |}.

  (** mcmcstep.py:847-866 [randint_masked] *)
  Definition randint_masked {g : rng fo} (k : key) (mask : list bool) : Z :=
    let ecdf := cumsum_from Z.add 0 (map b2z mask) in
    let u := randint k 0 (gather zmode ecdf (-1)) in
    searchsorted_right Z.ltb ecdf u.

  (** [jnp.sum(a, where=mask)] *)
  Definition fsum_where (a : list F) (mask : list bool) : F :=
    fold_left fadd (map2 (fun (b : bool) p => if b then p else f0) mask a) f0.

  (** mcmcstep.py:806-845 [choose_leaf_parent] *)
  Definition choose_leaf_parent {g : rng fo} (split_tree : list Z)
      (affluence_tree : option (list bool)) (p_propose_grow : list F) (k : key)
      : Z * Z * F :=
    let is_prunable := is_leaves_parent split_tree in
    let num_prunable := count_nonzero is_prunable in
    let node_to_prune := randint_masked k is_prunable in
    let node_to_prune :=
      if negb (num_prunable =? 0) then node_to_prune else 2 * zlen split_tree in
    let split_tree := scatter_set split_tree node_to_prune 0 in
    let affluence_tree :=
      match affluence_tree with
      | None => None
      | Some aff => Some (scatter_set aff node_to_prune true)
      end in
    let is_growable_leaf := growable_leaves split_tree affluence_tree in
    let prob_choose := gather fmode p_propose_grow node_to_prune in
    let prob_choose := fdiv prob_choose (fsum_where p_propose_grow is_growable_leaf) in
    (node_to_prune, num_prunable, prob_choose).

  Record prune_proposal := mkprune {
    pr_allowed : bool; pr_node : Z; pr_partial_ratio : F
  }.

  (** mcmcstep.py:760-804 [prune_move] *)
  Definition prune_move {g : rng fo} (split_tree : list Z)
      (affluence_tree : option (list bool)) (p_nonterminal p_propose_grow : list F)
      (k : key) : prune_proposal :=
    let '(node_to_prune, num_prunable, prob_choose) :=
      choose_leaf_parent split_tree affluence_tree p_propose_grow k in
    let allowed := negb (gather zmode split_tree 1 =? 0) in
    let ratio := compute_partial_ratio prob_choose num_prunable p_nonterminal node_to_prune in
    {| pr_allowed := allowed; pr_node := node_to_prune; pr_partial_ratio := ratio |}.

  (** mcmcstep.py:312-339, one tree's entry of the moves dictionary. *)
  Record move := mkmove {
    m_allowed : bool; m_grow : bool; m_num_growable : Z; m_node : Z;
    m_left : Z; m_right : Z; m_partial_ratio : F; m_grow_var : Z;
    m_grow_split : Z; m_var_tree : list Z; m_logu : F
  }.

  (** mcmcstep.py:350-372, the choice between grow and prune for one tree;
      [u] and [logu] are that tree's entries of line 348. *)
  Definition choose_move (gm : grow_proposal) (pm : prune_proposal) (u logu : F) : move :=
    let grow_allowed := negb (g_num_growable gm =? 0) in
    let p_grow := if grow_allowed && pr_allowed pm then fhalf
                  else if grow_allowed then f1 else f0 in
    let grow := flt u p_grow in
    let node := if grow then g_node gm else pr_node pm in
    let left := Z.shiftl node 1 in
    {| m_allowed := grow || pr_allowed pm;
       m_grow := grow;
       m_num_growable := g_num_growable gm;
       m_node := node;
       m_left := left;
       m_right := left + 1;
       m_partial_ratio := if grow then g_partial_ratio gm else pr_partial_ratio pm;
       m_grow_var := g_var gm;
       m_grow_split := g_split gm;
       m_var_tree := g_var_tree gm;
       m_logu := flog1p (fneg logu) |}.

  (** mcmcstep.py:374-380 [_sample_moves_vmap_trees], for one tree *)
  Definition sample_moves_tree {g : rng fo} (b : bart) (t : tree) (k : key)
      : grow_proposal * prune_proposal :=
    let key0 := KSplit k 2 0 in
    let key1 := KSplit k 2 1 in
    (grow_move (split_bits b) (t_var t) (t_split t) (t_aff t) (max_split b) (p_nonterminal b)
       (p_propose_grow b) key0,
     prune_move (t_split t) (t_aff t) (p_nonterminal b) (p_propose_grow b) key1).

  (** [enumerate(l)] *)
  Definition enumerate {A} (l : list A) : list (Z * A) :=
    combine (arange (zlen l)) l.

  (** mcmcstep.py:301-372 [sample_moves].  Line 348 draws an array of shape
      (2, ntree); entry (0, i) is u, entry (1, i) is logu. *)
  Definition sample_moves {g : rng fo} (b : bart) (k : key) : list move :=
    let ntree := zlen (trees b) in
    let key0 := KSplit k (1 + ntree) 0 in
    map (fun it =>
           let '(i, t) := it in
           let subkey := KSplit k (1 + ntree) (1 + i) in
           let '(gm, pm) := sample_moves_tree b t subkey in
           choose_move gm pm (r_unif key0 i) (r_unif key0 (ntree + i)))
        (enumerate (trees b)).

  (** ** Acceptance, parallel stage *)

  (** mcmcstep.py:942-969 [apply_grow_to_indices], one tree. [X[var, :]] reads
      entry [var] of each column. The dtype of leaf_indices was chosen on line
      193. *)
  Definition apply_grow_to_indices (m : move) (leaf_indices : list Z) (X : list (list Z))
      : list Z :=
    let tree_size := 2 * zlen (m_var_tree m) in
    let bits := minimal_unsigned_bits (tree_size - 1) in
    let left_child := wrap bits (Z.shiftl (wrap bits (m_node m)) 1) in
    let go_right := map (fun x => m_grow_split m <=? gather zmode x (m_grow_var m)) X in
    let node_to_update := if m_grow m then m_node m else tree_size in
    map2 (fun li gr => if li =? node_to_update
                       then wrap bits (left_child + b2z gr) else li)
      leaf_indices go_right.

  (** mcmcstep.py:1126-1151 [adapt_leaf_trees_to_grow_indices], one tree *)
  Definition adapt_leaf_trees_to_grow_indices (leaf_tree : list F) (m : move) : list F :=
    let values_at_node := gather fmode leaf_tree (m_node m) in
    let size := zlen leaf_tree in
    let leaf_tree := scatter_set leaf_tree (if m_grow m then m_left m else size) values_at_node in
    scatter_set leaf_tree (if m_grow m then m_right m else size) values_at_node.

  (** mcmcstep.py:1041-1046 [_aggregate_scatter] with an addition [add] *)
  Definition aggregate_scatter {A} (add : A -> A -> A) (zero : A)
      (values : list A) (indices : list Z) (size : Z) : list A :=
    fold_left (fun acc iv => scatter_upd acc (fst iv) (fun x => add x (snd iv)))
      (combine indices values) (full size zero).

  (** n // batch_size + bool(n % batch_size), mcmcstep.py:1055 and 1420 *)
  Definition num_batches (n batch_size : Z) : Z :=
    n / batch_size + b2z (negb (n mod batch_size =? 0)).

  (** mcmcstep.py:1052-1062 [_aggregate_batched_alltrees] for one tree, and
      1418-1427 [_aggregate_batched_onetree]: a (size, nbatches) array filled by
      scattering, then summed along the second axis. *)
  Definition aggregate_batched {A} (add : A -> A -> A) (zero : A)
      (values : list A) (indices : list Z) (size batch_size : Z) : list A :=
    let n := zlen indices in
    let nbatches := num_batches n batch_size in
    let batch_indices := map (fun i => i mod nbatches) (arange n) in
    let table := fold_left
      (fun acc ibv => let '(i, b, v) := ibv in
         scatter_upd acc i (fun row => scatter_upd row b (fun x => add x v)))
      (combine (combine indices batch_indices) values)
      (full size (full nbatches zero)) in
    map (fun row => fold_left add row zero) table.

  (** addition in uint32 *)
  Definition add32 (a b : Z) : Z := wrap 32 (a + b).

  (** mcmcstep.py:1012-1050 [count_datapoints_per_leaf], [_count_scan],
      [_count_vec], one tree *)
  Definition count_datapoints_per_leaf (leaf_indices : list Z) (tree_size : Z)
      (batch_size : option Z) : list Z :=
    let ones := map (fun _ => 1) leaf_indices in
    match batch_size with
    | None => aggregate_scatter add32 0 ones leaf_indices tree_size
    | Some bs => aggregate_batched add32 0 ones leaf_indices tree_size bs
    end.

  Record counts := mkcounts { c_left : Z; c_right : Z; c_total : Z }.

  (** mcmcstep.py:971-1010 [compute_count_trees], one tree *)
  Definition compute_count_trees (leaf_indices : list Z) (m : move)
      (batch_size : option Z) : list Z * counts :=
    let tree_size := zlen (m_var_tree m) * 2 in
    let count_tree := count_datapoints_per_leaf leaf_indices tree_size batch_size in
    let left := gather zmode count_tree (m_left m) in
    let right := gather zmode count_tree (m_right m) in
    let total := add32 left right in
    (scatter_set count_tree (m_node m) total,
     {| c_left := left; c_right := right; c_total := total |}).

  (** mcmcstep.py:1091-1124 [compute_p_prune] *)
  Definition compute_p_prune (m : move) (left_count right_count : Z)
      (min_points_per_leaf : option Z) : F :=
    let other_growable_leaves := 2 <=? m_num_growable m in
    let new_leaves_growable := m_node m <? zlen (m_var_tree m) / 2 in
    let new_leaves_growable :=
      match min_points_per_leaf with
      | None => new_leaves_growable
      | Some mp =>
        new_leaves_growable && ((2 * mp <=? left_count) || (2 * mp <=? right_count))
      end in
    let grow_again_allowed := other_growable_leaves || new_leaves_growable in
    let grow_p_prune := if grow_again_allowed then fhalf else f1 in
    let prune_p_prune := if negb (m_num_growable m =? 0) then fhalf else f1 in
    if m_grow m then grow_p_prune else prune_p_prune.

  (** mcmcstep.py:1064-1089 [complete_ratio]: log_trans_prior_ratio *)
  Definition complete_ratio (m : move) (c : counts) (min_points_per_leaf : option Z) : F :=
    flog (fmul (m_partial_ratio m)
            (compute_p_prune m (c_left c) (c_right c) min_points_per_leaf)).

  Record prelkv := mkprelkv {
    sigma2_left : F; sigma2_right : F; sigma2_total : F; sqrt_term : F
  }.

  (** mcmcstep.py:1153-1188 [precompute_likelihood_terms], the terms of one
      tree; and the shared exp_factor *)
  Definition precompute_likelihood_terms (ntree : Z) (sigma2 : F) (c : counts) : prelkv :=
    let sigma_mu2 := fdiv f1 (fofZ ntree) in
    let l := fadd sigma2 (fmul (fofZ (c_left c)) sigma_mu2) in
    let r := fadd sigma2 (fmul (fofZ (c_right c)) sigma_mu2) in
    let t := fadd sigma2 (fmul (fofZ (c_total c)) sigma_mu2) in
    {| sigma2_left := l; sigma2_right := r; sigma2_total := t;
       sqrt_term := fdiv (flog (fdiv (fmul sigma2 t) (fmul l r))) (fofZ 2) |}.
  Definition exp_factor (ntree : Z) (sigma2 : F) : F :=
    fdiv (fdiv f1 (fofZ ntree)) (fmul (fofZ 2) sigma2).

  Record prelf := mkprelf { mean_factor : list F; centered_leaves : list F }.

  (** mcmcstep.py:1190-1222 [precompute_leaf_terms], the terms of tree number
      [i]; z is row i of the (ntree, 2**d) array of normals. *)
  Definition precompute_leaf_terms {g : rng fo} (ntree : Z) (sigma2 : F) (k : key)
      (i : Z) (count_tree : list Z) : prelf :=
    let var_post := map (fun c => fdiv f1 (fadd (fdiv (fofZ c) sigma2) (fofZ ntree))) count_tree in
    let z := map (fun j => r_normal k (i * zlen count_tree + j)) (arange (zlen count_tree)) in
    {| mean_factor := map (fun v => fdiv v sigma2) var_post;
       centered_leaves := map2 (fun z v => fmul z (fsqrt v)) z var_post |}.

  (** mcmcstep.py:890-940 [accept_moves_parallel_stage], for tree number [i]:
      the updated tree, the count tree, the move counts,
      log_trans_prior_ratio, and the precomputed terms.
      [t_split] is not changed here. *)
  Record stage1 := mkstage1 {
    s_tree : tree; s_move : move; s_count_tree : list Z; s_counts : counts;
    s_ltp : F; s_prelkv : prelkv; s_prelf : prelf
  }.
  Definition parallel_stage_tree {g : rng fo} (b : bart) (k : key) (i : Z)
      (t : tree) (m : move) : stage1 :=
    let idx := apply_grow_to_indices m (t_idx t) (X b) in
    let leaf := adapt_leaf_trees_to_grow_indices (t_leaf t) m in
    let '(count_tree, c) := compute_count_trees idx m (count_batch_size b) in
    let aff := match min_points_per_leaf b with
               | None => t_aff t
               | Some mp => Some (map (fun n => 2 * mp <=? n)
                                    (firstn (length (m_var_tree m)) count_tree))
               end in
    let ntree := zlen (trees b) in
    {| s_tree := {| t_leaf := leaf; t_var := m_var_tree m; t_split := t_split t;
                    t_idx := idx; t_aff := aff |};
       s_move := m;
       s_count_tree := count_tree;
       s_counts := c;
       s_ltp := complete_ratio m c (min_points_per_leaf b);
       s_prelkv := precompute_likelihood_terms ntree (sigma2 b) c;
       s_prelf := precompute_leaf_terms ntree (sigma2 b) k i count_tree |}.

  Definition parallel_stage {g : rng fo} (b : bart) (moves : list move) (k : key)
      : list stage1 :=
    map2 (fun it m => parallel_stage_tree b k (fst it) (snd it) m)
      (enumerate (trees b)) moves.

  (** ** Acceptance, sequential stage *)

  (** mcmcstep.py:1391-1416 [sum_resid] *)
  Definition sum_resid (resid : list F) (leaf_indices : list Z) (tree_size : Z)
      (batch_size : option Z) : list F :=
    match batch_size with
    | None => aggregate_scatter fadd f0 resid leaf_indices tree_size
    | Some bs => aggregate_batched fadd f0 resid leaf_indices tree_size bs
    end.

  (** mcmcstep.py:1429-1453 [compute_likelihood_ratio] *)
  Definition compute_likelihood_ratio (total_resid left_resid right_resid : F)
      (pv : prelkv) (exp_factor : F) : F :=
    let exp_term := fmul exp_factor
      (fsub (fadd (fdiv (fmul left_resid left_resid) (sigma2_left pv))
                  (fdiv (fmul right_resid right_resid) (sigma2_right pv)))
            (fdiv (fmul total_resid total_resid) (sigma2_total pv))) in
    fadd (sqrt_term pv) exp_term.

  (** what [accept_move_and_sample_leaves] returns besides the residuals *)
  Record stage2 := mkstage2 {
    a_leaf : list F; a_acc : bool; a_to_prune : bool; a_ratios : F * F
  }.

  (** mcmcstep.py:1288-1389 [accept_move_and_sample_leaves]. The ratios are
      always returned here; they are kept only if the state has them. *)
  Definition accept_move_and_sample_leaves (resid_batch_size : option Z)
      (min_points_per_leaf : option Z) (exp_factor : F) (resid : list F)
      (s : stage1) : list F * stage2 :=
    let leaf_tree := t_leaf (s_tree s) in
    let leaf_indices := t_idx (s_tree s) in
    let m := s_move s in
    let resid_tree := sum_resid resid leaf_indices (zlen leaf_tree) resid_batch_size in
    let resid_tree :=
      map2 fadd resid_tree
        (map2 (fun c v => fmul (fofZ c) v) (s_count_tree s) leaf_tree) in
    let node := m_node m in
    let left := m_left m in
    let right := m_right m in
    let resid_left := gather fmode resid_tree left in
    let resid_right := gather fmode resid_tree right in
    let resid_total := fadd resid_left resid_right in
    let resid_tree := scatter_set resid_tree node resid_total in
    let log_lk_ratio :=
      compute_likelihood_ratio resid_total resid_left resid_right (s_prelkv s) exp_factor in
    let log_ratio := fadd (s_ltp s) log_lk_ratio in
    let log_ratio := if m_grow m then log_ratio else fneg log_ratio in
    let acc := m_allowed m && fle (m_logu m) log_ratio in
    let acc := match min_points_per_leaf with
               | None => acc
               | Some mp => acc && (mp <=? c_left (s_counts s)) && (mp <=? c_right (s_counts s))
               end in
    let initial_leaf_tree := leaf_tree in
    let mean_post := map2 fmul resid_tree (mean_factor (s_prelf s)) in
    let leaf_tree := map2 fadd mean_post (centered_leaves (s_prelf s)) in
    let to_prune := xorb acc (m_grow m) in
    let value_at_node := gather fmode leaf_tree node in
    let leaf_tree := scatter_set leaf_tree (if to_prune then left else zlen leaf_tree) value_at_node in
    let leaf_tree := scatter_set leaf_tree (if to_prune then right else zlen leaf_tree) value_at_node in
    let delta := map2 fsub initial_leaf_tree leaf_tree in
    let resid := map2 fadd resid (map (gather fmode delta) leaf_indices) in
    (resid, {| a_leaf := leaf_tree; a_acc := acc; a_to_prune := to_prune;
               a_ratios := (s_ltp s, log_lk_ratio) |}).

  (** mcmcstep.py:1224-1286 [accept_moves_sequential_stage]: the scan over
      trees carrying the residuals *)
  Fixpoint sequential_stage (rbs mp : option Z) (ef : F) (resid : list F)
      (ss : list stage1) : list F * list stage2 :=
    match ss with
    | [] => (resid, [])
    | s :: ss =>
      let '(resid, a) := accept_move_and_sample_leaves rbs mp ef resid s in
      let '(resid, rest) := sequential_stage rbs mp ef resid ss in
      (resid, a :: rest)
    end.

  (** ** Acceptance, final stage *)

  (** mcmcstep.py:1481-1506 [apply_moves_to_leaf_indices], one tree. The dtype
      of leaf_indices was chosen on line 193 from the tree size. *)
  Definition apply_moves_to_leaf_indices (leaf_indices : list Z) (m : move)
      (to_prune : bool) : list Z :=
    let bits := minimal_unsigned_bits (2 * zlen (m_var_tree m) - 1) in
    let mask := wrap bits (Z.lnot 1) in
    map (fun li => if (Z.land li mask =? m_left m) && to_prune
                   then wrap bits (m_node m) else li) leaf_indices.

  (** mcmcstep.py:1508-1539 [apply_moves_to_split_trees], one tree; [bits] is
      the dtype of the split trees. *)
  Definition apply_moves_to_split_trees (bits : Z) (split_tree : list Z) (m : move)
      (to_prune : bool) : list Z :=
    let size := zlen split_tree in
    let split_tree := scatter_set split_tree (if m_grow m then m_node m else size)
                        (wrap bits (m_grow_split m)) in
    scatter_set split_tree (if to_prune then m_node m else size) 0.

  Definition final_tree (bits : Z) (s : stage1) (a : stage2) : tree :=
    {| t_leaf := a_leaf a;
       t_var := t_var (s_tree s);
       t_split := apply_moves_to_split_trees bits (t_split (s_tree s)) (s_move s) (a_to_prune a);
       t_idx := apply_moves_to_leaf_indices (t_idx (s_tree s)) (s_move s) (a_to_prune a);
       t_aff := t_aff (s_tree s) |}.

  (** mcmcstep.py:868-888 [accept_moves_and_sample_leaves], with the counters
      of lines 934-935 and 1475-1476, the final stage 1455-1479, and the update
      of 'ratios' on line 1282. *)
  Definition accept_moves_and_sample_leaves {g : rng fo} (b : bart) (moves : list move)
      (k : key) : bart :=
    let ss := parallel_stage b moves k in
    let ef := exp_factor (zlen (trees b)) (sigma2 b) in
    let '(new_resid, aa) :=
      sequential_stage (resid_batch_size b) (min_points_per_leaf b) ef (resid b) ss in
    {|
      trees := map2 (final_tree (split_bits b)) ss aa;
      resid := new_resid;
      sigma2 := sigma2 b;
      grow_prop_count := count_nonzero (map m_grow moves);
      grow_acc_count := count_nonzero (map2 (fun a m => a_acc a && m_grow m) aa moves);
      prune_prop_count := count_nonzero (map (fun m => m_allowed m && negb (m_grow m)) moves);
      prune_acc_count := count_nonzero (map2 (fun a m => a_acc a && negb (m_grow m)) aa moves);
      p_nonterminal := p_nonterminal b;
      p_propose_grow := p_propose_grow b;
      sigma2_alpha := sigma2_alpha b;
      sigma2_beta := sigma2_beta b;
      max_split := max_split b;
      split_bits := split_bits b;
      y := y b;
      X := X b;
      min_points_per_leaf := min_points_per_leaf b;
      resid_batch_size := resid_batch_size b;
      count_batch_size := count_batch_size b;
      ratios := match ratios b with
                | None => None
                | Some _ => Some (map a_ratios aa)
                end
    |}.

  (** mcmcstep.py:277-299 [sample_trees] *)
  Definition sample_trees {g : rng fo} (b : bart) (k : key) : bart :=
    let key0 := KSplit k 2 0 in
    let subkey := KSplit k 2 1 in
    let moves := sample_moves b subkey in
    accept_moves_and_sample_leaves b moves key0.

  (** [jnp.dot] *)
  Definition dot (a b : list F) : F := fold_left fadd (map2 fmul a b) f0.

  Definition set_sigma2 (b : bart) (v : F) : bart :=
    {| trees := trees b; resid := resid b; sigma2 := v;
       grow_prop_count := grow_prop_count b; grow_acc_count := grow_acc_count b;
       prune_prop_count := prune_prop_count b; prune_acc_count := prune_acc_count b;
       p_nonterminal := p_nonterminal b; p_propose_grow := p_propose_grow b;
       sigma2_alpha := sigma2_alpha b; sigma2_beta := sigma2_beta b;
       max_split := max_split b; split_bits := split_bits b; y := y b; X := X b;
       min_points_per_leaf := min_points_per_leaf b;
       resid_batch_size := resid_batch_size b; count_batch_size := count_batch_size b;
       ratios := ratios b |}.

  (** mcmcstep.py:1541-1567 [sample_sigma] *)
  Definition sample_sigma {g : rng fo} (b : bart) (k : key) : bart :=
    let alpha := fadd (sigma2_alpha b) (fdiv (fofZ (zlen (resid b))) (fofZ 2)) in
    let norm2 := dot (resid b) (resid b) in
    let beta := fadd (sigma2_beta b) (fdiv norm2 (fofZ 2)) in
    let sample := r_gamma k alpha in
    set_sigma2 b (fdiv beta sample).

  (** mcmcstep.py:257-275 [step] *)
  Definition step {g : rng fo} (b : bart) (k : key) : bart :=
    let key0 := KSplit k 2 0 in
    let subkey := KSplit k 2 1 in
    let b := sample_trees b subkey in
    sample_sigma b key0.

  (** Errors raised while jax traces [step], which depend only on shapes and
      static values: [jnp.zeros(tree_depth(var_tree) - 1)] with a negative
      length (mcmcstep.py:608-609), [1 / ntree] with ntree = 0
      (mcmcstep.py:1177), [n // batch_size] with batch_size = 0
      (mcmcstep.py:1055, 1420). The depth of the trees is that of the
      p_nonterminal array (mcmcstep.py:163). *)
  Definition step_traces (b : bart) : bool :=
    (0 <=? zlen (p_nonterminal b) - 2)
    && negb (zlen (trees b) =? 0)
    && match resid_batch_size b with Some 0 => false | _ => true end
    && match count_batch_size b with Some 0 => false | _ => true end.

  (** [step] as the caller sees it: [None] is an exception. *)
  Definition step_checked {g : rng fo} (b : bart) (k : key) : option bart :=
    if step_traces b then Some (step b k) else None.
End Step.
