(** The MCMC step as a program that creates, copies and modifies Python
    dictionaries. The values stored in the dictionaries are those of
    ModelStep.v, one list per array with an item per tree. *)
From Coq Require Import String ZArith List Bool.
From Verif Require Import Base ModelJaxext ModelGrove ModelStep.
Import ListNotations.
Open Scope string_scope.
Open Scope list_scope.

(** A dictionary object is identified by its address, the index in the list of
    the objects created so far. *)
Definition addr := nat.

Section Heap.
  Context {fo : fops} {zo : zoob} {foo : foob fo}.

  (** A value in a dictionary: another dictionary or an immutable value. *)
  Inductive pyval :=
  | VNone
  | VRef (a : addr)
  | VFloat (x : F)
  | VInt (i : Z)
  | VBool (b : bool)
  | VFloats (l : list F)
  | VInts (bits : Z) (l : list Z)
  | VBools (l : list bool)
  | VLeaf (l : list (list F))
  | VTrees (l : list (list Z))
  | VAff (l : list (option (list bool)))
  | VX (l : list (list Z))
  | VMoves (l : list move).

  Definition dict := list (string * pyval).
  Definition heap := list dict.

  (** Look up of a key *)
  Fixpoint dget (d : dict) (k : string) : option pyval :=
    match d with
    | [] => None
    | (k', v) :: d => if k' =? k then Some v else dget d k
    end.
  (** Assignment to a key: a new key goes last. *)
  Fixpoint dset (d : dict) (k : string) (v : pyval) : dict :=
    match d with
    | [] => [(k, v)]
    | (k', v') :: d => if k' =? k then (k, v) :: d else (k', v') :: dset d k v
    end.
  Definition ddel (d : dict) (k : string) : dict := filter (fun kv => negb (fst kv =? k)) d.

  (** Programs; [None] is an exception. *)
  Definition prog (A : Type) := heap -> option (A * heap).
  Definition ret {A} (x : A) : prog A := fun h => Some (x, h).
  Definition bind {A B} (m : prog A) (f : A -> prog B) : prog B :=
    fun h => match m h with Some (x, h) => f x h | None => None end.
  Notation "x <- m ;; n" := (bind m (fun x => n)) (at level 61, m at next level, right associativity).
  Notation "m ;;; n" := (bind m (fun _ => n)) (at level 61, right associativity).
  Definition lift {A} (o : option A) : prog A := fun h => match o with Some x => Some (x, h) | None => None end.

  Definition read (a : addr) : prog dict := fun h => match nth_error h a with Some d => Some (d, h) | None => None end.
  Definition write (a : addr) (d : dict) : prog unit := fun h => Some (tt, upd a d h).
  (** [dict(...)] *)
  Definition new_dict (d : dict) : prog addr := fun h => Some (length h, h ++ [d]).
  (** [d.copy()] *)
  Definition copy_dict (a : addr) : prog addr := d <- read a ;; new_dict d.
  (** [d[k]] *)
  Definition get_item (a : addr) (k : string) : prog pyval := d <- read a ;; lift (dget d k).
  (** [d[k] = v] *)
  Definition set_item (a : addr) (k : string) (v : pyval) : prog unit := d <- read a ;; write a (dset d k v).
  (** [d.pop(k)] *)
  Definition pop_item (a : addr) (k : string) : prog pyval :=
    d <- read a ;; v <- lift (dget d k) ;; write a (ddel d k) ;;; ret v.
  (** [k in d] *)
  Definition has_item (a : addr) (k : string) : prog bool :=
    d <- read a ;; ret (match dget d k with Some _ => true | None => false end).
  (** [d.update(kv)] *)
  Fixpoint update_items (a : addr) (kv : dict) : prog unit :=
    match kv with
    | [] => ret tt
    | (k, v) :: kv => set_item a k v ;;; update_items a kv
    end.

  Definition as_floats (v : pyval) : option (list F) := match v with VFloats l => Some l | _ => None end.
  Definition as_bools (v : pyval) : option (list bool) := match v with VBools l => Some l | _ => None end.
  Definition as_float (v : pyval) : option F := match v with VFloat l => Some l | _ => None end.
  Definition as_int (v : pyval) : option Z := match v with VInt l => Some l | _ => None end.
  Definition as_ints (v : pyval) : option (Z * list Z) := match v with VInts b l => Some (b, l) | _ => None end.
  Definition as_leaf (v : pyval) : option (list (list F)) := match v with VLeaf l => Some l | _ => None end.
  Definition as_trees (v : pyval) : option (list (list Z)) := match v with VTrees l => Some l | _ => None end.
  Definition as_aff (v : pyval) : option (list (option (list bool))) := match v with VAff l => Some l | _ => None end.
  Definition as_X (v : pyval) : option (list (list Z)) := match v with VX l => Some l | _ => None end.
  Definition as_moves (v : pyval) : option (list move) := match v with VMoves l => Some l | _ => None end.
  Definition as_ref (v : pyval) : option addr := match v with VRef a => Some a | _ => None end.
  Definition as_optint (v : pyval) : option (option Z) :=
    match v with VNone => Some None | VInt i => Some (Some i) | _ => None end.
  Definition get {A} (conv : pyval -> option A) (a : addr) (k : string) : prog A :=
    v <- get_item a k ;; lift (conv v).

  (** The trees from the separate arrays *)
  Fixpoint zip_trees (leaf : list (list F)) (var split idx : list (list Z)) (aff : list (option (list bool)))
      : list tree :=
    match leaf, var, split, idx, aff with
    | l :: leaf, v :: var, s :: split, i :: idx, f :: aff => mktree l v s i f :: zip_trees leaf var split idx aff
    | _, _, _, _, _ => []
    end.

  (** What a function reads when it accesses the arrays of the state; 'ratios'
      is read only for its presence (mcmcstep.py:1266). *)
  Definition read_bart (a : addr) : prog bart :=
    leaf <- get as_leaf a "leaf_trees" ;;
    var <- get as_trees a "var_trees" ;;
    split <- get as_trees a "split_trees" ;;
    resid <- get as_floats a "resid" ;;
    sigma2 <- get as_float a "sigma2" ;;
    gp <- get as_int a "grow_prop_count" ;;
    ga <- get as_int a "grow_acc_count" ;;
    pp <- get as_int a "prune_prop_count" ;;
    pa <- get as_int a "prune_acc_count" ;;
    pnt <- get as_floats a "p_nonterminal" ;;
    ppg <- get as_floats a "p_propose_grow" ;;
    s2a <- get as_float a "sigma2_alpha" ;;
    s2b <- get as_float a "sigma2_beta" ;;
    ms <- get as_ints a "max_split" ;;
    y <- get as_floats a "y" ;;
    X <- get as_X a "X" ;;
    idx <- get as_trees a "leaf_indices" ;;
    mp <- get as_optint a "min_points_per_leaf" ;;
    aff <- get as_aff a "affluence_trees" ;;
    opt <- get as_ref a "opt" ;;
    rbs <- get as_optint opt "resid_batch_size" ;;
    cbs <- get as_optint opt "count_batch_size" ;;
    saved <- has_item a "ratios" ;;
    ret (mkbart (zip_trees leaf var split idx aff) resid sigma2 gp ga pp pa pnt ppg s2a s2b (snd ms) (fst ms) y X
           mp rbs cbs (if saved then Some [] else None)).

  (** mcmcstep.py:357-372, the dictionary returned by [sample_moves]; of its
      items only 'partial_ratio' is kept apart. *)
  Definition sample_moves_heap {g : rng fo} (bart : addr) (k : key) : prog addr :=
    b <- read_bart bart ;;
    let moves := sample_moves b k in
    new_dict [("moves", VMoves moves); ("partial_ratio", VFloats (map m_partial_ratio moves))].

  (** mcmcstep.py:1062-1089 [complete_ratio] *)
  Definition complete_ratio_heap (moves : addr) (ltp : list F) : prog addr :=
    moves <- copy_dict moves ;;
    pop_item moves "partial_ratio" ;;;
    set_item moves "log_trans_prior_ratio" (VFloats ltp) ;;;
    ret moves.

  (** mcmcstep.py:890-940 [accept_moves_parallel_stage]. The local variables
      count_trees, move_counts, prelkv, prelf are in the list [ss]. *)
  Definition parallel_stage_heap {g : rng fo} (bart moves : addr) (k : key) : prog (addr * addr * list stage1) :=
    bart <- copy_dict bart ;;
    b <- read_bart bart ;;
    mv <- get as_moves moves "moves" ;;
    let ss := parallel_stage b mv k in
    set_item bart "var_trees" (VTrees (map m_var_tree mv)) ;;;
    set_item bart "leaf_indices" (VTrees (map (fun s => t_idx (s_tree s)) ss)) ;;;
    set_item bart "leaf_trees" (VLeaf (map (fun s => t_leaf (s_tree s)) ss)) ;;;
    opt <- get as_ref bart "opt" ;;
    require_min_points <- get_item opt "require_min_points" ;;
    match require_min_points with
    | VBool true => set_item bart "affluence_trees" (VAff (map (fun s => t_aff (s_tree s)) ss))
    | _ => ret tt
    end ;;;
    moves <- complete_ratio_heap moves (map s_ltp ss) ;;
    set_item bart "grow_prop_count" (VInt (count_nonzero (map m_grow mv))) ;;;
    set_item bart "prune_prop_count"
      (VInt (count_nonzero (map (fun m => m_allowed m && negb (m_grow m)) mv))) ;;;
    ret (bart, moves, ss).

  Definition set_tree (t : tree) (m : move) (ltp : F) (s : stage1) : stage1 :=
    mkstage1 t m (s_count_tree s) (s_counts s) ltp (s_prelkv s) (s_prelf s).
  Fixpoint set_trees (ts : list tree) (mv : list move) (ltps : list F) (ss : list stage1) : list stage1 :=
    match ts, mv, ltps, ss with
    | t :: ts, m :: mv, r :: ltps, s :: ss => set_tree t m r s :: set_trees ts mv ltps ss
    | _, _, _, _ => []
    end.

  (** mcmcstep.py:1224-1286 [accept_moves_sequential_stage]; on line 1282,
      [bart.get('ratios', {}).update(ratios)] modifies the dictionary in
      place, an empty dictionary made for the purpose if the key is missing. *)
  Definition sequential_stage_heap (bart : addr) (ss : list stage1) (moves : addr) : prog (addr * addr) :=
    bart <- copy_dict bart ;;
    moves <- copy_dict moves ;;
    b <- read_bart bart ;;
    mv <- get as_moves moves "moves" ;;
    ltp <- get as_floats moves "log_trans_prior_ratio" ;;
    let ss := set_trees (trees b) mv ltp ss in
    let ef := exp_factor (zlen (trees b)) (sigma2 b) in
    let '(resid, aa) := sequential_stage (resid_batch_size b) (min_points_per_leaf b) ef (resid b) ss in
    saved <- has_item bart "ratios" ;;
    let new_ratios := if saved : bool then
        [("log_trans_prior", VFloats (map (fun a => fst (a_ratios a)) aa));
         ("log_likelihood", VFloats (map (fun a => snd (a_ratios a)) aa))] else [] in
    set_item bart "resid" (VFloats resid) ;;;
    set_item bart "leaf_trees" (VLeaf (map a_leaf aa)) ;;;
    target <- (if saved then get as_ref bart "ratios" else new_dict []) ;;
    update_items target new_ratios ;;;
    set_item moves "acc" (VBools (map a_acc aa)) ;;;
    set_item moves "to_prune" (VBools (map a_to_prune aa)) ;;;
    ret (bart, moves).

  Fixpoint map3 {A B C D} (f : A -> B -> C -> D) (a : list A) (b : list B) (c : list C) : list D :=
    match a, b, c with
    | x :: a, y :: b, z :: c => f x y z :: map3 f a b c
    | _, _, _ => []
    end.

  (** mcmcstep.py:1455-1479 [accept_moves_final_stage] *)
  Definition final_stage_heap (bart moves : addr) : prog addr :=
    bart <- copy_dict bart ;;
    b <- read_bart bart ;;
    mv <- get as_moves moves "moves" ;;
    acc <- get as_bools moves "acc" ;;
    to_prune <- get as_bools moves "to_prune" ;;
    set_item bart "grow_acc_count" (VInt (count_nonzero (map2 (fun a m => a && m_grow m) acc mv))) ;;;
    set_item bart "prune_acc_count" (VInt (count_nonzero (map2 (fun a m => a && negb (m_grow m)) acc mv))) ;;;
    set_item bart "leaf_indices"
      (VTrees (map3 apply_moves_to_leaf_indices (map t_idx (trees b)) mv to_prune)) ;;;
    set_item bart "split_trees"
      (VTrees (map3 (apply_moves_to_split_trees (split_bits b)) (map t_split (trees b)) mv to_prune)) ;;;
    ret bart.

  (** mcmcstep.py:868-888 [accept_moves_and_sample_leaves] *)
  Definition accept_moves_heap {g : rng fo} (bart moves : addr) (k : key) : prog addr :=
    r <- parallel_stage_heap bart moves k ;;
    let '(bart, moves, ss) := r in
    r <- sequential_stage_heap bart ss moves ;;
    let '(bart, moves) := r in
    final_stage_heap bart moves.

  (** mcmcstep.py:277-299 [sample_trees] *)
  Definition sample_trees_heap {g : rng fo} (bart : addr) (k : key) : prog addr :=
    let key0 := KSplit k 2 0 in
    let subkey := KSplit k 2 1 in
    moves <- sample_moves_heap bart subkey ;;
    accept_moves_heap bart moves key0.

  (** mcmcstep.py:1541-1567 [sample_sigma] *)
  Definition sample_sigma_heap {g : rng fo} (bart : addr) (k : key) : prog addr :=
    bart <- copy_dict bart ;;
    resid <- get as_floats bart "resid" ;;
    sigma2_alpha <- get as_float bart "sigma2_alpha" ;;
    let alpha := fadd sigma2_alpha (fdiv (fofZ (zlen resid)) (fofZ 2)) in
    let norm2 := dot resid resid in
    sigma2_beta <- get as_float bart "sigma2_beta" ;;
    let beta := fadd sigma2_beta (fdiv norm2 (fofZ 2)) in
    let sample := r_gamma k alpha in
    set_item bart "sigma2" (VFloat (fdiv beta sample)) ;;;
    ret bart.

  (** mcmcstep.py:257-275 [step] *)
  Definition step_heap {g : rng fo} (bart : addr) (k : key) : prog addr :=
    let key0 := KSplit k 2 0 in
    let subkey := KSplit k 2 1 in
    bart <- sample_trees_heap bart subkey ;;
    sample_sigma_heap bart key0.

  (** mcmcstep.py:176-217, the dictionaries created by [init] for the state
      [b]. The types in 'opt' are left out. *)
  Definition opt_int (o : option Z) : pyval := match o with None => VNone | Some i => VInt i end.
  Definition opt_dict (b : bart) : dict :=
    [("require_min_points", VBool (match min_points_per_leaf b with Some _ => true | None => false end));
     ("resid_batch_size", opt_int (resid_batch_size b));
     ("count_batch_size", opt_int (count_batch_size b))].
  Definition ratios_dict (r : list (F * F)) : dict :=
    [("log_trans_prior", VFloats (map fst r)); ("log_likelihood", VFloats (map snd r))].
  Definition bart_dict (b : bart) (opt : addr) (rat : option addr) : dict :=
    [("leaf_trees", VLeaf (map t_leaf (trees b)));
     ("var_trees", VTrees (map t_var (trees b)));
     ("split_trees", VTrees (map t_split (trees b)));
     ("resid", VFloats (resid b));
     ("sigma2", VFloat (sigma2 b));
     ("grow_prop_count", VInt (grow_prop_count b));
     ("grow_acc_count", VInt (grow_acc_count b));
     ("prune_prop_count", VInt (prune_prop_count b));
     ("prune_acc_count", VInt (prune_acc_count b));
     ("p_nonterminal", VFloats (p_nonterminal b));
     ("p_propose_grow", VFloats (p_propose_grow b));
     ("sigma2_alpha", VFloat (sigma2_alpha b));
     ("sigma2_beta", VFloat (sigma2_beta b));
     ("max_split", VInts (split_bits b) (max_split b));
     ("y", VFloats (y b));
     ("X", VX (X b));
     ("leaf_indices", VTrees (map t_idx (trees b)));
     ("min_points_per_leaf", opt_int (min_points_per_leaf b));
     ("affluence_trees", VAff (map t_aff (trees b)));
     ("opt", VRef opt)] ++
    match rat with Some r => [("ratios", VRef r)] | None => [] end.
  Definition init_heap (b : bart) : prog addr :=
    opt <- new_dict (opt_dict b) ;;
    bart <- new_dict (bart_dict b opt None) ;;
    match ratios b with
    | None => ret tt
    | Some r => rat <- new_dict (ratios_dict r) ;; set_item bart "ratios" (VRef rat)
    end ;;;
    ret bart.

  (** A user's loop that calls [step] with the given keys and keeps all the
      states, the initial one included *)
  Fixpoint steps_heap {g : rng fo} (bart : addr) (keys : list key) : prog (list addr) :=
    match keys with
    | [] => ret [bart]
    | k :: keys =>
      next <- step_heap bart k ;;
      rest <- steps_heap next keys ;;
      ret (bart :: rest)
    end.

  (** A call under [jax.jit] or [lax.scan]: the function receives dictionaries
      rebuilt from the leaves of the argument, and the result is rebuilt as
      well; 'opt' is a [LeafDict] (jaxext.py:356-368), passed as it is. *)
  Definition rebuild (bart : addr) : prog addr :=
    bart' <- copy_dict bart ;;
    saved <- has_item bart' "ratios" ;;
    if saved then
      r <- get as_ref bart' "ratios" ;;
      r' <- copy_dict r ;;
      set_item bart' "ratios" (VRef r') ;;;
      ret bart'
    else ret bart'.
  Definition traced_call (f : addr -> prog addr) (bart : addr) : prog addr :=
    bart <- rebuild bart ;;
    bart <- f bart ;;
    rebuild bart.
End Heap.
