(** Model of src/bartz/grove.py. *)
From Coq Require Import ZArith List Bool.
From Verif Require Import Base ModelJaxext.
Import ListNotations.
Open Scope Z_scope.

(** grove.py:52-69 [make_tree] *)
Definition make_tree {A} (depth : Z) (zero : A) : list A := full (2 ^ depth) zero.

(** grove.py:71-86 [tree_depth]: [int(round(math.log2(size)))], computed
    exactly: log2 size < k + 1/2  iff  size^2 < 2^(2k+1). *)
Definition round_log2 (n : Z) : Z :=
  let k := Z.log2 n in
  if n * n <? 2 ^ (2 * k + 1) then k else k + 1.
Definition tree_depth {A} (tree : list A) : Z := round_log2 (zlen tree).

Section Grove.
  Context {zo : zoob}.

  (** grove.py:112-122 [loop] in [traverse_tree].  [bits] is the dtype of
      [index] (line 109); the result of the shift and of the sum have that
      dtype. *)
  Definition traverse_loop (bits : Z) (x var_tree split_tree : list Z)
      (carry : bool * Z) : bool * Z :=
    let '(leaf_found, index) := carry in
    let split := gather zmode split_tree index in
    let var := gather zmode var_tree index in
    let leaf_found := leaf_found || (split =? 0) in
    let child_index :=
      wrap bits (wrap bits (Z.shiftl index 1) + b2z (split <=? gather zmode x var)) in
    (leaf_found, if leaf_found then index else child_index).

  (** grove.py:88-126 [traverse_tree] *)
  Definition traverse_tree (x var_tree split_tree : list Z) : Z :=
    let bits := minimal_unsigned_bits (2 * zlen var_tree - 1) in
    let depth := tree_depth var_tree in
    snd (iterate (Z.to_nat depth) (traverse_loop bits x var_tree split_tree)
           (false, 1)).

  (** grove.py:128-148 [traverse_forest]: vmap over trees (outer) and over the
      columns of X (inner).  [trees] is the list of (var, split) pairs. *)
  Definition traverse_forest (X : list (list Z)) (trees : list (list Z * list Z))
      : list (list Z) :=
    map (fun t => map (fun x => traverse_tree x (fst t) (snd t)) X) trees.

  (** grove.py:150-184 [evaluate_forest] with sum_trees=False.  [trees] is the
      list of (leaf, var, split). *)
  Definition evaluate_forest_nosum {fo : fops} {foo : foob fo}
      (X : list (list Z)) (trees : list (list F * list Z * list Z)) : list (list F) :=
    map2 (fun t idx => map (fun i => gather fmode (fst (fst t)) i) idx)
      trees (traverse_forest X (map (fun t => (snd (fst t), snd t)) trees)).

  (** [jnp.sum(a, axis=0)] of a list of rows of length n *)
  Definition sum_rows {fo : fops} (n : nat) (rows : list (list F)) : list F :=
    fold_left (map2 fadd) rows (repeat f0 n).

  (** grove.py:150-184 [evaluate_forest] with sum_trees=True *)
  Definition evaluate_forest {fo : fops} {foo : foob fo}
      (X : list (list Z)) (trees : list (list F * list Z * list Z)) : list F :=
    sum_rows (length X) (evaluate_forest_nosum X trees).

  (** grove.py:186-212 [is_actual_leaf] *)
  Definition is_actual_leaf (split_tree : list Z) (add_bottom_level : bool) : list bool :=
    let is_leaf := map (fun s => s =? 0) split_tree in
    let is_leaf := if add_bottom_level
                   then is_leaf ++ repeat true (length is_leaf) else is_leaf in
    let size := if add_bottom_level then zlen split_tree * 2 else zlen split_tree in
    let index := arange size in
    let parent_index := map (fun i => Z.shiftr i 1) index in
    let parent_nonleaf :=
      map (fun i => negb (gather zmode split_tree i =? 0)) parent_index in
    let parent_nonleaf := scatter_set parent_nonleaf 1 true in
    map2 andb is_leaf parent_nonleaf.

  (** grove.py:214-235 [is_leaves_parent]; [bits] is the dtype of [index]. *)
  Definition is_leaves_parent (split_tree : list Z) : list bool :=
    let bits := minimal_unsigned_bits (2 * zlen split_tree - 1) in
    let index := arange (zlen split_tree) in
    let left_index := map (fun i => wrap bits (Z.shiftl i 1)) index in
    let right_index := map (fun i => wrap bits (i + 1)) left_index in
    let left_leaf := map (fun i => gather_fill 0 split_tree i =? 0) left_index in
    let right_leaf := map (fun i => gather_fill 0 split_tree i =? 0) right_index in
    let is_not_leaf := map (fun s => negb (s =? 0)) split_tree in
    map2 andb (map2 andb is_not_leaf left_leaf) right_leaf.
End Grove.

(** grove.py:255-258, the loop of [tree_depths], over the remaining [n]
    indices starting from [i]. *)
Fixpoint tree_depths_loop (n : nat) (i depth : Z) : list Z :=
  match n with
  | O => []
  | S n =>
    let depth := if i =? 2 ^ depth then depth + 1 else depth in
    (depth - 1) :: tree_depths_loop n (i + 1) depth
  end.

(** grove.py:237-260 [tree_depths].  Line 259 raises IndexError for
    tree_length = 0, which is never passed. The final cast to the minimal
    unsigned dtype of the maximum is exact. *)
Definition tree_depths (tree_length : Z) : list Z :=
  scatter_set (tree_depths_loop (Z.to_nat tree_length) 0 0) 0 0.
