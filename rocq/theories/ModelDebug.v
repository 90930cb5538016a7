(** Model of src/bartz/debug.py. *)
From Coq Require Import String ZArith List Bool.
From Verif Require Import Base ModelJaxext ModelGrove ModelStep.
Import ListNotations.
Open Scope Z_scope.

(** ** Printing *)

(** Pieces of the drawing: '├──', '└──', '│  ', '   ' (debug.py:13-16) *)
Inductive piece := Tee | Corner | Join | Blank.
(** '┐', '╢', ' ' (debug.py:17-18, 51) *)
Inductive link := Down | Bottom | NoLink.
Inductive category := Unused | Leaf | Decision.
(** What is written for a node; the formatting of the numbers is left out. *)
Inductive node_str (V : Type) :=
| NAll (c : category) (var split : Z) (value : V)
| NLeaf (value : V)
| NDecision (var split : Z).
Arguments NAll {V}. Arguments NLeaf {V}. Arguments NDecision {V}.

(** A printed line: the number of the node (its alignment is left out), the
    drawing at its left, the link, the node *)
Record line (V : Type) := mkline {
  number : Z; indentation : list piece; plink : link; node : node_str V
}.
Arguments mkline {V}. Arguments number {V}. Arguments indentation {V}.
Arguments plink {V}. Arguments node {V}.

Section Print.
  Context {V : Type} (vmode : oob V).
  Context (leaf_tree : list V) (var_tree split_tree : list Z) (print_all : bool).

  (** debug.py:20-66 [traverse_tree], the lines it prints. [fuel] bounds the
      depth of the recursion; running out of it or failing the assertion of
      line 41 is [None]. *)
  Fixpoint print_traverse (fuel : nat) (index : Z) (indent first_indent next_indent : list piece)
      (unused : bool) : option (list (line V)) :=
    match fuel with
    | O => None
    | S fuel =>
      if zlen leaf_tree <=? index then Some []
      else
        let var := gather_fill 0 var_tree index in
        let split := gather_fill 0 split_tree index in
        let is_leaf := split =? 0 in
        let left_child := 2 * index in
        let right_child := 2 * index + 1 in
        if negb print_all && unused then None
        else
          let node :=
            if print_all then
              NAll (if unused then Unused else if is_leaf then Leaf else Decision)
                var split (gather vmode leaf_tree index)
            else if is_leaf then NLeaf (gather vmode leaf_tree index)
            else NDecision var split in
          let link :=
            if negb is_leaf || (print_all && (left_child <? zlen leaf_tree)) then Down
            else if negb print_all && (zlen leaf_tree <=? left_child) then Bottom
            else NoLink in
          let printed := mkline index (indent ++ first_indent) link node in
          let indent := indent ++ next_indent in
          let unused := unused || is_leaf in
          if unused && negb print_all then Some [printed]
          else
            match print_traverse fuel left_child indent [Tee] [Join] unused,
                  print_traverse fuel right_child indent [Corner] [Blank] unused with
            | Some l, Some r => Some (printed :: l ++ r)
            | _, _ => None
            end
    end.

  (** debug.py:11-68 [print_tree] *)
  Definition print_tree : option (list (line V)) :=
    print_traverse (S (List.length leaf_tree)) 1 [] [] [] false.
End Print.

(** ** Distributions *)
Section Distr.
  Context {zo : zoob}.

  (** [jnp.max] *)
  Definition jnp_max (l : list Z) : Z := match l with [] => 0 | x :: l => fold_left Z.max l x end.

  (** [jnp.bincount(x, weights, length=length)]: the result has the type of the
      weights, here unsigned of [bits] bits. Values beyond the length are
      dropped. *)
  Definition bincount_weights (bits : Z) (x weights : list Z) (len : Z) : list Z :=
    fold_left (fun acc (xw : Z * Z) => scatter_upd acc (Z.max (fst xw) 0) (fun c => wrap bits (c + snd xw)))
      (combine x weights) (full len 0).
  (** [jnp.bincount(x, length=length)]: counts as int *)
  Definition bincount (x : list Z) (len : Z) : list Z :=
    fold_left (fun acc v => scatter_upd acc (Z.max v 0) (fun c => c + 1)) x (full len 0).

  (** debug.py:70-74 [tree_actual_depth] *)
  Definition tree_actual_depth (split_tree : list Z) : Z :=
    let is_leaf := is_actual_leaf split_tree true in
    let depth := tree_depths (zlen is_leaf) in
    let depth := map2 (fun (l : bool) d => if l then d else 0) is_leaf depth in
    jnp_max depth.

  (** debug.py:76-79 [forest_depth_distr]; [shape] is the size of a split tree
      (the last axis of split_trees, which is known also if there are no trees). *)
  Definition forest_depth_distr (shape : Z) (split_trees : list (list Z)) : list Z :=
    let depth := round_log2 shape + 1 in
    let depths := map tree_actual_depth split_trees in
    bincount depths depth.

  (** debug.py:81-82 [trace_depth_distr] *)
  Definition trace_depth_distr (shape : Z) (trace : list (list (list Z))) : list (list Z) :=
    map (forest_depth_distr shape) trace.

  (** debug.py:84-90 [points_per_leaf_distr]; X is the list of the points. *)
  Definition points_per_leaf_distr (var_tree split_tree : list Z) (X : list (list Z)) : list Z :=
    let indices := map (fun x => traverse_tree x var_tree split_tree) X in
    let bits := minimal_unsigned_bits (zlen indices) in
    let count_tree := fold_left (fun acc i => scatter_upd acc i (fun c => wrap bits (c + 1)))
                        indices (full (2 * zlen split_tree) 0) in
    let is_leaf := map b2z (is_actual_leaf split_tree true) in
    bincount_weights 8 count_tree is_leaf (zlen X + 1).

  (** debug.py:92-98 [forest_points_per_leaf_distr] *)
  Definition forest_points_per_leaf_distr (trees : list (list Z * list Z)) (X : list (list Z)) : list Z :=
    fold_left (fun distr tree => map2 Z.add distr (points_per_leaf_distr (fst tree) (snd tree) X))
      trees (full (zlen X + 1) 0).

  (** debug.py:100-104 [trace_points_per_leaf_distr] *)
  Definition trace_points_per_leaf_distr (trace : list (list (list Z * list Z))) (X : list (list Z))
      : list (list Z) :=
    map (fun trees => forest_points_per_leaf_distr trees X) trace.
End Distr.

(** ** Checks *)

(** An array of integers with its type, unsigned of [tbits] bits *)
Record tarray := mktarray { tbits : Z; tdata : list Z }.

Section Check.
  Context {fo : fops} {zo : zoob}.
  Context (leaf_tree : list F) (var_tree split_tree max_split : tarray).

  (** debug.py:106-109 [check_types] *)
  Definition check_types : bool :=
    let expected_var_dtype := minimal_unsigned_bits (zlen (tdata max_split) - 1) in
    let expected_split_dtype := tbits max_split in
    (tbits var_tree =? expected_var_dtype) && (tbits split_tree =? expected_split_dtype).

  (** debug.py:111-112 [check_sizes] *)
  Definition check_sizes : bool :=
    (zlen leaf_tree =? 2 * zlen (tdata var_tree)) &&
    (2 * zlen (tdata var_tree) =? 2 * zlen (tdata split_tree)).

  (** debug.py:114-115 [check_unused_node] *)
  Definition check_unused_node : bool :=
    (gather zmode (tdata var_tree) 0 =? 0) && (gather zmode (tdata split_tree) 0 =? 0).

  (** debug.py:117-118 [check_leaf_values] *)
  Definition check_leaf_values : bool := forallb fisfinite leaf_tree.

  (** debug.py:120-127 [check_stray_nodes] *)
  Definition check_stray_nodes : bool :=
    let split_tree := tdata split_tree in
    let bits := minimal_unsigned_bits (2 * zlen split_tree - 1) in
    let index := map (wrap bits) (arange (2 * zlen split_tree)) in
    let parent_index := map (fun i => Z.shiftr i 1) index in
    let is_not_leaf := map (fun i => negb (gather_fill 0 split_tree i =? 0)) index in
    let parent_is_leaf := map (fun i => gather zmode split_tree i =? 0) parent_index in
    let stray := map2 andb is_not_leaf parent_is_leaf in
    let stray := scatter_set stray 1 false in
    negb (existsb (fun b => b) stray).

  (** debug.py:129-135 [check_functions], with the results *)
  Definition checks : list (string * bool) :=
    [("check_types", check_types); ("check_sizes", check_sizes);
     ("check_unused_node", check_unused_node); ("check_leaf_values", check_leaf_values);
     ("check_stray_nodes", check_stray_nodes)]%string.

  Definition enumerate {A} (l : list A) : list (Z * A) := combine (arange (zlen l)) l.

  (** debug.py:137-145 [check_tree] *)
  Definition check_tree : Z :=
    let bits := minimal_unsigned_bits (2 ^ zlen checks - 1) in
    fold_left (fun error (ic : Z * (string * bool)) =>
                 wrap bits (Z.lor error (Z.shiftl (b2z (negb (snd (snd ic)))) (fst ic))))
      (enumerate checks) 0.
End Check.

Definition check_names : list string :=
  ["check_types"; "check_sizes"; "check_unused_node"; "check_leaf_values"; "check_stray_nodes"]%string.

(** debug.py:147-152 [describe_error] *)
Definition describe_error (error : Z) : list string :=
  map snd (filter (fun (ic : Z * string) => negb (Z.land error (Z.shiftl 1 (fst ic)) =? 0)) (enumerate check_names)).

(** debug.py:154 [check_forest] *)
Definition check_forest {fo : fops} {zo : zoob} (trees : list (list F * tarray * tarray)) (max_split : tarray)
    : list Z :=
  map (fun t => check_tree (fst (fst t)) (snd (fst t)) (snd t) max_split) trees.

(** debug.py:156-158 [check_trace] *)
Definition check_trace {fo : fops} {zo : zoob} (trace : list (list (list F * tarray * tarray))) (max_split : tarray)
    : list (list Z) :=
  map (fun trees => check_forest trees max_split) trace.
