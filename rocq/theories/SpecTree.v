(** Specification of binary decision trees stored in heap arrays.

    The root is node 1, the children of node i are 2i and 2i+1; slot 0 is
    unused.  A node is a decision node if its entry in the split array is
    non-zero; nodes beyond the end of that array are at the bottom level and
    are never decision nodes.  Nothing here uses the modelled functions: from
    Base only the length [zlen] of a list is used. *)
From Coq Require Import ZArith List Bool Lia.
From Verif Require Import Base.
Import ListNotations.
Open Scope Z_scope.

(** entry [i] of an integer array, 0 outside *)
Definition entry (l : list Z) (i : Z) : Z := nth (Z.to_nat i) l 0.

Definition decision (split : list Z) (i : Z) : Prop :=
  1 <= i /\ entry split i <> 0.

(** [route x var split i j]: starting from node [i] and going left when
    [x (var)] < split, right otherwise, one stops at [j]. [x v] is the value
    of predictor [v]. *)
Inductive route (x : Z -> Z) (var split : list Z) : Z -> Z -> Prop :=
| route_stop i : ~ decision split i -> route x var split i i
| route_left i j :
    decision split i -> x (entry var i) < entry split i ->
    route x var split (2 * i) j -> route x var split i j
| route_right i j :
    decision split i -> entry split i <= x (entry var i) ->
    route x var split (2 * i + 1) j -> route x var split i j.

(** Nodes that can be reached from the root through decision nodes *)
Inductive reachable (split : list Z) : Z -> Prop :=
| reach_root : reachable split 1
| reach_left i : reachable split i -> decision split i -> reachable split (2 * i)
| reach_right i : reachable split i -> decision split i -> reachable split (2 * i + 1).

(** The leaves of the tree *)
Definition leaf_node (split : list Z) (i : Z) : Prop :=
  reachable split i /\ ~ decision split i.

(** No stray nodes: all decision nodes are reachable. *)
Definition no_stray (split : list Z) : Prop :=
  forall i, decision split i -> reachable split i.

(** Array of a full tree: the size of a split array with [d - 1] levels *)
Definition heap_size (d : Z) : Z := 2 ^ (d - 1).

(** ** Decision trees as an inductive type *)
Inductive dtree (V : Type) :=
| DLeaf (v : V)
| DNode (var split : Z) (l r : dtree V).
Arguments DLeaf {V}. Arguments DNode {V}.

(** Value at a point *)
Fixpoint dt_eval {V} (t : dtree V) (x : Z -> Z) : V :=
  match t with
  | DLeaf v => v
  | DNode var split l r => if x var <? split then dt_eval l x else dt_eval r x
  end.

(** The tree stored in the arrays below node [i], with at most [levels]
    levels of decision nodes *)
Fixpoint decode {V} (dv : V) (leaf : list V) (var split : list Z) (levels : nat) (i : Z)
    : dtree V :=
  match levels with
  | O => DLeaf (nth (Z.to_nat i) leaf dv)
  | S levels =>
    if entry split i =? 0 then DLeaf (nth (Z.to_nat i) leaf dv)
    else DNode (entry var i) (entry split i)
           (decode dv leaf var split levels (2 * i))
           (decode dv leaf var split levels (2 * i + 1))
  end.

(** [at_depth i k]: node [i] is [k] edges below the root. *)
Inductive at_depth : Z -> Z -> Prop :=
| ad_root : at_depth 1 0
| ad_left i k : at_depth i k -> at_depth (2 * i) (k + 1)
| ad_right i k : at_depth i k -> at_depth (2 * i + 1) (k + 1).

(** Sizes of the three arrays (leaf, var, split) of a tree of depth [d] *)
Definition tree_arrays {V} (d : Z) (t : list V * list Z * list Z) : Prop :=
  zlen (fst (fst t)) = 2 ^ d /\ zlen (snd (fst t)) = heap_size d /\
  zlen (snd t) = heap_size d.

(** the tree stored in (leaf, var, split) *)
Definition tree_of {V} (dv : V) (d : Z) (t : list V * list Z * list Z) : dtree V :=
  decode dv (fst (fst t)) (snd (fst t)) (snd t) (Z.to_nat (d - 1)) 1.
