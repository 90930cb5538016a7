(** Specification for debug.py. *)
From Coq Require Import ZArith List Bool.
From Verif Require Import Base SpecTree SpecForest ModelDebug.
Import ListNotations.
Open Scope Z_scope.

(** [l] lists the elements with the property [P], each once. *)
Definition lists {A} (P : A -> Prop) (l : list A) : Prop :=
  NoDup l /\ forall x, In x l <-> P x.

(** The narrowest unsigned type that holds [v] has [bits] bits. *)
Definition narrowest (v bits : Z) : Prop :=
  In bits [8; 16; 32; 64] /\ v < 2 ^ bits /\
  forall b, In b [8; 16; 32; 64] -> v < 2 ^ b -> bits <= b.

(** The deepest leaf is at depth [k]. *)
Definition deepest_leaf (split : list Z) (k : Z) : Prop :=
  (exists i, leaf_node split i /\ at_depth i k) /\
  forall i j, leaf_node split i -> at_depth i j -> j <= k.

(** [distr] tells how many trees have each depth. *)
Definition depth_distribution (d : Z) (split_trees : list (list Z)) (distr : list Z) : Prop :=
  exists depths, Forall2 deepest_leaf split_trees depths /\
    zlen distr = d /\
    (forall k, In k depths -> 0 <= k < d) /\
    forall k, 0 <= k < d -> entry distr k = Z.of_nat (count_occ Z.eq_dec depths k).

(** [distr] tells how many leaves, over all the trees, have each number of
    points. *)
Definition points_distribution (d : Z) (points : list (Z -> Z)) (trees : list (list Z * list Z))
    (distr : list Z) : Prop :=
  zlen distr = zlen points + 1 /\
  forall c, 0 <= c <= zlen points ->
  exists ls,
    Forall2 (fun '(var, split) l =>
      lists (fun i => leaf_node split i /\ points_in d points var split i = c) l) trees ls /\
    entry distr c = fold_right Z.add 0 (map zlen ls).

(** ** Printing *)

(** Drawing at the left of node [i], from the path from the root to [i]: a
    vertical line below the left children, blank below the right children *)
Fixpoint drawing_below (i : positive) : list piece :=
  match i with
  | xH => []
  | xO i => drawing_below i ++ [Join]
  | xI i => drawing_below i ++ [Blank]
  end.
Definition drawing (i : positive) : list piece :=
  match i with
  | xH => []
  | xO i => drawing_below i ++ [Tee]
  | xI i => drawing_below i ++ [Corner]
  end.

(** The nodes of a tree from node [i], depth first, left to right, with their
    content *)
Fixpoint preorder {V} (t : dtree V) (i : Z) : list (Z * node_str V) :=
  match t with
  | DLeaf v => [(i, NLeaf v)]
  | DNode v s l r => (i, NDecision v s) :: preorder l (2 * i) ++ preorder r (2 * i + 1)
  end.

(** The nodes of a complete binary tree with [levels] levels *)
Fixpoint complete_preorder (levels : nat) (i : Z) : list Z :=
  match levels with
  | O => []
  | S levels => i :: complete_preorder levels (2 * i) ++ complete_preorder levels (2 * i + 1)
  end.

(** The category written for a node *)
Definition category_ok (split : list Z) (i : Z) (c : category) : Prop :=
  match c with
  | Decision => reachable split i /\ decision split i
  | Leaf => leaf_node split i
  | Unused => ~ reachable split i
  end.
