(** Specification of what a sampled forest must satisfy. Nothing here uses the
    modelled functions: trees are given by their arrays. *)
From Coq Require Import ZArith List Bool.
From Verif Require Import SpecTree.
Import ListNotations.
Open Scope Z_scope.

(** The node where a point stops, going down at most [levels] levels from node
    [i]. [x v] is the value of predictor [v]. *)
Fixpoint leaf_of (levels : nat) (x : Z -> Z) (var split : list Z) (i : Z) : Z :=
  match levels with
  | O => i
  | S levels =>
    if entry split i =? 0 then i
    else if x (entry var i) <? entry split i
    then leaf_of levels x var split (2 * i)
    else leaf_of levels x var split (2 * i + 1)
  end.

(** How many of the points stop at node [i] of a tree with [d] levels. *)
Definition points_in (d : Z) (points : list (Z -> Z)) (var split : list Z) (i : Z) : Z :=
  Z.of_nat (length (filter (fun x => leaf_of (Z.to_nat d - 1) x var split 1 =? i) points)).

(** Structure of a tree: the rules, without the leaf values *)
Definition structure (d : Z) (var split : list Z) : dtree unit :=
  decode tt [] var split (Z.to_nat d - 1) 1.

(** [grows_to t t']: [t'] is [t] with one leaf replaced by a decision node with
    two leaves. *)
Inductive grows_to : dtree unit -> dtree unit -> Prop :=
| grow_here v s : grows_to (DLeaf tt) (DNode v s (DLeaf tt) (DLeaf tt))
| grow_left v s l l' r : grows_to l l' -> grows_to (DNode v s l r) (DNode v s l' r)
| grow_right v s l r r' : grows_to r r' -> grows_to (DNode v s l r) (DNode v s l r').

(** What one step did to a tree *)
Inductive change := Same | Grown | Pruned.
Definition changed (c : change) (t t' : dtree unit) : Prop :=
  match c with
  | Same => t' = t
  | Grown => grows_to t t'
  | Pruned => grows_to t' t
  end.
Definition is_grown (c : change) : bool := match c with Grown => true | _ => false end.
Definition is_pruned (c : change) : bool := match c with Pruned => true | _ => false end.
