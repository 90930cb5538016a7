(** Specification of the prior over tree structures and of the proposals, in
    real arithmetic. Of the model only the record of a tree is used. *)
From Coq Require Import ZArith List Bool Reals.
From Verif Require Import SpecTree SpecForest SpecPosterior Laws ModelStep SpecExact.
Import ListNotations.
Open Scope Z_scope.

(** The rules above a node, nearest first: variable, cutpoint, and whether the
    node is on the right. *)
Definition rules_above := list (Z * Z * bool).

(** Prior probability of a tree. A node at depth [k] is a decision node with
    probability [p k]; its rule (v, s) then has probability [w above v s],
    where [above] are the rules above it. *)
Fixpoint tree_prior (p : Z -> R) (w : rules_above -> Z -> Z -> R) (above : rules_above)
    (t : dtree unit) : R :=
  match t with
  | DLeaf _ => (1 - p (Z.of_nat (length above)))%R
  | DNode v s l r =>
    (p (Z.of_nat (length above)) * w above v s *
     tree_prior p w ((v, s, false) :: above) l * tree_prior p w ((v, s, true) :: above) r)%R
  end.

(** The rules above node [i] *)
Fixpoint above_pos (var split : list Z) (i : positive) : rules_above :=
  match i with
  | xH => []
  | xO j => (entry var (Zpos j), entry split (Zpos j), false) :: above_pos var split j
  | xI j => (entry var (Zpos j), entry split (Zpos j), true) :: above_pos var split j
  end.
Definition above (var split : list Z) (i : Z) : rules_above := above_pos var split (Z.to_pos i).

(** The leaves below node [i] *)
Fixpoint leaves (levels : nat) (split : list Z) (i : Z) : list Z :=
  match levels with
  | O => [i]
  | S levels =>
    if entry split i =? 0 then [i]
    else leaves levels split (2 * i) ++ leaves levels split (2 * i + 1)
  end.

(** The leaves of a tree with [d] levels that can grow: not at the bottom, and
    with at least twice the minimum number of points *)
Definition growing_leaves (d : Z) (points : list (Z -> Z)) (min_points : option Z)
    (tr : list Z * list Z) : list Z :=
  filter (fun i => (i <? 2 ^ (d - 1)) &&
    match min_points with
    | None => true
    | Some mp => 2 * mp <=? points_in d points (fst tr) (snd tr) i
    end) (leaves (Z.to_nat d - 1) (snd tr) 1).

(** How many decision nodes have two leaves as children *)
Fixpoint leaf_parents (t : dtree unit) : Z :=
  match t with
  | DLeaf _ => 0
  | DNode _ _ (DLeaf _) (DLeaf _) => 1
  | DNode _ _ l r => leaf_parents l + leaf_parents r
  end.

Definition is_stump (t : dtree unit) : bool :=
  match t with DLeaf _ => true | DNode _ _ _ _ => false end.

Section Transition.
  Variables (d : Z) (points : list (Z -> Z)) (min_points : option Z).
  Variables (p : Z -> R) (w : rules_above -> Z -> Z -> R).

  Definition structure_of (tr : list Z * list Z) : dtree unit := structure d (fst tr) (snd tr).

  Definition prior (tr : list Z * list Z) : R := tree_prior p w [] (structure_of tr).

  (** Probability of proposing growth: 0 if no leaf can grow, 1 if it is the
      only possibility, else 1/2 *)
  Definition prob_grow (tr : list Z * list Z) : R :=
    match growing_leaves d points min_points tr with
    | [] => 0
    | _ => if is_stump (structure_of tr) then 1 else 1 / 2
    end.

  (** Probability of proposing pruning *)
  Definition prob_prune (tr : list Z * list Z) : R :=
    if is_stump (structure_of tr) then 0
    else match growing_leaves d points min_points tr with [] => 1 | _ => 1 / 2 end.

  (** Probability of proposing to grow leaf [n] of [tr] with rule (v, s): the
      leaf is chosen in proportion to [p] of its depth, the rule as in the
      prior. *)
  Definition q_grow (tr : list Z * list Z) (n v s : Z) : R :=
    prob_grow tr
    * (p (Z.log2 n) / rsum (map (fun i => p (Z.log2 i)) (growing_leaves d points min_points tr)))
    * w (above (fst tr) (snd tr) n) v s.

  (** Probability of proposing to prune a given node of [tr], all the decision
      nodes with two leaves being equally likely *)
  Definition q_prune (tr : list Z * list Z) : R :=
    prob_prune tr * (1 / IZR (leaf_parents (structure_of tr))).
End Transition.

(** Probability density of the data given the rules of one tree and the other
    trees, integrating out the values of the leaves: the product over the
    leaves. *)
Definition is_tree_likelihood (d : Z) (prior_var s2 : R) (others : list (@tree rops))
    (data : list ((Z -> Z) * R)) (tr : list Z * list Z) (M : R) : Prop :=
  exists f : Z -> R,
    (forall i, In i (leaves (Z.to_nat d - 1) (snd tr) 1) ->
       is_marginal_likelihood prior_var s2 (leaf_residuals d others (fst tr) (snd tr) i data) (f i)) /\
    M = fold_right Rmult 1%R (map f (leaves (Z.to_nat d - 1) (snd tr) 1)).
