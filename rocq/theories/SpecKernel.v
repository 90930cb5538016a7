(** Specification of the update of one tree as a Markov kernel over structures. *)
From Coq Require Import ZArith List Bool Reals.
From Verif Require Import Base ModelStep SpecTree SpecForest SpecRun SpecPosterior SpecExact SpecMH SpecChance SpecBalance Laws.
Import ListNotations.
Open Scope Z_scope.

(** Sum of [f i] over i < n, and the same without the term [j] *)
Definition sum_to (n : nat) (f : nat -> R) : R := fold_right Rplus 0%R (map f (seq 0 n)).
Definition sum_except (n j : nat) (f : nat -> R) : R :=
  sum_to n (fun i => if Nat.eqb i j then 0%R else f i).

(** A family of [n] states of the Markov chain, with the key and the generator
    of the step that follows each, and its tree number [m] *)
Section Family.
  Context {zo : zoob} {foo : foob rops}.
  Variables (s : @settings rops) (m n : nat).
  Variables (state : nat -> @bart rops) (k : nat -> key) (g : nat -> rng rops) (tree_at : nat -> @tree rops).

  (** The states differ only in tree [m]: its structure is different in each
      state, while the noise variance and the value of the other trees when tree
      [m] is updated are the same. *)
  Record same_but_tree : Prop := {
    sb_reached : forall i, (i < n)%nat -> reached s (state i);
    sb_tree : forall i, (i < n)%nat -> nth_error (trees (state i)) m = Some (tree_at i);
    sb_gen : forall i, (i < n)%nat -> real_rng (g i);
    sb_positive : forall i, (i < n)%nat -> (0 < sigma2 (state i))%R;
    sb_sigma2 : forall i j, (i < n)%nat -> (j < n)%nat -> sigma2 (state i) = sigma2 (state j);
    sb_others : forall i j, (i < n)%nat -> (j < n)%nat -> forall x,
      others_value s (state i) (k i) m (g i) x = others_value s (state j) (k j) m (g j) x;
    sb_distinct : forall i j, (i < n)%nat -> (j < n)%nat -> shape_of s (tree_at i) = shape_of s (tree_at j) -> i = j
  }.

  (** Every structure that tree [m] can take in one step from a state of the
      family is the structure of a state of the family. *)
  Definition closed : Prop := forall i T g', (i < n)%nat ->
    real_rng g' -> differ_only_at (draws_of_tree (state i) (k i) m) (g i) g' -> becomes s (state i) (k i) m T g' ->
    exists j, (j < n)%nat /\ T = shape_of s (tree_at j).

  (** [P] is the matrix of the transition probabilities: off the diagonal, the
      probability that tree [m] takes the other structure; on the diagonal, the
      probability of nothing of that. *)
  Definition transition_matrix (P : nat -> nat -> R) : Prop :=
    (forall i j, (i < n)%nat -> (j < n)%nat -> i <> j ->
       has_probability (draws_of_tree (state i) (k i) m) (g i)
         (becomes s (state i) (k i) m (shape_of s (tree_at j))) (P i j)) /\
    (forall i, (i < n)%nat -> P i i = (1 - sum_except n i (P i))%R).
End Family.

(** Values of the leaves *)
Section Leaves.
  Context {zo : zoob} {foo : foob rops}.
  Variables (s : @settings rops) (b : @bart rops) (k : key) (m : nat) (g : rng rops) (tr : list Z * list Z).

  Definition product (l : list R) : R := fold_right Rmult 1%R l.

  (** The leaves of the tree with rules [tr], and the one where a point falls *)
  Definition leaves_of : list Z := leaves (Z.to_nat (depth_of s) - 1) (snd tr) 1.
  Definition falls_in (x : Z -> Z) : Z := leaf_of (Z.to_nat (depth_of s) - 1) x (fst tr) (snd tr) 1.

  (** Density of the posterior, up to a constant, at the rules [tr] and the
      values [mu] of the leaves of tree [m], given the other trees and the noise
      variance: prior probability of the rules, normal prior of the values with
      variance 1 / number of trees, normal errors around the sum of the trees *)
  Definition joint_density (mu : Z -> R) : R :=
    (prior (depth_of s) (nonterminal s) (rule_probability (i_split_bits s) (i_max_split s)) tr
     * product (map (fun i => dnorm 0 (1 / IZR (zlen (trees b))) (mu i)) leaves_of)
     * product (map (fun xy => dnorm (others_value s b k m g (fst xy) + mu (falls_in (fst xy))) (sigma2 b) (snd xy))
                 (combine (points_of s) (i_y s))))%R.

  (** Given the rules, the value of leaf [i] has distribution N(mean, var): the
      posterior given the residuals of the points that fall in the leaf *)
  Definition leaf_distribution (i : Z) (mean var : R) : Prop :=
    is_posterior (1 / IZR (zlen (trees b))) (sigma2 b)
      (leaf_residuals (depth_of s) (firstn m (trees (step (g := g) b k)) ++ skipn (S m) (trees b))
         (fst tr) (snd tr) i (combine (points_of s) (i_y s))) mean var.
End Leaves.
