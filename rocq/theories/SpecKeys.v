(** The random draws of a run. *)
From Coq Require Import ZArith List Bool.
From Verif Require Import Base ModelStep SpecLoop.
Import ListNotations.
Open Scope Z_scope.

(** A call to a random function of jax with a certain key *)
Inductive draw :=
| Uniform (k : key)       (* random.uniform(k, shape) *)
| UniformTo (k : key)     (* random.uniform(k, (), dtype, 0, hi) *)
| Integer (k : key)       (* random.randint(k, (), lo, hi) *)
| Normal (k : key)        (* random.normal(k, shape) *)
| Gamma (k : key).        (* random.gamma(k, a) *)

(** The key it consumes *)
Definition draw_key (d : draw) : key :=
  match d with
  | Uniform k | UniformTo k | Integer k | Normal k | Gamma k => k
  end.

(** Two generators that give the same result for a draw, whatever its other
    arguments *)
Definition same_draw {fo : fops} (g g' : rng fo) (d : draw) : Prop :=
  match d with
  | Uniform k => forall i, r_unif (rng := g) k i = r_unif (rng := g') k i
  | UniformTo k => forall hi, r_unif_to (rng := g) k hi = r_unif_to (rng := g') k hi
  | Integer k => r_bits (rng := g) k = r_bits (rng := g') k
  | Normal k => forall i, r_normal (rng := g) k i = r_normal (rng := g') k i
  | Gamma k => forall a, r_gamma (rng := g) k a = r_gamma (rng := g') k a
  end.

(** [derived k k']: [k'] is [k] or was obtained from it by splitting. *)
Inductive derived (k : key) : key -> Prop :=
| derived_same : derived k k
| derived_split k' n i : derived k k' -> derived k (KSplit k' n i).

(** The draws made by one step with key [k] on [ntree] trees: for the noise
    variance, for the leaves, for choosing between grow and prune and for
    accepting, and for each tree: the leaf to grow, its variable, its
    cutpoint, the node to prune. *)
Definition tree_draws (k : key) : list draw :=
  [UniformTo (KSplit (KSplit k 2 0) 3 0); Integer (KSplit (KSplit k 2 0) 3 1);
   Integer (KSplit (KSplit k 2 0) 3 2); Integer (KSplit k 2 1)].
Definition step_draws (ntree : nat) (k : key) : list draw :=
  let kt := KSplit k 2 1 in
  let km := KSplit kt 2 1 in
  let n := 1 + Z.of_nat ntree in
  [Gamma (KSplit k 2 0); Normal (KSplit kt 2 0); Uniform (KSplit km n 0)] ++
  flat_map (fun t => tree_draws (KSplit km n (1 + Z.of_nat t))) (seq 0 ntree).

(** The draws made by [n] iterations of the chain *)
Definition run_draws (ntree : nat) (k : key) (n : nat) : list draw :=
  flat_map (fun i => step_draws ntree (KSplit (chain_key k i) 2 1)) (seq 0 n).
