(** Specification of the integral over the values of the leaves, and of the
    whole posterior as a function of one tree. *)
From Coq Require Import ZArith List Bool Reals.
From Coquelicot Require Import Coquelicot.
From Verif Require Import Base ModelStep SpecTree SpecForest SpecRun SpecPosterior SpecExact SpecMH SpecChance SpecBalance SpecKernel
  SpecBayes Laws.
Import ListNotations.
Open Scope Z_scope.

(** [mu] with value [x] at [i] *)
Definition set_value (mu : Z -> R) (i : Z) (x : R) : Z -> R := fun j => if j =? i then x else mu j.

(** [v] is the iterated integral of [f], from -infinity to +infinity, over the
    values at the nodes in [l]; the other values are those of [mu]. *)
Fixpoint is_integral (l : list Z) (f : (Z -> R) -> R) (mu : Z -> R) (v : R) : Prop :=
  match l with
  | [] => v = f mu
  | i :: l => exists h : R -> R, (forall x, is_integral l f (set_value mu i x) (h x)) /\
      is_RInt_gen h (Rbar_locally m_infty) (Rbar_locally p_infty) v
  end.

(** [t] with the values [mu] *)
Definition with_values (t : @tree rops) (mu : Z -> R) : @tree rops :=
  mktree (fo := rops) (map (fun i => mu (Z.of_nat i)) (seq 0 (length (t_leaf t)))) (t_var t) (t_split t) (t_idx t) (t_aff t).

(** Density at [v] of [b / G], with [G] a variable with density [f / total] *)
Definition quotient_density (b : R) (f : R -> R) (total v : R) : R := (f (b / v) / total * (b / (v * v)))%R.

Section Family.
  Context {zo : zoob} {foo : foob rops}.
  Variables (s : @settings rops) (m n : nat).
  Variables (state : nat -> @bart rops) (k : nat -> key) (g : nat -> rng rops) (tree_at : nat -> @tree rops).
  Variables before after : list (@tree rops).

  (** When tree [m] is updated the trees before it, already updated, and those
      after it are the same in all the states. *)
  Definition same_others : Prop := forall i, (i < n)%nat ->
    firstn m (trees (step (g := g i) (state i) (k i))) = before /\ skipn (S m) (trees (state i)) = after.

  (** The whole posterior when tree [m] is [t] with the values [mu] *)
  Definition posterior_at (v : R) (t : @tree rops) (mu : Z -> R) : R :=
    posterior_density s (before ++ with_values t mu :: after) v.
End Family.

(** With only one tree, a noise variance [v], and [tree_at 0], ..., [tree_at (n - 1)]
    the possible trees: [d] is the density of structure [j] with the values [mu]
    of the leaves after the update of the tree, if before it the tree is
    distributed as the posterior. That is, the sum over the previous structures of
    the posterior, integrated over the values of the leaves, times the
    probability of going to structure [j]; times the density of the new values. *)
Definition density_after_tree {zo : zoob} {foo : foob rops} (s : @settings rops) (n : nat) (tree_at : nat -> @tree rops)
    (j : nat) (mu : Z -> R) (v d : R) : Prop :=
  exists state k (g : nat -> rng rops) P W mu0 mean var,
    same_but_tree s 0 n state k g tree_at /\ closed s 0 n state k g tree_at /\
    transition_matrix s 0 n state k g tree_at P /\ (forall i, (i < n)%nat -> sigma2 (state i) = v) /\
    (forall i, (i < n)%nat ->
       is_integral (leaves_of s (rules_of (tree_at i))) (posterior_at s [] [] v (tree_at i)) mu0 (W i)) /\
    (forall l, In l (leaves_of s (rules_of (tree_at j))) ->
       leaf_distribution s (state j) (k j) 0 (g j) (rules_of (tree_at j)) l (mean l) (var l)) /\
    d = (sum_to n (fun i => W i * P i j)
         * product (map (fun l => dnorm (mean l) (var l) (mu l)) (leaves_of s (rules_of (tree_at j)))))%R.
