(** Specification of the Bayesian regression model: the joint posterior density
    of all the trees and of the noise variance, up to a constant. *)
From Coq Require Import ZArith List Bool Reals.
From Verif Require Import Base ModelStep SpecTree SpecForest SpecRun SpecPosterior SpecExact SpecMH SpecChance SpecBalance SpecKernel
  SpecPrior Laws.
Import ListNotations.
Open Scope Z_scope.

Section Bayes.
  Context {zo : zoob}.
  Variable s : @settings rops.

  (** The value at node [i] of a tree *)
  Definition leaf_value (t : @tree rops) (i : Z) : R := nth (Z.to_nat i) (t_leaf t) 0%R.

  (** Prior of a tree in a forest of [ntree] trees: the prior of its rules, and
      independent values of the leaves distributed as N(0, 1 / ntree) *)
  Definition tree_density (ntree : Z) (t : @tree rops) : R :=
    (prior (depth_of s) (nonterminal s) (rule_probability (i_split_bits s) (i_max_split s)) (rules_of t)
     * product (map (fun i => dnorm 0 (1 / IZR ntree) (leaf_value t i)) (leaves_of s (rules_of t))))%R.

  (** Posterior of the trees [ts] and of the noise variance [v]: the trees are
      independent, the noise variance has an inverse gamma distribution, the
      responses are normal around the sum of the trees. *)
  Definition posterior_density (ts : list (@tree rops)) (v : R) : R :=
    (product (map (tree_density (zlen ts)) ts)
     * product (map (fun xy => dnorm (predict_sum (depth_of s) ts (fst xy)) v (snd xy)) (combine (points_of s) (i_y s)))
     * invgamma_density (i_sigma2_alpha s) (i_sigma2_beta s) v)%R.
End Bayes.
