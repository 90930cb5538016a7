(** Specification of the regression quantities of a forest with real leaf
    values. [d] is the depth of the trees; a point is a function from
    predictors to (binned) values. *)
From Coq Require Import ZArith List Bool Reals.
From Verif Require Import Base SpecTree SpecForest SpecPosterior Laws ModelStep SpecRun.
Import ListNotations.
Open Scope Z_scope.

(** Value of a tree at a point *)
Definition predict (d : Z) (t : @tree rops) (x : Z -> Z) : R :=
  dt_eval (tree_of 0%R d (t_leaf t, t_var t, t_split t)) x.

(** Value of a sum of trees at a point *)
Definition predict_sum (d : Z) (ts : list (@tree rops)) (x : Z -> Z) : R :=
  rsum (map (fun t => predict d t x) ts).

(** For the datapoints (x, y) that fall in leaf [i] of the tree with rules
    (var, split): y minus the value of the other trees *)
Definition leaf_residuals (d : Z) (others : list (@tree rops)) (var split : list Z) (i : Z)
    (data : list ((Z -> Z) * R)) : list R :=
  map (fun xy => snd xy - predict_sum d others (fst xy))%R
    (filter (fun xy => leaf_of (Z.to_nat d - 1) (fst xy) var split 1 =? i) data).

(** Executions with a generator of real numbers *)
Inductive reached_real {zo : zoob} {foo : foob rops} (s : @settings rops) : @bart rops -> Prop :=
| rreached_init : reached_real s (init_of s)
| rreached_step b (g : rng rops) (k : key) :
    real_rng g -> reached_real s b -> reached_real s (step b k).
