(** Specification of the update of one tree as a random transition. *)
From Coq Require Import ZArith List Bool Reals.
From Verif Require Import Base ModelStep SpecTree SpecForest SpecRun SpecPosterior SpecExact SpecMH SpecChance Laws.
Import ListNotations.
Open Scope Z_scope.

(** The probability that a node at depth [j] is a decision node: the
    configured value above the bottom level, 0 at the bottom. *)
Definition nonterminal (s : @settings rops) (j : Z) : R := nth (Z.to_nat j) (i_p_nonterminal s) 0%R.

(** Usual settings: at least one point is required in each leaf, the binned
    data are consistent with the numbers of cutpoints, every depth but the last
    can have both decision nodes and leaves. If the number of predictors is the
    number of values of an integer type, the first predictor has cutpoints: the
    code takes it for used above each node. *)
Record regular (s : @settings rops) (c : Z) : Prop := {
  rg_ok : settings_ok s;
  rg_min : i_min_points s = Some c;
  rg_one : 1 <= c;
  rg_len : forall x, In x (i_X s) -> zlen x = zlen (i_max_split s);
  rg_bins : forall x v, In x (i_X s) -> 0 <= v < zlen (i_max_split s) ->
    0 <= entry x v <= entry (i_max_split s) v;
  rg_prob : forall j, 0 <= j < depth_of s - 1 -> (0 < nonterminal s j < 1)%R;
  rg_first : forall k, In k [8; 16; 32] -> zlen (i_max_split s) = 2 ^ k -> entry (i_max_split s) 0 <> 0
}.

(** The rules of a tree, without the values of the leaves *)
Definition rules_of (t : @tree rops) : list Z * list Z := (t_var t, t_split t).
Definition shape_of (s : @settings rops) (t : @tree rops) : dtree unit :=
  structure (depth_of s) (t_var t) (t_split t).

Section Update.
  Context {zo : zoob} {foo : foob rops}.
  Variables (s : @settings rops) (b : @bart rops) (k : key) (m : nat).

  (** The draws used by the update of tree [m] in the step with key [k] *)
  Definition draws_of_tree : list site := tree_sites k (zlen (trees b)) (Z.of_nat m).

  (** The step gives tree [m] the structure [T]. *)
  Definition becomes (T : dtree unit) (g : rng rops) : Prop :=
    exists t', nth_error (trees (step (g := g) b k)) m = Some t' /\ shape_of s t' = T.

  (** The value at a point of the trees other than [m] when tree [m] is
      updated: the trees before it are already updated, those after it not
      yet. *)
  Definition others_value (g : rng rops) (x : Z -> Z) : R :=
    predict_sum (depth_of s) (firstn m (trees (step (g := g) b k)) ++ skipn (S m) (trees b)) x.

  (** [M] is the posterior density of the rules [tr] for tree [m], up to a
      constant, given the other trees and the noise variance: prior probability
      times likelihood. *)
  Definition is_tree_posterior (g : rng rops) (tr : list Z * list Z) (M : R) : Prop :=
    exists L,
      is_tree_likelihood (depth_of s) (1 / IZR (zlen (trees b))) (sigma2 b)
        (firstn m (trees (step (g := g) b k)) ++ skipn (S m) (trees b))
        (combine (points_of s) (i_y s)) tr L /\
      M = (prior (depth_of s) (nonterminal s) (rule_probability (i_split_bits s) (i_max_split s)) tr * L)%R.
End Update.
