(** Executions of the sampler: a state obtained from [init] with acceptable
    arguments and any number of calls to [step], with any keys and any random
    generators. *)
From Coq Require Import ZArith List Bool.
From Verif Require Import Base SpecTree Laws ModelStep.
Import ListNotations.
Open Scope Z_scope.

Section Run.
  Context {fo : fops} {zo : zoob} {foo : foob fo}.

  (** The arguments of [init]. *)
  Record settings := mksettings {
    i_X : list (list Z);
    i_y : list F;
    i_max_split : list Z;
    i_split_bits : Z;
    i_num_trees : Z;
    i_p_nonterminal : list F;
    i_sigma2_alpha : F;
    i_sigma2_beta : F;
    i_min_points : option Z;
    i_resid_batch : option Z;
    i_count_batch : option Z;
    i_save_ratios : bool
  }.

  Definition init_of (s : settings) : bart :=
    init (i_X s) (i_y s) (i_max_split s) (i_split_bits s) (i_num_trees s)
      (i_p_nonterminal s) (i_sigma2_alpha s) (i_sigma2_beta s) (i_min_points s)
      (i_resid_batch s) (i_count_batch s) (i_save_ratios s).

  (** Depth at least 2 (p_nonterminal not empty), at most 64; as many
      datapoints in X as in y, fewer than 2^32; at least one predictor;
      max_split representable in its dtype, which has at least 8 bits;
      non-negative p_nonterminal; batch sizes at least 1. And either no
      predictor has as many cutpoints as its dtype can hold, or a minimum of at
      least one datapoint per leaf is required (the BART interface requires 5):
      otherwise the sampler can overflow the range of the cutpoints, see
      [C06_overflow_refuted]. *)
  Record settings_ok (s : settings) : Prop := {
    ok_depth : 1 <= zlen (i_p_nonterminal s) <= 63;
    ok_n : zlen (i_X s) = zlen (i_y s);
    ok_n_max : zlen (i_y s) < 2 ^ 32;
    ok_p : 1 <= zlen (i_max_split s) < 2 ^ 64;
    ok_bits : 8 <= i_split_bits s;
    ok_max_split : forall m, In m (i_max_split s) -> 0 <= m < 2 ^ i_split_bits s;
    ok_overflow : (forall m, In m (i_max_split s) -> m < 2 ^ i_split_bits s - 1) \/
                  (exists k, i_min_points s = Some k /\ 1 <= k);
    ok_p_nonterminal : forall x, In x (i_p_nonterminal s) -> x = f0 \/ flt f0 x = true;
    ok_cbs : forall k, i_count_batch s = Some k -> 1 <= k;
    ok_rbs : forall k, i_resid_batch s = Some k -> 1 <= k
  }.

  (** Depth of the trees *)
  Definition depth_of (s : settings) : Z := zlen (i_p_nonterminal s) + 1.

  (** The datapoints, as functions from predictors to values. *)
  Definition points_of (s : settings) : list (Z -> Z) := map (gather zmode) (i_X s).

  Inductive reached (s : settings) : bart -> Prop :=
  | reached_init : reached s (init_of s)
  | reached_step b (g : rng fo) (k : key) :
      rlaws g -> reached s b -> reached s (step b k).
End Run.
