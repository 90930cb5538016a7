(** When two runs give the same results. *)
From Coq Require Import ZArith List Bool.
From Verif Require Import Base ModelStep SpecRun.
Import ListNotations.
Open Scope Z_scope.

Section Same.
  Context {fo : fops}.

  (** Same sampled quantities: trees, residuals, noise variance, counters and
      saved ratios. *)
  Definition same_sample (b b' : bart) : Prop :=
    map t_leaf (trees b') = map t_leaf (trees b) /\
    map t_var (trees b') = map t_var (trees b) /\
    map t_split (trees b') = map t_split (trees b) /\
    map t_idx (trees b') = map t_idx (trees b) /\
    resid b' = resid b /\ sigma2 b' = sigma2 b /\
    grow_prop_count b' = grow_prop_count b /\ grow_acc_count b' = grow_acc_count b /\
    prune_prop_count b' = prune_prop_count b /\ prune_acc_count b' = prune_acc_count b /\
    ratios b' = ratios b.

  (** The same arguments of [init] but for the batch sizes *)
  Definition with_batches (s : settings) (rb cb : option Z) : settings :=
    {| i_X := i_X s; i_y := i_y s; i_max_split := i_max_split s; i_split_bits := i_split_bits s;
       i_num_trees := i_num_trees s; i_p_nonterminal := i_p_nonterminal s;
       i_sigma2_alpha := i_sigma2_alpha s; i_sigma2_beta := i_sigma2_beta s;
       i_min_points := i_min_points s;
       i_resid_batch := rb; i_count_batch := cb; i_save_ratios := i_save_ratios s |}.

  Definition valid_batch (x : option Z) : Prop := forall k, x = Some k -> 1 <= k.
End Same.
