(** Data in another order. *)
From Coq Require Import ZArith List Bool Permutation.
From Verif Require Import Base ModelStep SpecRun.
Import ListNotations.
Open Scope Z_scope.

(** [p] lists each of 0, ..., n-1 once. *)
Definition permutation_of (n : nat) (p : list nat) : Prop := Permutation p (seq 0 n).

(** Entry i of the result is entry p[i] of [l]; the default is never used when
    the entries of [p] are below the length of [l]. *)
Definition reorder {A} (p : list nat) (d : A) (l : list A) : list A := map (fun i => nth i l d) p.

Section Order.
  Context {fo : fops}.

  (** The same arguments of [init] with the datapoints in another order: the
      columns of X and the entries of y. *)
  Definition with_order (s : settings) (p : list nat) : settings :=
    {| i_X := reorder p [] (i_X s); i_y := reorder p f0 (i_y s);
       i_max_split := i_max_split s; i_split_bits := i_split_bits s;
       i_num_trees := i_num_trees s; i_p_nonterminal := i_p_nonterminal s;
       i_sigma2_alpha := i_sigma2_alpha s; i_sigma2_beta := i_sigma2_beta s;
       i_min_points := i_min_points s;
       i_resid_batch := i_resid_batch s; i_count_batch := i_count_batch s;
       i_save_ratios := i_save_ratios s |}.

  (** What must not change with the order of the data. *)
  Definition same_posterior (b b' : bart) : Prop :=
    map t_leaf (trees b') = map t_leaf (trees b) /\
    map t_var (trees b') = map t_var (trees b) /\
    map t_split (trees b') = map t_split (trees b) /\
    sigma2 b' = sigma2 b /\
    grow_prop_count b' = grow_prop_count b /\ grow_acc_count b' = grow_acc_count b /\
    prune_prop_count b' = prune_prop_count b /\ prune_acc_count b' = prune_acc_count b /\
    ratios b' = ratios b.

  (** What must follow the data. *)
  Definition reordered_points (p : list nat) (b b' : bart) : Prop :=
    resid b' = reorder p f0 (resid b) /\
    map t_idx (trees b') = map (fun t => reorder p 0 (t_idx t)) (trees b).
End Order.
