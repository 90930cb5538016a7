(** What it means to pass an argument to [init] by name. *)
From Coq Require Import ZArith List Reals String.
From Verif Require Import Base Laws ModelInitkw SpecRun.
Import ListNotations.
Open Scope string_scope.

(** The parameters of [init], and the values they take *)
Definition takes (k : string) (v : argval) : Prop :=
  match v with
  | AMatrix _ => k = "X"
  | AFloats _ => k = "y" \/ k = "p_nonterminal"
  | AInts _ _ => k = "max_split"
  | AInt _ => k = "num_trees" \/ k = "min_points_per_leaf" \/ k = "resid_batch_size" \/ k = "count_batch_size"
  | AFloat _ => k = "sigma2_alpha" \/ k = "sigma2_beta"
  | ANone => k = "min_points_per_leaf" \/ k = "resid_batch_size" \/ k = "count_batch_size"
  | AAuto => k = "resid_batch_size" \/ k = "count_batch_size"
  | ABool _ => k = "save_ratios"
  | ADtype => k = "small_float" \/ k = "large_float"
  end.

Definition parameters : list string :=
  ["X"; "y"; "max_split"; "num_trees"; "p_nonterminal"; "sigma2_alpha"; "sigma2_beta"; "small_float"; "large_float";
   "min_points_per_leaf"; "resid_batch_size"; "count_batch_size"; "save_ratios"].

(** The settings [s] have the value [v] for the parameter [k]. For 'auto' this
    says nothing. *)
Record uses (s : @settings rops) (k : string) (v : argval) : Prop := {
  uses_X : k = "X" -> v = AMatrix (i_X s);
  uses_y : k = "y" -> v = AFloats (i_y s);
  uses_max_split : k = "max_split" -> v = AInts (i_split_bits s) (i_max_split s);
  uses_num_trees : k = "num_trees" -> v = AInt (i_num_trees s);
  uses_p_nonterminal : k = "p_nonterminal" -> v = AFloats (i_p_nonterminal s);
  uses_sigma2_alpha : k = "sigma2_alpha" -> v = AFloat (i_sigma2_alpha s);
  uses_sigma2_beta : k = "sigma2_beta" -> v = AFloat (i_sigma2_beta s);
  uses_min_points : k = "min_points_per_leaf" ->
    v = match i_min_points s with Some m => AInt m | None => ANone end;
  uses_resid : k = "resid_batch_size" ->
    v = AAuto \/ v = match i_resid_batch s with Some m => AInt m | None => ANone end;
  uses_count : k = "count_batch_size" ->
    v = AAuto \/ v = match i_count_batch s with Some m => AInt m | None => ANone end;
  uses_save_ratios : k = "save_ratios" -> v = ABool (i_save_ratios s)
}.

(** What [gbart] documents: the default of each parameter. *)
Definition gbart_default (x : list (list Z)) (y : list R) (max_split : list Z) (bits : Z)
    (lamda sigdf power base : R) (maxdepth ntree : Z) (k : string) (v : argval) : Prop :=
  (k = "X" /\ v = AMatrix x) \/ (k = "y" /\ v = AFloats y) \/ (k = "max_split" /\ v = AInts bits max_split) \/
  (k = "num_trees" /\ v = AInt ntree) \/
  (k = "p_nonterminal" /\ exists l, v = AFloats l /\ zlen l = Z.max 0 (maxdepth - 1) /\
     forall d, (0 <= d < maxdepth - 1)%Z -> nth (Z.to_nat d) l 0%R = (base / Rpower (IZR (1 + d)) power)%R) \/
  (k = "sigma2_alpha" /\ v = AFloat (sigdf / 2)) \/ (k = "sigma2_beta" /\ v = AFloat (lamda * (sigdf / 2))) \/
  (k = "min_points_per_leaf" /\ v = AInt 5) \/ (k = "resid_batch_size" /\ v = AAuto) \/
  (k = "count_batch_size" /\ v = AAuto) \/ (k = "save_ratios" /\ v = ABool false).
