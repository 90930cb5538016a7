(** Specification for the dictionaries of the MCMC state. *)
From Coq Require Import String ZArith List Bool.
From Verif Require Import Base ModelStep ModelHeap.
Import ListNotations.

Section SpecHeap.
  Context {fo : fops} {zo : zoob} {foo : foob fo}.

  (** The dictionary at [a] and those it contains represent the state [b]. *)
  Definition represents (h : heap) (a : addr) (b : bart) : Prop :=
    exists opt rat,
      nth_error h a = Some (bart_dict b opt rat) /\
      nth_error h opt = Some (opt_dict b) /\
      match ratios b, rat with
      | None, None => True
      | Some q, Some r => nth_error h r = Some (ratios_dict q)
      | _, _ => False
      end.

  (** All the dictionaries that existed in [h] are the same in [h']. *)
  Definition unchanged (h h' : heap) : Prop :=
    forall a d, nth_error h a = Some d -> nth_error h' a = Some d.

  (** The address of a new dictionary *)
  Definition new_in (h : heap) (a : addr) : Prop := nth_error h a = None.

  Definition set_ratios (b : bart) (q : option (list (F * F))) : bart :=
    mkbart (trees b) (resid b) (sigma2 b) (grow_prop_count b) (grow_acc_count b) (prune_prop_count b)
      (prune_acc_count b) (p_nonterminal b) (p_propose_grow b) (sigma2_alpha b) (sigma2_beta b) (max_split b)
      (split_bits b) (y b) (X b) (min_points_per_leaf b) (resid_batch_size b) (count_batch_size b) q.

  (** The states of a chain *)
  Fixpoint states {g : rng fo} (b : bart) (ks : list key) : list bart :=
    match ks with
    | [] => [b]
    | k :: ks => b :: states (step b k) ks
    end.
End SpecHeap.
