(** The Markov chain driven by a key, and what the traces of a run should
    contain. *)
From Coq Require Import ZArith List Bool String.
From Verif Require Import Base ModelStep ModelLoop.
Import ListNotations.
Open Scope Z_scope.

Section Chain.
  Context {fo : fops} {zo : zoob} {foo : foob fo} {g : rng fo}.

  (** The key left after [n] iterations: at each iteration the key is split in
      two, the first half is kept, the second is used by the iteration. *)
  Fixpoint chain_key (k : key) (n : nat) : key :=
    match n with
    | 0%nat => k
    | S n => KSplit (chain_key k n) 2 0
    end.

  (** The state after [n] iterations *)
  Fixpoint chain (b : bart) (k : key) (n : nat) : bart :=
    match n with
    | 0%nat => b
    | S n => step (chain b k n) (KSplit (chain_key k n) 2 1)
    end.
End Chain.

(** The fields documented in the docstring of [run_mcmc] *)
Definition documented_burnin : list string :=
  ["sigma2"; "grow_prop_count"; "grow_acc_count"; "prune_prop_count"; "prune_acc_count"]%string.
Definition documented_main : list string :=
  documented_burnin ++ ["leaf_trees"; "var_trees"; "split_trees"]%string.

(** The key [field] of the trace contains the values the field has in the
    given states. *)
Definition traces {fo : fops} (trace : list (string * list value)) (field : string)
    (states : list bart) : Prop :=
  exists vs, lookup trace field = Some vs /\
    map Some vs = map (fun b => lookup (state_items b) field) states.
