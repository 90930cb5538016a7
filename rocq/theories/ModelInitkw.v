(** The keyword arguments of [init] as [gbart] passes them, with all the entries
    that [initkw] can replace (BART.py, mcmcstep.py). *)
From Coq Require Import ZArith List Bool Reals String.
From Verif Require Import Base Laws ModelJaxext ModelGrove ModelStep ModelLoop ModelBatchSize ModelBART SpecRun.
Import ListNotations.
Open Scope Z_scope.

(** The values of the arguments of [init]. An array of cutpoint numbers has an
    integer type with the given number of bits. *)
Inductive argval :=
| AMatrix (x : list (list Z))
| AFloats (l : list R)
| AInts (bits : Z) (l : list Z)
| AInt (z : Z)
| AFloat (v : R)
| ANone
| AAuto
| ABool (b : bool)
| ADtype.

(** [d[key] = v] for a Python dictionary: an existing entry is replaced, a new
    one goes at the end *)
Fixpoint dict_set (d : list (string * argval)) (key : string) (v : argval) : list (string * argval) :=
  match d with
  | [] => [(key, v)]
  | (k, w) :: d => if String.eqb k key then (k, v) :: d else (k, w) :: dict_set d key v
  end.
(** [d.update(new)] *)
Definition dict_update (d new : list (string * argval)) : list (string * argval) :=
  fold_left (fun d kv => dict_set d (fst kv) (snd kv)) new d.

(** mcmcstep.py:47-61, the parameters of [init] with a default value *)
Definition init_defaults : list (string * argval) :=
  [("small_float", ADtype); ("large_float", ADtype); ("min_points_per_leaf", ANone);
   ("resid_batch_size", AAuto); ("count_batch_size", AAuto); ("save_ratios", ABool false)]%string.
(** mcmcstep.py:47-61, those without *)
Definition init_required : list string :=
  ["X"; "y"; "max_split"; "num_trees"; "p_nonterminal"; "sigma2_alpha"; "sigma2_beta"]%string.

(** An argument resid_batch_size or count_batch_size *)
Definition as_batch (v : argval) : option batch_arg :=
  match v with AAuto => Some Auto | ANone => Some (Given None) | AInt z => Some (Given (Some z)) | _ => None end.
(** The chosen size: it is never a fraction (C44_batch_sizes) *)
Definition as_size (b : option pynum) : option Z :=
  match b with Some (PInt k) => Some k | _ => None end.

Section Init.
  (** rounded logarithms and platform, as in ModelBatchSize.v *)
  Context (exp_resid_cpu exp_resid_gpu exp_count_gpu : Z -> Z) (platform : string).

  (** mcmcstep.py:47-61 and 161-172, the call [init( **kw )] : the arguments of
      [init], with the automatic choice of the batch sizes. [None] is an
      exception: a keyword that [init] does not have, a missing argument, an
      unknown platform; a value of the wrong type is counted as an exception.
      The floating point types are accepted and have no effect here. *)
  Definition call_init (kw : list (string * argval)) : option (@settings rops) :=
    if forallb (fun kv => existsb (String.eqb (fst kv)) (init_required ++ map fst init_defaults)) kw then
      let args := dict_update init_defaults kw in
      match lookup args "X", lookup args "y", lookup args "max_split", lookup args "num_trees",
            lookup args "p_nonterminal", lookup args "sigma2_alpha", lookup args "sigma2_beta" with
      | Some (AMatrix x), Some (AFloats y), Some (AInts bits max_split), Some (AInt num_trees),
        Some (AFloats p_nonterminal), Some (AFloat alpha), Some (AFloat beta) =>
        match (match lookup args "min_points_per_leaf" with
               | Some ANone => Some None | Some (AInt m) => Some (Some m) | _ => None end),
              (match lookup args "resid_batch_size" with Some v => as_batch v | None => None end),
              (match lookup args "count_batch_size" with Some v => as_batch v | None => None end),
              (match lookup args "save_ratios" with Some (ABool b) => Some b | _ => None end),
              lookup args "small_float", lookup args "large_float" with
        | Some min_points, Some resid, Some count, Some save_ratios, Some ADtype, Some ADtype =>
          let max_depth := zlen p_nonterminal + 1 in
          match choose_suffstat_batch_size exp_resid_cpu exp_resid_gpu exp_count_gpu resid count platform
                  (zlen y) (2 ^ max_depth * num_trees) with
          | Some (resid, count) =>
            Some (@mksettings rops x y max_split bits num_trees p_nonterminal alpha beta min_points
                    (as_size resid) (as_size count) save_ratios)
          | None => None
          end
        | _, _, _, _, _, _ => None
        end
      | _, _, _, _, _, _, _ => None
      end
    else None.

  (** BART.py:343-357, the arguments set by [gbart] *)
  Definition gbart_kw (x : list (list Z)) (y : list R) (max_split : list Z) (split_bits : Z)
      (lamda sigdf power base : R) (maxdepth ntree : Z) : list (string * argval) :=
    let p_nonterminal :=
      map (fun depth => base / Rpower (IZR (1 + depth)) power)%R (arange (maxdepth - 1)) in
    let sigma2_alpha := (sigdf / 2)%R in
    let sigma2_beta := (lamda * sigma2_alpha)%R in
    [("X", AMatrix x); ("y", AFloats y); ("max_split", AInts split_bits max_split); ("num_trees", AInt ntree);
     ("p_nonterminal", AFloats p_nonterminal); ("sigma2_alpha", AFloat sigma2_alpha);
     ("sigma2_beta", AFloat sigma2_beta); ("min_points_per_leaf", AInt 5)]%string.

  (** BART.py:342-359 [_setup_mcmc] with any [initkw] *)
  Definition setup_mcmc_kw (x : list (list Z)) (y : list R) (max_split : list Z) (split_bits : Z)
      (lamda sigdf power base : R) (maxdepth ntree : Z) (initkw : list (string * argval)) : option (@settings rops) :=
    let kw := gbart_kw x y max_split split_bits lamda sigdf power base maxdepth ntree in
    call_init (dict_update kw initkw).
End Init.
