(** Model of src/bartz/mcmcloop.py.

    The state dictionary is the record [bart] of ModelStep.v; [get_field] gives
    it back its keys.  A trace is a dictionary whose values have an additional
    head axis.  The callback is a function that emits a value; the model
    returns the list of what the successive calls emitted, in program order
    (jax.debug callbacks are delivered asynchronously, that is not modelled).
    The python counters are never negative, [n_burn], [n_save] and [n_skip]
    are the lengths of [lax.scan] (which raises for negative ones). *)
From Coq Require Import ZArith List Bool String Ascii.
From Verif Require Import Base ModelJaxext ModelGrove ModelStep.
Import ListNotations.
Open Scope Z_scope.

(** [lax.scan(f, carry, None, n)] *)
Fixpoint scan {C O} (f : C -> C * O) (carry : C) (n : nat) : C * list O :=
  match n with
  | 0%nat => (carry, [])
  | S n =>
    let '(carry, o) := f carry in
    let '(carry, os) := scan f carry n in
    (carry, o :: os)
  end.

Section Loop.
  Context {fo : fops} {zo : zoob} {foo : foob fo}.

  (** The possible values in the state dictionary. *)
  Inductive value :=
  | VNone
  | VInt (v : Z) | VVecInt (v : list Z) | VMatInt (v : list (list Z))
  | VFloat (v : F) | VVecFloat (v : list F) | VMatFloat (v : list (list F))
  | VMatBool (v : list (list bool))
  | VRatios (v : list (F * F))
  | VStatic (resid_batch_size count_batch_size : option Z).

  Fixpoint all_some {A} (l : list (option A)) : option (list A) :=
    match l with
    | [] => Some []
    | Some x :: l => match all_some l with Some l => Some (x :: l) | None => None end
    | None :: _ => None
    end.

  (** mcmcstep.py:176-215, the dictionary made by [init] and updated by [step].
      The order of the keys is that of the code. *)
  Definition state_items (b : bart) : list (string * value) :=
    [ ("leaf_trees", VMatFloat (map t_leaf (trees b)));
      ("var_trees", VMatInt (map t_var (trees b)));
      ("split_trees", VMatInt (map t_split (trees b)));
      ("resid", VVecFloat (resid b));
      ("sigma2", VFloat (sigma2 b));
      ("grow_prop_count", VInt (grow_prop_count b));
      ("grow_acc_count", VInt (grow_acc_count b));
      ("prune_prop_count", VInt (prune_prop_count b));
      ("prune_acc_count", VInt (prune_acc_count b));
      ("p_nonterminal", VVecFloat (p_nonterminal b));
      ("p_propose_grow", VVecFloat (p_propose_grow b));
      ("sigma2_alpha", VFloat (sigma2_alpha b));
      ("sigma2_beta", VFloat (sigma2_beta b));
      ("max_split", VVecInt (max_split b));
      ("y", VVecFloat (y b));
      ("X", VMatInt (X b));
      ("leaf_indices", VMatInt (map t_idx (trees b)));
      ("min_points_per_leaf",
        match min_points_per_leaf b with None => VNone | Some m => VInt m end);
      ("affluence_trees",
        match min_points_per_leaf b, all_some (map t_aff (trees b)) with
        | Some _, Some a => VMatBool a
        | _, _ => VNone
        end);
      ("opt", VStatic (resid_batch_size b) (count_batch_size b)) ]%string
    ++ match ratios b with
       | None => []
       | Some r => [("ratios"%string, VRatios r)]
       end.

  (** [d[key]]; [None] is a KeyError. *)
  Fixpoint lookup {A} (d : list (string * A)) (key : string) : option A :=
    match d with
    | [] => None
    | (k, v) :: d => if String.eqb k key then Some v else lookup d key
    end.
  Definition keys {A} (d : list (string * A)) : list string := map fst d.

  (** [{key: bart[key] for key in tracelist if key in bart}] *)
  Definition select (tracelist : list string) (b : bart) : list (string * value) :=
    flat_map (fun key => match lookup (state_items b) key with
                         | Some v => [(key, v)]
                         | None => []
                         end) tracelist.

  (** What [lax.scan] does with the outputs of the iterations: stacks the
      values of each key along a new head axis. The keys are those of the
      first output, they are the same in all iterations because [scan] traces
      its body once. Used only with at least one output. *)
  Definition stack (outputs : list (list (string * value)))
      : list (string * list value) :=
    match outputs with
    | [] => []
    | o :: _ =>
      map (fun key => (key, flat_map (fun o => match lookup o key with
                                               | Some v => [v]
                                               | None => []
                                               end) outputs)) (keys o)
    end.

  (** mcmcloop.py:95-97 *)
  Definition tracelist_burnin : list string :=
    ["sigma2"; "grow_prop_count"; "grow_acc_count"; "prune_prop_count";
     "prune_acc_count"; "ratios"]%string.
  Definition tracelist_main : list string :=
    tracelist_burnin ++ ["leaf_trees"; "var_trees"; "split_trees"]%string.

  (** The keyword arguments of the callback, mcmcloop.py:105 *)
  Record callback_args := mkargs {
    cb_bart : bart; cb_burnin : bool; cb_i_total : Z; cb_i_skip : Z;
    cb_n_burn : Z; cb_n_save : Z; cb_n_skip : Z
  }.

  (** mcmcloop.py:41-134 [run_mcmc] *)
  Section Run.
    Context {g : rng fo} {E : Type}.
    Variables n_burn n_save n_skip : Z.
    Variable callback : callback_args -> E.

    (** mcmcloop.py:101-107 [inner_loop]; the last component of the carry is
        the list of emitted values, most recent first. *)
    Definition inner_loop (tracelist : list string) (burnin : bool)
        (carry : bart * Z * Z * key * list E)
        : (bart * Z * Z * key * list E) * list (string * value) :=
      let '(b, i_total, i_skip, k, log) := carry in
      let k' := KSplit k 2 0 in
      let subkey := KSplit k 2 1 in
      let b := step b subkey in
      let e := callback (mkargs b burnin i_total i_skip n_burn n_save n_skip) in
      let output := select tracelist b in
      ((b, i_total + 1, i_skip + 1, k', e :: log), output).

    (** mcmcloop.py:109-110 [empty_trace]: vmap of the identity over the whole
        state with axis size 0; [tracelist] is ignored. *)
    Definition empty_trace (b : bart) (tracelist : list string)
        : list (string * list value) :=
      map (fun kv => (fst kv, [])) (state_items b).

    (** mcmcloop.py:120-126 [outer_loop] *)
    Definition outer_loop (carry : bart * Z * key * list E)
        : (bart * Z * key * list E) * list (string * value) :=
      let '(b, i_total, k, log) := carry in
      let '((b, i_total, _, k, log), _) :=
        scan (inner_loop [] false) (b, i_total, 0, k, log) (Z.to_nat n_skip) in
      ((b, i_total, k, log), select tracelist_main b).

    Definition run_mcmc (b : bart) (k : key)
        : bart * list (string * list value) * list (string * list value) * list E :=
      let '(b, i_total, k, burnin_trace, log) :=
        if 0 <? n_burn then
          let '((b, i_total, _, k, log), outs) :=
            scan (inner_loop tracelist_burnin true) (b, 0, 0, k, []) (Z.to_nat n_burn) in
          (b, i_total, k, stack outs, log)
        else (b, 0, k, empty_trace b tracelist_burnin, []) in
      let '(b, main_trace, log) :=
        if 0 <? n_save then
          let '((b, _, _, log), outs) :=
            scan outer_loop (b, i_total, k, log) (Z.to_nat n_save) in
          (b, stack outs, log)
        else (b, empty_trace b tracelist_main, log) in
      (b, burnin_trace, main_trace, rev log).
  End Run.

  (** ** The progress log *)

  (** The decimal digits of a non-negative integer, [str(n)] *)
  Fixpoint digits_fuel (fuel : nat) (n : Z) (acc : string) : string :=
    match fuel with
    | 0%nat => acc
    | S fuel =>
      let c := ascii_of_nat (48 + Z.to_nat (n mod 10)) in
      let acc := String c acc in
      if n / 10 =? 0 then acc else digits_fuel fuel (n / 10) acc
    end.
  Definition str (n : Z) : string := digits_fuel (S (Z.to_nat (Z.log2 n))) n "".

  (** [s.rjust(width)] *)
  Definition rjust (s : string) (width : nat) : string :=
    string_of_list_ascii (repeat " "%char (width - String.length s)) ++ s.

  (** The four frequencies in a line of the log; their formatting [:.2f] is
      not modelled. *)
  Record freqs := mkfreqs { P_grow : F; P_prune : F; A_grow : F; A_prune : F }.

  (** A printed line: the text before the frequencies, the frequencies, the
      text after. *)
  Definition line : Type := string * freqs * string.

  (** mcmcloop.py:164-172 [_simple_print_callback]: what is printed, if
      anything *)
  Definition simple_print (burnin : bool) (i_total n_total : Z) (f : freqs)
      (printcond : bool) : option line :=
    if printcond then
      let burnin_flag := if burnin then " (burnin)"%string else ""%string in
      let total_str := str n_total in
      let ndigits := String.length total_str in
      let i_str := rjust (str (i_total + 1)) ndigits in
      Some ("Iteration " ++ i_str ++ "/" ++ total_str ++ " ", f, burnin_flag)%string
    else None.

  (** mcmcloop.py:136-162 [make_simple_print_callback] *)
  Definition make_simple_print_callback (printevery : Z) (a : callback_args)
      : option line :=
    let b := cb_bart a in
    let prop_total := fofZ (zlen (trees b)) in
    let f := {|
      P_grow := fdiv (fofZ (grow_prop_count b)) prop_total;
      P_prune := fdiv (fofZ (prune_prop_count b)) prop_total;
      A_grow := fdiv (fofZ (grow_acc_count b)) (fofZ (grow_prop_count b));
      A_prune := fdiv (fofZ (prune_acc_count b)) (fofZ (prune_prop_count b)) |} in
    let n_total := cb_n_burn a + cb_n_save a * cb_n_skip a in
    let printcond := (cb_i_total a + 1) mod printevery =? 0 in
    simple_print (cb_burnin a) (cb_i_total a) n_total f printcond.

  (** mcmcloop.py:174-197 [evaluate_trace].  The trace is given as the list
      over iterations of its (leaf_trees, var_trees, split_trees); autobatch
      along the trees is transparent, see ModelAutobatch.v. *)
  Definition evaluate_trace (trace : list (list (list F * list Z * list Z)))
      (X : list (list Z)) : list (list F) :=
    map (fun state => sum_rows (List.length X) (evaluate_forest_nosum X state)) trace.
End Loop.
