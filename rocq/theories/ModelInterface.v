(** Model of the rest of src/bartz/BART.py, class [gbart]: formats of the
    inputs, x_test, means, methods for debugging.

    Failed assertions and other exceptions are [None]. A 2d array is the list
    of its rows, a DataFrame has labels for its columns and the list of the
    columns. Matrices without rows or ragged are not considered. *)
From Coq Require Import ZArith List Bool Reals String.
From Verif Require Import Base Laws ModelJaxext ModelGrove ModelStep ModelLoop ModelPrep ModelDebug ModelBART SpecRun.
Import ListNotations.
Open Scope Z_scope.

(** ** Column labels *)

(** The outcome of [columns1 == columns2], as comparison of the values of two
    dictionaries. [None] is an exception. *)
Class labels := {
  label_columns : Type;
  columns_eq : label_columns -> label_columns -> option bool
}.

(** polars: [columns] is a list of strings. *)
Definition list_labels : labels := {|
  label_columns := list string;
  columns_eq := fun c c' => Some (if list_eq_dec string_dec c c' then true else false)
|}.

(** pandas: [columns] is an Index object. The comparison of dictionaries first
    looks whether the two objects are the same object ([fst]), otherwise it
    evaluates [==], which for an Index is an array of booleans (an exception
    if the lengths differ), of which it takes the truth value, that is an
    exception unless the array has length 1. *)
Definition index_labels : labels := {|
  label_columns := Z * list string;
  columns_eq := fun c c' =>
    if fst c =? fst c' then Some true
    else
      match snd c, snd c' with
      | [l], [l'] => Some (String.eqb l l')
      | _, _ => None
      end
|}.

Section Formats.
  Context {lab : labels}.

  Inductive predictors :=
  | Array (rows : list (list R))
  | Frame (columns : label_columns) (data : list (list R)).

  Inductive response :=
  | Vector (data : list R)
  | Series (name : string) (data : list R).

  Inductive predictor_format :=
  | FmtFrame (columns : label_columns)
  | FmtArray (num_covar : Z).

  (** BART.py:256-265 [_process_predictor_input]; the rows of
      [x.to_numpy().T] are the columns of the frame. *)
  Definition process_predictor_input (x : predictors) : list (list R) * predictor_format :=
    match x with
    | Frame columns data => (data, FmtFrame columns)
    | Array rows => (rows, FmtArray (zlen rows))
    end.

  (** BART.py:267-269 [_check_compatible_formats] *)
  Definition check_compatible_formats (fmt1 fmt2 : predictor_format) : bool :=
    match fmt1, fmt2 with
    | FmtFrame c1, FmtFrame c2 => match columns_eq c1 c2 with Some eq => eq | None => false end
    | FmtArray p1, FmtArray p2 => p1 =? p2
    | _, _ => false
    end.

  (** BART.py:271-280 [_process_response_input]; the format is not used. *)
  Definition process_response_input (y : response) : list R :=
    match y with
    | Series _ data => data
    | Vector data => data
    end.

  (** BART.py:282-285 [_check_same_length] *)
  Definition check_same_length (x : list (list R)) (y : list R) : bool := ncols x =? zlen y.

  (** [.mean(axis=0)] *)
  Definition mean_axis0 (x : list (list R)) : list R := map rmean (columns 0%R x).

  (** The arguments with these training data *)
  Definition with_data (a : gbart_args) (x : list (list R)) (y : list R) : gbart_args := {|
    x_train := x; y_train := y;
    usequants := usequants a; a_sigest := a_sigest a; sigdf := sigdf a; sigquant := sigquant a;
    a_k := a_k a; power := power a; base := base a; maxdepth := maxdepth a;
    a_lamda := a_lamda a; a_offset := a_offset a; ntree := ntree a; numcut := numcut a;
    ndpost := ndpost a; nskip := nskip a; keepevery := keepevery a; printevery := printevery a;
    seed := seed a; initkw := initkw a
  |}.

  (** The object made by the constructor *)
  Record gbart_object := mkobject {
    o_fit : gbart;
    o_ntree : Z;
    o_maxdepth : Z;
    o_x_train_fmt : predictor_format;
    o_yhat_test : option (list (list R));
    o_yhat_test_mean : option (list R)
  }.

  Section Fit.
    Context {ex : external} {zo : zoob} {foo : foob rops} {g : rng rops}.

    (** BART.py:236-254 [predict] *)
    Definition predict_input (o : gbart_object) (x_test : predictors) : option (list (list R)) :=
      let '(x_test, x_test_fmt) := process_predictor_input x_test in
      if check_compatible_formats x_test_fmt (o_x_train_fmt o) then
        let r := o_fit o in
        let x_test := bin_columns x_test (g_splits r) in
        let yhat_test := predict_binned (g_main_trace r) x_test in
        Some (transform_output yhat_test (g_offset r) (g_scale r))
      else None.

    (** BART.py:164-224 [__init__]; the arguments [x_train] and [y_train] are
        given separately from the others, the ones in [a] are ignored. The
        second result is the log. *)
    Definition gbart_init (a : gbart_args) (x_train : predictors) (y_train : response)
        (x_test : option predictors) : option (gbart_object * list (option ModelLoop.line)) :=
      let '(x_train, x_train_fmt) := process_predictor_input x_train in
      let y_train := process_response_input y_train in
      if check_same_length x_train y_train then
        let '(r, log) := fit (with_data a x_train y_train) in
        let self := mkobject r (ntree a) (maxdepth a) x_train_fmt None None in
        match x_test with
        | None => Some (self, log)
        | Some x_test =>
          match predict_input self x_test with
          | None => None
          | Some yhat_test =>
            Some (mkobject r (ntree a) (maxdepth a) x_train_fmt (Some yhat_test) (Some (mean_axis0 yhat_test)), log)
          end
        end
      else None.

    (** BART.py:232-234 [yhat_train_mean] *)
    Definition yhat_train_mean (r : gbart) : list R := mean_axis0 (yhat_train r).
  End Fit.
End Formats.

(** ** Methods for debugging *)
Section Debug.
  Context {zo : zoob} {foo : foob rops}.

  (** BART.py:383-389 [_show_tree], what is printed. The indices must be in
      range. *)
  Definition show_tree (r : gbart) (i_sample i_tree : nat) (print_all : bool)
      : option (list (ModelDebug.line R)) :=
    match nth_error (trace_forests (g_main_trace r)) i_sample with
    | Some forest =>
      match nth_error forest i_tree with
      | Some (leaf_tree, var_tree, split_tree) =>
        print_tree (fmode (fo := rops)) leaf_tree var_tree split_tree print_all
      | None => None
      end
    | None => None
    end.

  (** BART.py:391-402 [_sigma_harmonic_mean] *)
  Definition sigma_harmonic_mean (r : gbart) (prior : bool) : R :=
    let bart := g_state r in
    let '(alpha, beta) :=
      if prior then ((sigma2_alpha bart : R), (sigma2_beta bart : R))
      else
        let alpha := (sigma2_alpha bart + IZR (zlen (resid bart)) / 2)%R in
        let norm2 := rsum (map2 Rmult (resid bart) (resid bart)) in
        let beta := (sigma2_beta bart + norm2 / 2)%R in
        (alpha, beta) in
    let sigma2 := (beta / alpha)%R in
    (sqrt sigma2 * g_scale r)%R.

  (** BART.py:404-409 [_compare_resid] *)
  Definition compare_resid (r : gbart) : list R * list R :=
    let bart := g_state r in
    let resid1 := resid bart in
    let yhat := evaluate_forest (fo := rops) (X bart)
                  (map (fun t => (t_leaf t, t_var t, t_split t)) (trees bart)) in
    let resid2 := map2 Rminus (y bart) yhat in
    (resid1, resid2).

  (** The sum of a count over the trace *)
  Definition trace_sum (trace : list (string * list (@value rops))) (name : string) : Z :=
    match lookup trace name with
    | Some vs => fold_left Z.add (map (fun v => match v with VInt c => c | _ => 0 end) vs) 0
    | None => 0
    end.

  (** BART.py:411-417 [_avg_acc] *)
  Definition avg_acc (r : gbart) : R * R :=
    let trace := g_main_trace r in
    ((IZR (trace_sum trace "grow_acc_count") / IZR (trace_sum trace "grow_prop_count"))%R,
     (IZR (trace_sum trace "prune_acc_count") / IZR (trace_sum trace "prune_prop_count"))%R).

  (** BART.py:419-426 [_avg_prop] *)
  Definition avg_prop (r : gbart) : R * R :=
    let trace := g_main_trace r in
    let pgrow := trace_sum trace "grow_prop_count" in
    let pprune := trace_sum trace "prune_prop_count" in
    let total := pgrow + pprune in
    ((IZR pgrow / IZR total)%R, (IZR pprune / IZR total)%R).

  (** BART.py:428-431 [_avg_move] *)
  Definition avg_move (r : gbart) : R * R :=
    let '(agrow, aprune) := avg_acc r in
    let '(pgrow, pprune) := avg_prop r in
    ((agrow * pgrow)%R, (aprune * pprune)%R).

  (** BART.py:433-437 [_depth_distr]; the last dimension of the array of trees
      is known also when there are no trees. *)
  Definition depth_distr (r : gbart) : list (list Z) :=
    trace_depth_distr (2 ^ (zlen (p_nonterminal (g_state r)) - 1))
      (map (map snd) (trace_forests (g_main_trace r))).

  (** BART.py:439-441 [_points_per_leaf_distr] *)
  Definition all_points_per_leaf_distr (r : gbart) : list (list Z) :=
    trace_points_per_leaf_distr (map (map (fun t => (snd (fst t), snd t))) (trace_forests (g_main_trace r)))
      (X (g_state r)).

  (** BART.py:443-445 [_check_trees]. The types of the arrays of the trees are
      those set by [init] (mcmcstep.py:178-179); the number of predictors is that
      of the first datapoint. *)
  Definition check_trees (r : gbart) : list (list Z) :=
    let bart := g_state r in
    check_trace (fo := rops)
      (map (map (fun '(leaf, var, split) =>
         (leaf, mktarray (minimal_unsigned_bits (zlen (hd [] (X bart)) - 1)) var,
          mktarray (split_bits bart) split))) (trace_forests (g_main_trace r)))
      (mktarray (split_bits bart) (max_split bart)).

  (** BART.py:447-450 [_tree_goes_bad] *)
  Definition goes_bad (errors : list (list Z)) : list (list bool) :=
    let bad := map (map (fun e => negb (e =? 0))) errors in
    let bad_before := map (fun _ => false) (hd [] bad) :: removelast bad in
    map2 (map2 (fun b b' => b && negb b')) bad bad_before.
  Definition tree_goes_bad (r : gbart) : list (list bool) := goes_bad (check_trees r).
End Debug.
