(** C01: the type of the result of [evaluate_forest] *)
From Coq Require Import ZArith QArith List Bool Lia.
From Flocq Require BinarySingleNaN.
From Verif Require Import Base LemBase ModelJaxext ModelGrove ModelDtype SpecTree ProofTree Laws32 Examples PropTree.
Import ListNotations.
Open Scope Z_scope.

(** C01. With an explicit type of the result, the values of the leaves are
    converted one by one, then summed in that type. *)
Theorem C01_evaluate_dtype : forall {zo : zoob} (fo fo2 : fops) {foo : foob fo} (cast : @F fo -> @F fo2) d X trees,
  1 <= d <= 64 -> Forall (tree_arrays d) trees ->
  evaluate_forest_dtype fo fo2 cast X trees =
  map (fun x => fold_left fadd
         (map (fun t => cast (dt_eval (tree_of f0 d t) (gather zmode x))) trees) f0) X.
Proof.
  intros zo fo fo2 foo cast d X trees Hd H. unfold evaluate_forest_dtype, sum_rows.
  rewrite (evaluate_forest_nosum_spec d) by auto.
  replace (repeat f0 (length X)) with (map (fun _ : list Z => @f0 fo2) X).
  2: { clear H. induction X as [| x X IH]; [reflexivity |]. cbn [map length repeat]. now rewrite IH. }
  rewrite map_map.
  replace (map (fun t => map cast (map (fun x => dt_eval (tree_of f0 d t) (gather zmode x)) X)) trees)
    with (map (fun t => map (fun x => cast (dt_eval (tree_of f0 d t) (gather zmode x))) X) trees).
  2: { apply map_ext. intros t. now rewrite map_map. }
  exact (sum_rows_map (fo := fo2) _ _ (fun t x => cast (dt_eval (tree_of f0 d t) (gather zmode x))) X trees (fun _ => f0)).
Qed.
Print Assumptions C01_evaluate_dtype.

(** C01. Without conversion it is the plain sum. *)
Theorem C01_evaluate_same_dtype : forall {zo : zoob} (fo : fops) {foo : foob fo} d X trees,
  1 <= d <= 64 -> Forall (tree_arrays d) trees ->
  evaluate_forest_dtype fo fo (fun v => v) X trees = evaluate_forest X trees.
Proof. intros. rewrite (C01_evaluate_dtype fo fo _ d), (evaluate_forest_spec d) by auto. reflexivity. Qed.
Print Assumptions C01_evaluate_same_dtype.

(** two trees with rational leaves, summed in single precision *)
Example dtype_example : tree_arrays 3 (ex_leaf, ex_var, ex_split) /\
  map BinarySingleNaN.B2SF (@evaluate_forest_dtype zclip qops (ops32 (fun v => v) (fun v => v)) qclip (fun q : Q => b32_of (Qnum q) 0) [[9; 5]; [1; 5]]
    [(ex_leaf, ex_var, ex_split); (ex_leaf, ex_var, ex_split)]) = map BinarySingleNaN.B2SF [b32_of 60 0; b32_of 40 0].
Proof. split; [apply C01_example | vm_compute; reflexivity]. Qed.
