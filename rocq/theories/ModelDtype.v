(** [evaluate_forest] with an explicit type of the result (grove.py). *)
From Coq Require Import ZArith List.
From Verif Require Import Base ModelGrove.
Import ListNotations.

(** grove.py:150-184 [evaluate_forest] with sum_trees=True and dtype given, used
    by BART.py:407: [jnp.sum(leaves, axis=0, dtype=dtype)] converts the values to
    the new type, then sums. [fo] is the arithmetic of the leaves, [fo2] that of
    the result, [cast] the conversion. *)
Definition evaluate_forest_dtype {zo : zoob} (fo fo2 : fops) {foo : foob fo} (cast : @F fo -> @F fo2)
    (X : list (list Z)) (trees : list (list (@F fo) * list Z * list Z)) : list (@F fo2) :=
  sum_rows (fo := fo2) (length X) (map (map cast) (evaluate_forest_nosum X trees)).
