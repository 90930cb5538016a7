(** The functions that go through [autobatch] (src/bartz/jaxext.py), with the
    batching: the prediction of all iterations, the quantile grid, the binning.

    ModelLoop.v and ModelPrep.v have the same functions without batching, on
    lists of rows. Here the rows are packed into arrays (ModelAutobatch.v), the
    batched function is called on the arrays, and its result is unpacked. An
    array of integers and an array of numbers both have elements of type
    [A + Z]. The root is [int(math.sqrt(...))] of ModelAutobatch.v. *)
From Coq Require Import String ZArith List Bool.
From Verif Require Import Base ModelJaxext ModelGrove ModelLoop ModelPrep ModelAutobatch.
Import ListNotations.
Open Scope Z_scope.

Section Pack.
  Context {A : Type} (dA : A).
  Definition elem : Type := A + Z.
  Definition zel (e : elem) : Z := match e with inr z => z | inl _ => 0 end.
  Definition ael (e : elem) : A := match e with inl a => a | inr _ => dA end.
  Definition dE : elem := inr 0.

  (** An array of shape (number of rows, m), and one of shape (number of
      elements,) *)
  Definition pack2 {B} (inj : B -> elem) (t : dtype) (m : nat) (rows : list (list B)) : arr elem :=
    mkarr [length rows; m] t (concat (map (map inj) rows)).
  Definition pack1 {B} (inj : B -> elem) (t : dtype) (v : list B) : arr elem :=
    mkarr [length v] t (map inj v).

  (** The rows of an array of shape (k, m), the elements of one of shape (k,) *)
  Definition rows {B} (proj : elem -> B) (x : arr elem) : list (list B) :=
    map (fun i => map (fun j => proj (get dE x [i; j])) (seq 0 (nth 1 (shp x) 0%nat)))
      (seq 0 (nth 0 (shp x) 0%nat)).
  Definition elems {B} (proj : elem -> B) (x : arr elem) : list B :=
    map (fun i => proj (get dE x [i])) (seq 0 (nth 0 (shp x) 0%nat)).
End Pack.
Arguments elem : clear implicits.

(** The type with [minimal_unsigned_bits m] bits (jaxext.py:117-135) *)
Definition uint_for (m : Z) : dtype := mkdtype "uint" (minimal_unsigned_bits m / 8).
Definition float32 : dtype := mkdtype "float32" 4.

(** ** mcmcloop.py:174-197 [evaluate_trace] *)
Section Trace.
  Context {fo : fops} {zo : zoob} {foo : foob fo}.
  Notation unpackF := (rows (ael f0)).
  Notation unpackZ := (rows zel).

  (** mcmcloop.py:190, grove.py:150-184: [evaluate_forest] with
      sum_trees=False, on the arrays. In ModelGrove.v a (p, n) matrix is the
      list of its columns: [X] comes here as the array of shape (n, p), it is
      not batched. *)
  Definition evaluate_trees (args : list (arr (elem F))) : list (arr (elem F)) :=
    match args with
    | [X; leaf; var; split] =>
      let trees := map2 (fun lv s => (lv, s)) (map2 pair (unpackF leaf) (unpackZ var)) (unpackZ split) in
      [pack2 inl (dty leaf) (nth 0 (shp X) 0%nat) (evaluate_forest_nosum (unpackZ X) trees)]
    | _ => []
    end.

  (** mcmcloop.py:191-197: [2 ** 29] and [(None, 0, 0, 0)] *)
  Definition evaluate_trace_batched (root : Z -> Z) (tX tvar tsplit : dtype) (p nleaf nvar : nat)
      (trace : list (list (list F * list Z * list Z))) (X : list (list Z)) : list (option (list F)) :=
    map (fun state =>
      match batched_func dE root evaluate_trees (2 ^ 29)
              (inr [None; Some 0%nat; Some 0%nat; Some 0%nat]) (inl 0%nat)
              [pack2 inr tX p X;
               pack2 inl float32 nleaf (map (fun t => fst (fst t)) state);
               pack2 inr tvar nvar (map (fun t => snd (fst t)) state);
               pack2 inr tsplit nvar (map snd state)] with
      | Some ([values], _, _) => Some (sum_rows (length X) (unpackF values))
      | _ => None
      end) trace.
End Trace.

(** ** prepcovars.py *)
Section Prep.
  Context {A : Type} (dA : A).
  Notation unpackA := (rows (ael dA)).

  (** prepcovars.py:56-60: [_quantilized_splits_from_matrix] on the array. The
      maximum number of cutpoints has the type of line 82. *)
  Definition quantilize (row : list A -> Z -> list A * Z) (out_length : Z) (args : list (arr (elem A)))
      : list (arr (elem A)) :=
    match args with
    | [X] =>
      let r := map (fun x => row x out_length) (unpackA X) in
      [pack2 inl (dty X) (Z.to_nat out_length) (map fst r); pack1 inr (uint_for out_length) (map snd r)]
    | _ => []
    end.

  (** prepcovars.py:33-61 [quantilized_splits_from_matrix] *)
  Definition quantilized_splits_batched (root : Z -> Z) (t : dtype) (row : list A -> Z -> list A * Z)
      (n : nat) (X : list (list A)) (max_bins : Z) : option (list (list A) * list Z) :=
    let out_length := Z.min max_bins (Z.of_nat n) - 1 in
    match batched_func dE root (quantilize row out_length) (2 ^ 29) (inl 0%nat) (inl 0%nat) [pack2 inl t n X] with
    | Some ([splits; max_split], _, _) => Some (unpackA splits, elems zel max_split)
    | _ => None
    end.

  (** prepcovars.py:138-142, the vmapped function on the arrays *)
  Definition bin_arrays (lt : A -> A -> bool) (args : list (arr (elem A))) : list (arr (elem A)) :=
    match args with
    | [X; splits] =>
      [pack2 inr (uint_for (Z.of_nat (nth 1 (shp splits) 0%nat))) (nth 1 (shp X) 0%nat)
         (ModelPrep.bin_predictors lt (unpackA X) (unpackA splits))]
    | _ => []
    end.

  (** prepcovars.py:113-143 [bin_predictors] *)
  Definition bin_predictors_batched (root : Z -> Z) (t : dtype) (lt : A -> A -> bool) (n m : nat)
      (X splits : list (list A)) : option (list (list Z)) :=
    match batched_func dE root (bin_arrays lt) (2 ^ 29) (inl 0%nat) (inl 0%nat)
            [pack2 inl t n X; pack2 inl t m splits] with
    | Some ([binned], _, _) => Some (rows zel binned)
    | _ => None
    end.
End Prep.
