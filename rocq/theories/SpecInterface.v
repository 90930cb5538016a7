(** Specification for the inputs and outputs of [gbart]. *)
From Coq Require Import ZArith List Bool Reals String.
From Verif Require Import Base Laws SpecTree ModelPrep ModelBART ModelInterface SpecBART.
Import ListNotations.
Open Scope Z_scope.

(** ** Inputs *)

Section Inputs.
  Context {lab : labels}.

  (** The predictors, one row for each predictor *)
  Definition predictor_rows (x : predictors) : list (list R) :=
    match x with Array rows => rows | Frame _ data => data end.
  Definition response_values (y : response) : list R :=
    match y with Vector v => v | Series _ v => v end.

  (** The test predictors have the same format as the training ones: an array
      with as many rows, or a DataFrame with columns that compare equal. *)
  Definition same_format (x x' : predictors) : Prop :=
    match x, x' with
    | Array rows, Array rows' => zlen rows = zlen rows'
    | Frame c _, Frame c' _ => columns_eq c c' = Some true
    | _, _ => False
    end.
End Inputs.

(** ** Outputs *)

(** The regression function at the saved iteration [j] of a fit, in the units
    of the response: offset plus scale times the sum of the trees, which compare
    raw predictors with cutpoints. *)
Definition regression (r : gbart) (maxdepth : Z) (j : nat) (x : list R) : R :=
  (g_offset r + g_scale r *
     rsum (map (fun t => raw_eval (g_splits r) (tree_of 0%R maxdepth t) x) (nth j (trace_forests (g_main_trace r)) [])))%R.

(** Its average over the saved iterations *)
Definition average_regression (r : gbart) (maxdepth ndpost : Z) (x : list R) : R :=
  (fold_right Rplus 0 (map (fun j => regression r maxdepth j x) (seq 0 (Z.to_nat ndpost))) / IZR ndpost)%R.

(** The rule number [s] of predictor [v] sends the point to the right. *)
Definition sends_right (splits : list (list ext)) (v s : Z) (x : list R) : bool :=
  match nth (Z.to_nat (s - 1)) (nth (Z.to_nat v) splits []) None with
  | Some c => if Rlt_dec c (nth (Z.to_nat v) x 0%R) then true else false
  | None => false
  end.

(** Every leaf of the tree contains at least [m] of the points. *)
Fixpoint leaves_have (splits : list (list ext)) (m : Z) (t : dtree R) (points : list (list R)) : Prop :=
  match t with
  | DLeaf _ => m <= zlen points
  | DNode v s l r =>
    leaves_have splits m l (filter (fun x => negb (sends_right splits v s x)) points) /\
    leaves_have splits m r (filter (sends_right splits v s) points)
  end.

(** The same arguments, with another number of iterations *)
Definition reschedule (a : gbart_args) (ndpost nskip keepevery printevery : Z) : gbart_args := {|
  x_train := x_train a; y_train := y_train a; usequants := usequants a; a_sigest := a_sigest a;
  sigdf := sigdf a; sigquant := sigquant a; a_k := a_k a; power := power a; base := base a; maxdepth := maxdepth a;
  a_lamda := a_lamda a; a_offset := a_offset a; ntree := ntree a; numcut := numcut a;
  ndpost := ndpost; nskip := nskip; keepevery := keepevery; printevery := printevery;
  seed := seed a; initkw := initkw a
|}.
