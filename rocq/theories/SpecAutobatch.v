(** Specification for [autobatch]: slices along an axis, functions that work
    independently along the axes, valid calls. *)
From Coq Require Import ZArith List Bool.
From Verif Require Import Base ModelAutobatch.
Import ListNotations.
Open Scope Z_scope.

Section Spec.
  Context {A : Type} (d : A).

  (** An array has as many elements as its shape says. *)
  Definition wf (x : arr A) : Prop := length (dat x) = prod (shp x).

  (** x[..., a:a+m, ...] along the axis [k] *)
  Definition slice (k a m : nat) (x : arr A) : arr A :=
    tabulate (dty x) (insert k m (remove k (shp x)))
      (fun idx => get d x (insert k (a + nth k idx 0)%nat (remove k idx))).

  (** Slices of all the arrays with an axis; the others are left alone. *)
  Definition slices (axes : list (option nat)) (a m : nat) (xs : list (arr A)) : list (arr A) :=
    map2 (fun x axis => match axis with Some k => slice k a m x | None => x end) xs axes.

  (** An array with an axis has size [n] along it. *)
  Definition sized (n : nat) (x : arr A) (axis : option nat) : Prop :=
    forall k, axis = Some k -> nth_error (shp x) k = Some n.

  (** Axes given as one integer or for each array *)
  Definition axes_for (axes : nat + list (option nat)) (xs : list (arr A)) (l : list (option nat)) : Prop :=
    length l = length xs /\
    match axes with
    | inl k => forall a, In a l -> a = Some k
    | inr l' => l = l'
    end.

  (** [func] works independently along the axes, at these arguments: the result
      for a part of the points is that part of the result for all points. *)
  Definition independent (func : list (arr A) -> list (arr A)) (ins outs : list (option nat)) (n : nat)
      (args : list (arr A)) : Prop :=
    forall a m, (1 <= m)%nat -> (a + m <= n)%nat -> func (slices ins a m args) = slices outs a m (func args).

  (** The same for all arguments, in terms of single points: each point of the
      result is a function [h] of that point of the arguments. *)
  Definition take (k i : nat) (x : arr A) : arr A :=
    tabulate (dty x) (remove k (shp x)) (fun idx => get d x (insert k i idx)).
  Definition takes (axes : list (option nat)) (i : nat) (xs : list (arr A)) : list (arr A) :=
    map2 (fun x axis => match axis with Some k => take k i x | None => x end) xs axes.
  Definition pointwise (func h : list (arr A) -> list (arr A)) (ins outs : list (option nat)) : Prop :=
    forall n args, (1 <= n)%nat -> Forall wf args -> Forall2 (sized n) args ins ->
    Forall wf (func args) /\ Forall2 (sized n) (func args) outs /\
    forall i, (i < n)%nat -> takes outs i (func args) = h (takes ins i args).

  (** A call of the batched function that is as documented *)
  Record valid_call (func : list (arr A) -> list (arr A)) (ins outs : list (option nat)) (n : nat)
      (args : list (arr A)) : Prop := {
    vc_args : Forall wf args;
    vc_result : Forall wf (func args);
    vc_items : forall x, In x (args ++ func args) -> 0 <= itemsize (dty x);
    vc_in : Forall2 (sized n) args ins;
    vc_out : Forall2 (sized n) (func args) outs;
    vc_batched : exists k, In (Some k) ins;
    vc_all_out : ~ In None outs
  }.

  (** Bytes of the batched arguments and of the results *)
  Definition bytes (x : arr A) : Z := Z.of_nat (length (dat x)) * itemsize (dty x).
  Definition io_bytes (ins : list (option nat)) (args result : list (arr A)) : Z :=
    fold_right Z.add 0
      (map2 (fun x axis => match axis with Some _ => bytes x | None => 0 end) args ins) +
    fold_right Z.add 0 (map bytes result).
End Spec.
