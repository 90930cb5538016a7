(** Arrays with any number of axes, and broadcasting. *)
From Coq Require Import List Arith.
Import ListNotations.

(** An array: a shape, and an element for each list of indices within the shape
    (the values of [get] outside of the shape have no meaning) *)
Record array A := mkarray { shape : list nat; get : list nat -> A }.
Arguments mkarray {A}. Arguments shape {A}. Arguments get {A}.

(** [idx] is an index of an array with shape [s]. *)
Definition index_of (s idx : list nat) : Prop := Forall2 lt idx s.

(** Size of an axis and position along it, counting the axes from the last one;
    arrays are considered to have other axes of size 1 before the first. *)
Definition axis (s : list nat) (i : nat) : nat := nth i (rev s) 1.
Definition position (idx : list nat) (i : nat) : nat := nth i (rev idx) 0.

(** Two shapes can be broadcast together. *)
Definition compatible (s t : list nat) : Prop :=
  forall i, axis s i = axis t i \/ axis s i = 1 \/ axis t i = 1.

(** [u] is the shape which results from broadcasting [s] and [t]. *)
Definition common_shape (s t u : list nat) : Prop :=
  length u = Nat.max (length s) (length t) /\
  forall i, axis u i = if axis s i =? 1 then axis t i else axis s i.

(** [j] is the index, in an array with shape [s], of the element used for the
    index [idx] of the result: the same along each axis, but for those of size 1. *)
Definition source (s idx j : list nat) : Prop :=
  length j = length s /\ forall i, position j i = if axis s i =? 1 then 0 else position idx i.

(** [r] is obtained by applying [f] to the elements of [a] and [b] broadcast
    together. *)
Definition elementwise {A B C} (f : A -> B -> C) (a : array A) (b : array B) (r : array C) : Prop :=
  common_shape (shape a) (shape b) (shape r) /\
  forall idx ja jb, index_of (shape r) idx -> source (shape a) idx ja -> source (shape b) idx jb ->
    get r idx = f (get a ja) (get b jb).

(** The i-th element along the first axis *)
Definition slice {A} (i : nat) (x : array A) : array A :=
  mkarray (tl (shape x)) (fun idx => get x (i :: idx)).

(** [r] is the result of applying a function, which may fail, for each position
    along a new axis of size [n]. *)
Definition stacked {C} (n : nat) (each : nat -> option (array C)) (r : array C) : Prop :=
  exists s, shape r = n :: s /\
  forall i, i < n -> exists x, each i = Some x /\ shape x = s /\
    forall idx, index_of s idx -> get r (i :: idx) = get x idx.
