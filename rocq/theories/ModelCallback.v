(** Model of [pure_callback_ufunc] and [scipy.special.gammainccinv] in
    src/bartz/jaxext.py. *)
From Coq Require Import List Arith Bool.
From Verif Require Import SpecCallback.
Import ListNotations.

(** ** numpy and jax *)

(** [broadcast_shapes] of two shapes, given in reverse order *)
Fixpoint broadcast_rev (s t : list nat) : option (list nat) :=
  match s, t with
  | [], u | u, [] => Some u
  | m :: s, n :: t =>
      match broadcast_rev s t with
      | None => None
      | Some u =>
          if m =? n then Some (m :: u)
          else if m =? 1 then Some (n :: u)
          else if n =? 1 then Some (m :: u)
          else None
      end
  end.
Definition broadcast_shapes (s t : list nat) : option (list nat) :=
  option_map (@rev nat) (broadcast_rev (rev s) (rev t)).

(** [broadcast_to]: the axes are aligned at the end, along those of size 1 the
    only element is repeated *)
Definition clip_index (s idx : list nat) : list nat :=
  map (fun nk => if fst nk =? 1 then 0 else snd nk) (combine s (skipn (length idx - length s) idx)).
Definition broadcast_get {A} (x : array A) (idx : list nat) : A := get x (clip_index (shape x) idx).

(** A numpy ufunc with two arguments *)
Definition ufunc {A B C} (f : A -> B -> C) (a : array A) (b : array B) : option (array C) :=
  match broadcast_shapes (shape a) (shape b) with
  | None => None
  | Some s => Some (mkarray s (fun idx => f (broadcast_get a idx) (broadcast_get b idx)))
  end.

(** [expand_dims(a, tuple(range(k)))] *)
Definition expand_dims {A} (k : nat) (a : array A) : array A :=
  mkarray (repeat 1 k ++ shape a) (fun idx => get a (skipn k idx)).

(** [jax.pure_callback(callback, result, *args)]: the output must have the
    declared shape *)
Definition pure_callback {A B C} (callback : array A -> array B -> option (array C)) (result : list nat)
    (a : array A) (b : array B) : option (array C) :=
  match callback a b with
  | Some r => if list_eq_dec Nat.eq_dec (shape r) result then Some r else None
  | None => None
  end.

(** ** bartz *)

(** jaxext.py:48-63 [pure_callback_ufunc] with two arguments and none excluded *)
Definition pure_callback_ufunc {A B C} (callback : array A -> array B -> option (array C))
    (a : array A) (b : array B) : option (array C) :=
  match broadcast_shapes (shape a) (shape b) with
  | None => None
  | Some s =>
      let ndim := length s in
      pure_callback callback s
        (expand_dims (ndim - length (shape a)) a)
        (expand_dims (ndim - length (shape b)) b)
  end.

(** jaxext.py:73-79 [gammainccinv]; [f] is the function of scipy on two numbers,
    and [cast] the conversion to the type of the output (jaxext.py:35-46). *)
Definition gammainccinv {A B C D} (f : A -> B -> C) (cast : C -> D) (a : array A) (y : array B) : option (array D) :=
  pure_callback_ufunc (fun a y => option_map (fun r => mkarray (shape r) (fun idx => cast (get r idx))) (ufunc f a y)) a y.

(** ** Under [jax.vmap] *)

(** An argument of a function under vmap: mapped along its first axis, or not *)
Inductive varg A := Mapped (x : array A) | Unmapped (x : array A).
Arguments Mapped {A}. Arguments Unmapped {A}.
(** what the function sees at position [i] *)
Definition seen {A} (i : nat) (v : varg A) : array A :=
  match v with Mapped x => slice i x | Unmapped x => x end.
Definition seen_shape {A} (v : varg A) : list nat :=
  match v with Mapped x => tl (shape x) | Unmapped x => shape x end.

(** [expand_dims] under vmap inserts the axes after the mapped one. *)
Definition vmap_expand_dims {A} (k : nat) (v : varg A) : varg A :=
  match v with
  | Unmapped x => Unmapped (expand_dims k x)
  | Mapped x => Mapped (mkarray (hd 0 (shape x) :: repeat 1 k ++ tl (shape x))
                          (fun idx => get x (hd 0 idx :: skipn k (tl idx))))
  end.
(** [pure_callback(..., vectorized=True)] under vmap with axis size [n]: the
    callback is called once with the mapped axes first, and must return an output
    with the additional axis. The arguments which are not mapped are passed as
    they are, or with an axis of size 1 added ([expand]), depending on the
    version of jax. *)
Definition whole {A} (expand : bool) (v : varg A) : array A :=
  match v with Mapped x => x | Unmapped x => if expand then expand_dims 1 x else x end.
Definition vmap_pure_callback {A B C} (expand : bool) (n : nat) (callback : array A -> array B -> option (array C))
    (result : list nat) (a : varg A) (b : varg B) : option (array C) :=
  pure_callback callback (n :: result) (whole expand a) (whole expand b).

(** jaxext.py:48-63 [pure_callback_ufunc] under vmap *)
Definition vmap_pure_callback_ufunc {A B C} (expand : bool) (n : nat) (callback : array A -> array B -> option (array C))
    (a : varg A) (b : varg B) : option (array C) :=
  match broadcast_shapes (seen_shape a) (seen_shape b) with
  | None => None
  | Some s =>
      let ndim := length s in
      vmap_pure_callback expand n callback s
        (vmap_expand_dims (ndim - length (seen_shape a)) a)
        (vmap_expand_dims (ndim - length (seen_shape b)) b)
  end.
Definition vmap_gammainccinv {A B C D} (expand : bool) (n : nat) (f : A -> B -> C) (cast : C -> D)
    (a : varg A) (y : varg B) : option (array D) :=
  vmap_pure_callback_ufunc expand n
    (fun a y => option_map (fun r => mkarray (shape r) (fun idx => cast (get r idx))) (ufunc f a y)) a y.

(** jaxext.py:85-86 [scipy.stats.invgamma.ppf]; [inv] is the reciprocal in the
    type of the output *)
Definition ppf {A B C D} (f : A -> B -> C) (cast : C -> D) (inv : D -> D) (q : array B) (a : array A) : option (array D) :=
  option_map (fun r => mkarray (shape r) (fun idx => inv (get r idx))) (gammainccinv f cast a q).
Definition vmap_ppf {A B C D} (expand : bool) (n : nat) (f : A -> B -> C) (cast : C -> D) (inv : D -> D)
    (q : varg B) (a : varg A) : option (array D) :=
  option_map (fun r => mkarray (shape r) (fun idx => inv (get r idx))) (vmap_gammainccinv expand n f cast a q).
