(** Base: jax array primitives on Coq lists.

    These are the parts of jax/numpy the code of bartz calls; they are modelled
    here once, and every modelled bartz function is written in terms of them.
    Nothing in this file models a bartz function, except where cited. *)
From Coq Require Import ZArith List Bool.
Import ListNotations.
Open Scope Z_scope.

(** ** Arrays *)

(** [a.size] of a 1d array. *)
Definition zlen {A} (a : list A) : Z := Z.of_nat (length a).

(** What an out-of-bounds read [a[i]] returns: with [oob_clip] the nearest
    element, otherwise the fill value.  jax documents clamping for plain
    indexing; the model keeps the mode as a parameter, so that no theorem
    depends on it. *)
Record oob (A : Type) := mkoob { oob_clip : bool; oob_fill : A }.
Arguments mkoob {A}. Arguments oob_clip {A}. Arguments oob_fill {A}.

(** Python-style negative indices count from the end. *)
Definition norm_index (n i : Z) : Z := if i <? 0 then i + n else i.
Definition in_bounds (n i : Z) : bool := (0 <=? i) && (i <? n).

(** [a[i]] *)
Definition gather {A} (m : oob A) (a : list A) (i : Z) : A :=
  let i := norm_index (zlen a) i in
  if in_bounds (zlen a) i then nth (Z.to_nat i) a (oob_fill m)
  else if oob_clip m
  then nth (Z.to_nat (if i <? 0 then 0 else zlen a - 1)) a (oob_fill m)
  else oob_fill m.

(** [a.at[i].get(mode='fill', fill_value=v)] *)
Definition gather_fill {A} (v : A) (a : list A) (i : Z) : A :=
  gather (mkoob false v) a i.

Fixpoint upd {A} (n : nat) (v : A) (l : list A) : list A :=
  match l, n with
  | [], _ => []
  | _ :: l, O => v :: l
  | x :: l, S n => x :: upd n v l
  end.

(** [a.at[i].set(v)]; an out-of-bounds update is dropped. *)
Definition scatter_set {A} (a : list A) (i : Z) (v : A) : list A :=
  let i := norm_index (zlen a) i in
  if in_bounds (zlen a) i then upd (Z.to_nat i) v a else a.

(** [a.at[i].add(v)] for one index; an out-of-bounds update is dropped. *)
Definition scatter_upd {A} (a : list A) (i : Z) (f : A -> A) : list A :=
  let i := norm_index (zlen a) i in
  if in_bounds (zlen a) i then
    match nth_error a (Z.to_nat i) with
    | Some x => upd (Z.to_nat i) (f x) a
    | None => a
    end
  else a.

(** [jnp.arange(n)] *)
Definition arange (n : Z) : list Z := map Z.of_nat (seq 0 (Z.to_nat n)).

(** [jnp.full(n, v)] *)
Definition full {A} (n : Z) (v : A) : list A := repeat v (Z.to_nat n).

Fixpoint map2 {A B C} (f : A -> B -> C) (a : list A) (b : list B) : list C :=
  match a, b with
  | x :: a, y :: b => f x y :: map2 f a b
  | _, _ => []
  end.

Definition b2z (b : bool) : Z := if b then 1 else 0.

(** [jnp.count_nonzero] / [jnp.sum] of a boolean array *)
Definition count_nonzero (l : list bool) : Z := zlen (filter (fun b => b) l).

(** [jnp.cumsum], summing from left to right *)
Fixpoint cumsum_from {A} (add : A -> A -> A) (acc : A) (l : list A) : list A :=
  match l with
  | [] => []
  | x :: l => let s := add acc x in s :: cumsum_from add s l
  end.

(** [jnp.searchsorted(a, v, 'right')]: index of the first element > v *)
Fixpoint searchsorted_right {A} (lt : A -> A -> bool) (a : list A) (v : A) : Z :=
  match a with
  | [] => 0
  | x :: a => if lt v x then 0 else 1 + searchsorted_right lt a v
  end.

(** [jnp.searchsorted(a, v)] (side 'left'): index of the first element >= v *)
Fixpoint searchsorted_left {A} (lt : A -> A -> bool) (a : list A) (v : A) : Z :=
  match a with
  | [] => 0
  | x :: a => if lt x v then 1 + searchsorted_left lt a v else 0
  end.

(** [lax.scan] with no scanned input, [n] iterations *)
Fixpoint iterate {C} (n : nat) (f : C -> C) (c : C) : C :=
  match n with
  | O => c
  | S n => iterate n f (f c)
  end.

(** Conversion to / arithmetic in an unsigned dtype of the given bits *)
Definition wrap (bits x : Z) : Z := x mod 2 ^ bits.

(** ** Sorting, [jnp.sort] and [jnp.unique] *)

Fixpoint insert_sorted {A} (lt : A -> A -> bool) (x : A) (l : list A) : list A :=
  match l with
  | [] => [x]
  | y :: l' => if lt y x then y :: insert_sorted lt x l' else x :: l
  end.
Definition jnp_sort {A} (lt : A -> A -> bool) (l : list A) : list A :=
  fold_right (insert_sorted lt) [] l.

Fixpoint dedup_adjacent (l : list Z) : list Z :=
  match l with
  | x :: ((y :: _) as l') => if x =? y then dedup_adjacent l' else x :: dedup_adjacent l'
  | l => l
  end.

(** [jnp.unique(l, size=l.size, fill_value=v)]: sorted distinct values, padded
    at the end with [v] to the original size *)
Definition jnp_unique (l : list Z) (v : Z) : list Z :=
  let u := dedup_adjacent (jnp_sort Z.ltb l) in
  u ++ repeat v (length l - length u).

(** ** Floating point operations, without any law *)
Class fops := {
  F : Type;
  f0 : F; f1 : F; fhalf : F; fnan : F;
  fofZ : Z -> F;
  fadd : F -> F -> F; fsub : F -> F -> F; fmul : F -> F -> F; fdiv : F -> F -> F;
  fneg : F -> F; flog : F -> F; flog1p : F -> F; fsqrt : F -> F;
  flt : F -> F -> bool; fle : F -> F -> bool;
  fcumsum : list F -> list F; (** [jnp.cumsum]; it may sum in any order *)
  fisfinite : F -> bool
}.

(** Out-of-bounds modes for integer, boolean and float arrays *)
Class zoob := { zmode : oob Z; bmode : oob bool }.
Class foob (fo : fops) := { fmode : oob F }.

(** ** Random numbers *)

(** jax keys: [KSplit k n i] is [random.split(k, n)[i]] *)
Inductive key := KRoot (seed : Z) | KSplit (k : key) (n i : Z).

(** The generator: what each draw with each key returns.
    [r_unif k i]: entry [i] (row-major) of [random.uniform(k, shape)];
    [r_unif_to k hi]: [random.uniform(k, (), dtype, 0, hi)];
    [r_bits k]: the bits from which [random.randint(k, (), lo, hi)] is made;
    [r_normal k i]: entry [i] (row-major) of [random.normal(k, shape)];
    [r_gamma k a]: [random.gamma(k, a)]. *)
Class rng (fo : fops) := {
  r_unif : key -> Z -> F;
  r_unif_to : key -> F -> F;
  r_bits : key -> Z;
  r_normal : key -> Z -> F;
  r_gamma : key -> F -> F
}.

(** [random.randint(k, (), lo, hi)]: jax returns [lo] if [hi <= lo]. *)
Definition randint {fo : fops} {g : rng fo} (k : key) (lo hi : Z) : Z :=
  if hi <=? lo then lo else lo + (r_bits k) mod (hi - lo).
