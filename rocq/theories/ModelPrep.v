(** Model of src/bartz/prepcovars.py.

    A (p, n) matrix is here the list of its p rows (one row per predictor).
    jaxext.autobatch, which wraps two functions, does not change their result
    (C29). *)
From Coq Require Import ZArith List Bool Reals.
From Verif Require Import Base ModelJaxext.
Import ListNotations.
Open Scope Z_scope.

(** ** Integer types *)

(** A numpy integer type *)
Record itype := mkitype { it_signed : bool; it_bits : Z }.
Definition int_min (t : itype) : Z := if it_signed t then - 2 ^ (it_bits t - 1) else 0.
(** jaxext.py:98-115 [huge_value], integer case: [jnp.iinfo(dtype).max] *)
Definition int_max (t : itype) : Z :=
  if it_signed t then 2 ^ (it_bits t - 1) - 1 else 2 ^ it_bits t - 1.
(** The value of type [t] congruent to [x] (two's complement arithmetic) *)
Definition int_wrap (t : itype) (x : Z) : Z :=
  if it_signed t then (x + 2 ^ (it_bits t - 1)) mod 2 ^ it_bits t - 2 ^ (it_bits t - 1)
  else x mod 2 ^ it_bits t.

(** ** Rounding *)

(** [round] of num/den (den > 0) to the nearest integer, half to even *)
Definition round_half_even (num den : Z) : Z :=
  let q := (2 * num + den) / (2 * den) in
  if ((2 * num + den) mod (2 * den) =? 0) && Z.odd q then q - 1 else q.

(** prepcovars.py:74-75: [round(linspace(-1, L, m + 2)[1:-1])]. The code computes
    the linspace in float32, jax does not say with which operations: element k of
    the rounded list is a parameter [lin L m k] of the model. The cast is to the
    type of line 75. *)
Definition quantile_indices (lin : Z -> Z -> Z -> Z) (midpoints_size L m : Z) : list Z :=
  map (fun k => wrap (minimal_unsigned_bits (midpoints_size - 1)) (lin L m k)) (arange m).

(** The linspace in exact arithmetic: point k + 1 is -1 + (L + 1) (k + 1) / (m + 1). *)
Definition exact_lin (L m k : Z) : Z := round_half_even ((L + 1) * (k + 1) - (m + 1)) (m + 1).

(** ** Quantilized splits *)
Section Quantile.
  Context {A : Type} (lt eqb : A -> A -> bool) (mode : oob A) (huge : A) (lin : Z -> Z -> Z -> Z).

  (** prepcovars.py:74-83, after the midpoints have been computed; [L] is
      actual_length after line 67. *)
  Definition choose_midpoints (midpoints : list A) (L m : Z) : list A * Z :=
    let decimated := map (gather mode midpoints) (quantile_indices lin (zlen midpoints) L m) in
    let truncated := firstn (Z.to_nat m) midpoints in
    (if m <? L then decimated else truncated,
     wrap (minimal_unsigned_bits m) (Z.min L m)).

  (** prepcovars.py:63-83 [_quantilized_splits_from_matrix], one row, float
      type. [half_sum b a] is [(b + a) / 2]. *)
  Definition quantilized_row_float (half_sum : A -> A -> A) (x : list A) (m : Z) : list A * Z :=
    let '(u, actual_length) := unique lt eqb x (zlen x) huge in
    let L := actual_length - 1 in
    let midpoints := map2 half_sum (tl u) (removelast u) in
    choose_midpoints midpoints L m.
End Quantile.

(** The sum on prepcovars.py:69 is between a value of type [t] and one of the
    unsigned type of the same size. jax promotes the two types to a signed type
    with twice the bits if [t] is signed; there are no 64 bits types unless
    'jax_enable_x64' is set, and then the 64 bits types are promoted to float64
    ([None]). *)
Definition sum_type (x64 : bool) (t : itype) : option itype :=
  if it_signed t then
    if it_bits t <=? 16 then Some (mkitype true (2 * it_bits t))
    else if it_bits t <=? 32 then Some (mkitype true (if x64 then 64 else 32))
    else None
  else Some t.
(** The float64 closest to an integer with at most 64 bits *)
Definition round53 (z : Z) : Z :=
  let e := Z.log2 (Z.abs z) - 52 in
  if e <=? 0 then z else round_half_even z (2 ^ e) * 2 ^ e.
Definition int_sum (x64 : bool) (t : itype) (a d : Z) : Z :=
  match sum_type x64 t with
  | Some s => int_wrap s (a + d)
  | None => round53 (round53 a + round53 d)
  end.
(** prepcovars.py:71: the filler in the type of the sum *)
Definition int_filler (x64 : bool) (t : itype) (huge : Z) : Z :=
  match sum_type x64 t with Some _ => huge | None => round53 huge end.

(** prepcovars.py:63-83 [_quantilized_splits_from_matrix], one row, integer type
    [t].  On line 69 the difference is computed in type [t], cast to the
    unsigned type of the same size (jaxext.py:147-151), halved, and added to a
    value of type [t]. *)
Definition quantilized_row_int (x64 : bool) (t : itype) (mode : oob Z) (lin : Z -> Z -> Z -> Z)
    (x : list Z) (m : Z) : list Z * Z :=
  let huge := int_max t in
  let '(u, actual_length) := unique Z.ltb Z.eqb x (zlen x) huge in
  let L := actual_length - 1 in
  let midpoints := map2 (fun a d => int_sum x64 t a (ensure_unsigned (it_bits t) d / 2)) (removelast u)
                     (map2 (fun b a => int_wrap t (b - a)) (tl u) (removelast u)) in
  let midpoints := map2 (fun i v => if i <? L then v else int_filler x64 t huge) (arange (zlen midpoints)) midpoints in
  choose_midpoints mode lin midpoints L m.

(** Real numbers with +inf ([None]): the values of a float predictor and the
    [huge_value] of floats (jaxext.py:98-115), without rounding and overflow, and
    without -inf and nan. *)
Definition ext := option R.
Definition ext_lt (a b : ext) : bool :=
  match a, b with
  | Some a, Some b => if Rlt_dec a b then true else false
  | Some _, None => true
  | None, _ => false
  end.
Definition ext_eqb (a b : ext) : bool :=
  match a, b with
  | Some a, Some b => if Req_EM_T a b then true else false
  | None, None => true
  | _, _ => false
  end.
(** prepcovars.py:73 *)
Definition ext_half_sum (b a : ext) : ext :=
  match b, a with
  | Some b, Some a => Some ((b + a) / 2)%R
  | _, _ => None
  end.

(** prepcovars.py:33-61 [quantilized_splits_from_matrix]; [row] is one of the
    two functions above. *)
Definition quantilized_splits_from_matrix {A} (row : list A -> Z -> list A * Z)
    (n : Z) (X : list (list A)) (max_bins : Z) : list (list A) * list Z :=
  let out_length := Z.min max_bins n - 1 in
  let r := map (fun x => row x out_length) X in
  (map fst r, map snd r).

(** ** Uniform splits *)

(** [jnp.min], [jnp.max] of a non-empty array *)
Definition rmin (x : list R) : R := fold_right Rmin (hd 0%R x) x.
Definition rmax (x : list R) : R := fold_right Rmax (hd 0%R x) x.

(** prepcovars.py:85-111 [uniform_splits_from_matrix], one row, with real
    numbers: the points 1, ..., num_bins - 1 of
    [linspace(low, high, num_bins + 1)]. *)
Definition uniform_row (x : list R) (num_bins : Z) : list R * Z :=
  let low := rmin x in
  let high := rmax x in
  (map (fun k => low + (high - low) * IZR (k + 1) / IZR num_bins)%R (arange (num_bins - 1)),
   num_bins - 1).

Definition uniform_splits_from_matrix (X : list (list R)) (num_bins : Z) : list (list R) * list Z :=
  let r := map (fun x => uniform_row x num_bins) X in
  (map fst r, map snd r).

(** ** Binning *)

(** prepcovars.py:113-143 [bin_predictors], with the default side of
    searchsorted. *)
Definition bin_row {A} (lt : A -> A -> bool) (x splits : list A) : list Z :=
  map (fun v => wrap (minimal_unsigned_bits (zlen splits)) (searchsorted_left lt splits v)) x.
Definition bin_predictors {A} (lt : A -> A -> bool) (X splits : list (list A)) : list (list Z) :=
  map2 (bin_row lt) X splits.
