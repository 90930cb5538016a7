(** Model of src/bartz/jaxext.py (except [autobatch], see ModelAutobatch.v). *)
From Coq Require Import ZArith List Bool.
From Verif Require Import Base.
Import ListNotations.
Open Scope Z_scope.

(** jaxext.py:117-128 [minimal_unsigned_dtype]; a dtype is represented by its
    number of bits. *)
Definition minimal_unsigned_bits (max_value : Z) : Z :=
  if max_value <? 2 ^ 8 then 8
  else if max_value <? 2 ^ 16 then 16
  else if max_value <? 2 ^ 32 then 32
  else 64.

(** jaxext.py:130-145, 147-151 [signed_to_unsigned], [ensure_unsigned]: the
    cast of a signed integer of [bits] bits to the unsigned type of the same
    size. *)
Definition ensure_unsigned (bits x : Z) : Z := wrap bits x.

(** jaxext.py:153-187 [unique].  [lt] and [eqb] are the comparisons of the
    dtype.  [x.size == 0] and [size == 0] are the two early returns. *)
Section Unique.
  Context {A : Type} (lt eqb : A -> A -> bool).

  (** jaxext.py:180-184 [loop]; the unused counter i_in is left out. *)
  Definition unique_loop (carry : Z * A * list A) (x : A) : Z * A * list A :=
    let '(i_out, last, out) := carry in
    let i_out := if eqb x last then i_out else i_out + 1 in
    let out := scatter_set out i_out x in
    (i_out, x, out).

  Definition unique (x : list A) (size : Z) (fill_value : A) : list A * Z :=
    match x with
    | [] => (full size fill_value, 0)
    | _ =>
      if size =? 0 then ([], 0) else
      match jnp_sort lt x with
      | [] => (full size fill_value, 0) (* impossible: sorting keeps the size *)
      | (x0 :: _) as xs =>
        let '(actual_length, _, out) :=
          fold_left unique_loop (firstn (Z.to_nat size) xs)
            (0, x0, full size fill_value) in
        (out, actual_length + 1)
      end
    end.
End Unique.
