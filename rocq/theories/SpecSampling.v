(** Specification of the elementary samplers. Nothing here uses the model. *)
From Coq Require Import ZArith List Bool.
Import ListNotations.
Open Scope Z_scope.

(** [is_true_at mask i]: entry i of a mask exists and is True *)
Definition is_true_at (mask : list bool) (i : Z) : Prop :=
  0 <= i /\ nth_error mask (Z.to_nat i) = Some true.

(** how many entries before [i] are True *)
Definition trues_before (mask : list bool) (i : Z) : Z :=
  Z.of_nat (count_occ bool_dec (firstn (Z.to_nat i) mask) true).

(** [a] is one of 0, ..., sup-1 and is not in [exclude]. *)
Definition allowed (sup : Z) (exclude : list Z) (a : Z) : Prop :=
  0 <= a < sup /\ ~ In a exclude.

(** how many of 0, ..., a-1 are not in [exclude] *)
Definition allowed_before (exclude : list Z) (a : Z) : Z :=
  Z.of_nat (length (filter
    (fun b => if in_dec Z.eq_dec (Z.of_nat b) exclude then false else true)
    (seq 0 (Z.to_nat a)))).
