(** Specification for the preparation of the predictors: sets of distinct
    values, cutpoints, bins. Nothing here uses the modelled functions. *)
From Coq Require Import ZArith List Bool Sorted.
Import ListNotations.
Open Scope Z_scope.

(** Comparisons that form a strict total order *)
Class total_order {A : Type} (lt eqb : A -> A -> bool) : Prop := {
  o_irrefl : forall a, lt a a = false;
  o_trans : forall a b c, lt a b = true -> lt b c = true -> lt a c = true;
  o_total : forall a b, lt a b = true \/ a = b \/ lt b a = true;
  o_eqb : forall a b, eqb a b = true <-> a = b
}.

(** The integers of a type with or without sign, in two's complement *)
Definition representable (signed : bool) (bits v : Z) : Prop :=
  if signed then - 2 ^ (bits - 1) <= v < 2 ^ (bits - 1) else 0 <= v < 2 ^ bits.
Definition largest (signed : bool) (bits m : Z) : Prop :=
  representable signed bits m /\ forall v, representable signed bits v -> v <= m.

Section Order.
  Context {A : Type} (lt : A -> A -> bool).

  Definition increasing (l : list A) : Prop := StronglySorted (fun a b => lt a b = true) l.
  Definition nondecreasing (l : list A) : Prop := StronglySorted (fun a b => lt b a = false) l.

  (** [u] is the increasing list of the distinct values of [x]. *)
  Definition distinct_values (x u : list A) : Prop :=
    increasing u /\ forall v, In v u <-> In v x.

  (** [c] separates a < b: a <= c < b. *)
  Definition separates (c a b : A) : Prop := lt c a = false /\ lt c b = true.

  (** a < b are values of [x] with no other values in between. *)
  Definition consecutive (x : list A) (a b : A) : Prop :=
    In a x /\ In b x /\ lt a b = true /\ forall c, In c x -> lt a c && lt c b = false.

  (** [x] is in bin [i] of the bins delimited by [splits]:
      splits[i-1] < x <= splits[i], without the first condition if i = 0 and
      without the second if i is the number of splits. *)
  Definition in_bin (splits : list A) (i : Z) (x : A) : Prop :=
    0 <= i <= Z.of_nat (length splits) /\
    (forall c, 1 <= i -> nth_error splits (Z.to_nat (i - 1)) = Some c -> lt c x = true) /\
    (forall c, nth_error splits (Z.to_nat i) = Some c -> lt c x = false).

  (** [total] values in [bins] bins: the number of those in a bin is total / bins
      rounded up or down; or so within one part in a million. *)
  Definition evenly (count bins total : Z) : Prop := Z.abs (count * bins - total) < bins.
  Definition nearly_evenly (count bins total : Z) : Prop :=
    Z.abs (count * bins - total) * 2 ^ 20 <= bins * (2 ^ 20 + total + 1).

  (** What a user expects from at most [max_bins] cutpoints placed at the
      quantiles of [x]: [splits] with [used] meaningful values. *)
  Record quantile_cutpoints (even : Z -> Z -> Z -> Prop) (huge : A) (max_bins : Z) (x splits : list A) (used : Z) : Prop := {
    (** the row has a length that depends only on the sizes *)
    qc_length : Z.of_nat (length splits) = Z.min max_bins (Z.of_nat (length x)) - 1;
    (** one bin per distinct value, as far as max_bins allows *)
    qc_used : forall u, distinct_values x u -> used = Z.min (Z.of_nat (length u)) max_bins - 1;
    (** the used cutpoints are strictly increasing *)
    qc_increasing : increasing (firstn (Z.to_nat used) splits);
    (** each cutpoint falls between two consecutive observed values *)
    qc_separates : forall c, In c (firstn (Z.to_nat used) splits) ->
      exists a b, consecutive x a b /\ separates c a b;
    (** padding *)
    qc_unused : forall c, In c (skipn (Z.to_nat used) splits) -> c = huge;
    (** with few distinct values no information is lost *)
    qc_all : forall u, distinct_values x u -> Z.of_nat (length u) <= max_bins ->
      forall a b, In a x -> In b x -> lt a b = true ->
      exists c, In c (firstn (Z.to_nat used) splits) /\ separates c a b;
    (** otherwise the distinct values are spread evenly *)
    qc_balanced : forall u i, distinct_values x u -> 0 <= i <= used ->
      exists l, distinct_values l l /\
        (forall v, In v l <-> In v x /\ in_bin (firstn (Z.to_nat used) splits) i v) /\
        even (Z.of_nat (length l)) (used + 1) (Z.of_nat (length u))
  }.
End Order.

(** The positions of the quantiles of L + 1 values with m cutpoints, k-th
    cutpoint, are -1 + (L + 1) (k + 1) / (m + 1); [lin L m k] is this rounded to an
    integer after an error of at most (L + 2) / 2^21 (as in single precision). *)
Definition near_quantiles (lin : Z -> Z -> Z -> Z) (n : Z) : Prop :=
  forall L m k, 0 <= k < m -> m < L < n ->
  Z.abs ((m + 1) * lin L m k - ((L + 1) * (k + 1) - (m + 1))) * 2 ^ 21 <= (m + 1) * (2 ^ 20 + L + 2).
