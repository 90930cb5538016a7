(** Model of [autobatch] (src/bartz/jaxext.py).

    Arrays have any number of axes: an array is its shape, its data type and the
    list of its elements in row-major order. Elements are of one Coq type [A]
    whatever the data type of the array; [d] is the element that a read out of
    bounds would return (there are none in valid calls). A pytree is the list of
    its leaves. An axis is a non-negative integer (a negative one is the same as
    counting from the end). Exceptions and failed assertions are [None]. *)
From Coq Require Import String ZArith List Bool.
From Verif Require Import Base.
Import ListNotations.
Open Scope Z_scope.

Record dtype := mkdtype { dname : string; itemsize : Z }.
Definition dtype_eqb (a b : dtype) : bool :=
  String.eqb (dname a) (dname b) && (itemsize a =? itemsize b).

Definition prod (s : list nat) : nat := fold_right Nat.mul 1%nat s.

(** The multi-indices of an array of shape [s] in row-major order *)
Fixpoint indices (s : list nat) : list (list nat) :=
  match s with
  | [] => [[]]
  | n :: s => flat_map (fun i => map (cons i) (indices s)) (seq 0 n)
  end.

(** Position of an element in row-major order *)
Fixpoint ravel (s idx : list nat) : nat :=
  match s, idx with
  | _ :: s, i :: idx => (i * prod s + ravel s idx)%nat
  | _, _ => 0%nat
  end.

(** list.insert and del *)
Definition insert {B} (k : nat) (v : B) (l : list B) : list B := firstn k l ++ v :: skipn k l.
Definition remove {B} (k : nat) (l : list B) : list B := firstn k l ++ skipn (S k) l.

Section Arrays.
  Context {A : Type} (d : A).

  Record arr := mkarr { shp : list nat; dty : dtype; dat : list A }.

  Definition get (x : arr) (idx : list nat) : A := nth (ravel (shp x) idx) (dat x) d.

  (** The array of shape [s] with the given elements *)
  Definition tabulate (t : dtype) (s : list nat) (f : list nat -> A) : arr :=
    mkarr s t (map f (indices s)).

  (** [jnp.moveaxis] *)
  Definition moveaxis (x : arr) (src dst : nat) : arr :=
    tabulate (dty x) (insert dst (nth src (shp x) 0%nat) (remove src (shp x)))
      (fun idx => get x (insert src (nth dst idx 0%nat) (remove dst idx))).

  (** [x.reshape(s)]; only used where the number of elements is right *)
  Definition reshape (x : arr) (s : list nat) : arr := mkarr s (dty x) (dat x).

  (** [x[j]] as done by [lax.scan] *)
  Definition row (x : arr) (j : nat) : arr :=
    let m := prod (tl (shp x)) in
    mkarr (tl (shp x)) (dty x) (firstn m (skipn (j * m) (dat x))).

  (** [jnp.stack] as done by [lax.scan] on at least one array *)
  Definition stack (xs : list arr) (x0 : arr) : arr :=
    mkarr (List.length xs :: shp (hd x0 xs)) (dty (hd x0 xs)) (concat (map dat xs)).

  (** jaxext.py:217-220 [expand_axes]: [in_axes] and [out_axes] are one integer
      for all arrays or a pytree. *)
  Definition expand_axes (axes : nat + list (option nat)) (tree : list arr) : option (list (option nat)) :=
    match axes with
    | inl axis => Some (map (fun _ => Some axis) tree)
    | inr axes => if (List.length axes =? List.length tree)%nat then Some axes else None
    end.

  (** jaxext.py:222-225 [check_no_nones] *)
  Definition check_no_nones (axes : list (option nat)) : bool :=
    forallb (fun a => match a with Some _ => true | None => false end) axes.

  (** jaxext.py:227-236 [extract_size] *)
  Fixpoint sizes (axes : list (option nat)) (tree : list arr) : option (list nat) :=
    match axes, tree with
    | None :: axes, _ :: tree => sizes axes tree
    | Some axis :: axes, x :: tree =>
      match nth_error (shp x) axis, sizes axes tree with
      | Some s, Some l => Some (s :: l)
      | _, _ => None
      end
    | _, _ => Some []
    end.
  Definition extract_size (axes : list (option nat)) (tree : list arr) : option nat :=
    match sizes axes tree with
    | Some (s :: l) => if forallb (Nat.eqb s) (s :: l) then Some s else None
    | _ => None
    end.

  (** jaxext.py:238-241 [sum_nbytes]; a [None] is not a leaf *)
  Definition nbytes (x : arr) : Z := Z.of_nat (prod (shp x)) * itemsize (dty x).
  Definition sum_nbytes (tree : list (option arr)) : Z :=
    fold_left (fun size x => match x with Some x => size + nbytes x | None => size end) tree 0.

  (** [range(lo, hi)] and [range(hi, 0, -1)] *)
  Definition range (lo hi : Z) : list Z := map (fun i => lo + i) (arange (hi - lo)).
  Definition range_down (hi : Z) : list Z := map (fun i => hi - i) (arange hi).

  (** jaxext.py:243-247 [next_divisor_small]. [root] is [int(math.sqrt(dividend))],
      that may differ from the integer square root for very large numbers. *)
  Definition next_divisor_small (root : Z -> Z) (dividend min_divisor : Z) : Z :=
    match find (fun divisor => dividend mod divisor =? 0) (range min_divisor (root dividend + 1)) with
    | Some divisor => divisor
    | None => dividend
    end.

  (** jaxext.py:249-254 [next_divisor_large] *)
  Definition next_divisor_large (dividend min_divisor : Z) : Z :=
    let max_inv_divisor := dividend / min_divisor in
    match find (fun inv_divisor => dividend mod inv_divisor =? 0) (range_down max_inv_divisor) with
    | Some inv_divisor => dividend / inv_divisor
    | None => dividend
    end.

  (** jaxext.py:256-261 [next_divisor] *)
  Definition next_divisor (root : Z -> Z) (dividend min_divisor : Z) : Z :=
    if dividend =? 0 then min_divisor
    else if min_divisor * min_divisor <=? dividend then next_divisor_small root dividend min_divisor
    else next_divisor_large dividend min_divisor.

  (** jaxext.py:263-269 [pull_nonbatched] *)
  Definition pull_nonbatched (axes : list (option nat)) (tree : list arr) : list (option arr) :=
    map2 (fun x axis => match axis with None => None | Some _ => Some x end) tree axes.

  (** jaxext.py:271-277 [push_nonbatched] *)
  Definition push_nonbatched (axes : list (option nat)) (tree : list (option arr)) (original : list arr)
      : list arr :=
    map2 (fun original_x (xa : option arr * option nat) =>
            match xa with (Some x, Some _) => x | _ => original_x end)
      original (map2 pair tree axes).

  (** jaxext.py:279-287 [move_axes_out], [move_axes_in] *)
  Definition on_axes (f : arr -> nat -> arr) (axes : list (option nat)) (tree : list (option arr))
      : list (option arr) :=
    map2 (fun x axis => match x, axis with Some x, Some a => Some (f x a) | _, _ => None end) tree axes.
  Definition move_axes_out := on_axes (fun x axis => moveaxis x axis 0).
  Definition move_axes_in := on_axes (fun x axis => moveaxis x 0 axis).

  (** jaxext.py:289-297 [batch], [unbatch] *)
  Definition batch (nbatches : nat) (x : arr) : arr :=
    reshape x (nbatches :: (hd 0 (shp x) / nbatches)%nat :: tl (shp x)).
  Definition unbatch (x : arr) : arr :=
    reshape x ((nth 0 (shp x) 0 * nth 1 (shp x) 0)%nat :: skipn 2 (shp x)).

  (** jaxext.py:299-303 [check_same] *)
  Definition check_same (l l' : list arr) : bool :=
    (List.length l =? List.length l')%nat &&
    forallb (fun xy => (if list_eq_dec Nat.eq_dec (shp (fst xy)) (shp (snd xy)) then true else false) &&
                       dtype_eqb (dty (fst xy)) (dty (snd xy))) (map2 pair l l').

  (** jaxext.py:338-343 [loop]: one step of the scan *)
  Definition loop (func : list arr -> list arr) (in_axes out_axes : list (option nat))
      (nonbatched_args : list arr) (args : list (option arr)) : list (option arr) :=
    let args := push_nonbatched in_axes (move_axes_in in_axes args) nonbatched_args in
    move_axes_out out_axes (map Some (func args)).

  (** [lax.scan] of a loop without carry over the first axis: the outputs of
      the steps are stacked. It raises if there are no arrays to scan over. *)
  Definition scan (step : list (option arr) -> list (option arr)) (nb : nat) (nout : nat)
      (args : list (option arr)) : option (list (option arr)) :=
    if forallb (fun x => match x with Some _ => false | None => true end) args then None
    else
      let results := map (fun j => step (map (option_map (fun x => row x j)) args)) (seq 0 nb) in
      Some (map (fun k =>
              match nth k (hd [] results) None with
              | Some x0 => Some (stack (map (fun r => match nth k r None with Some x => x | None => x0 end) results) x0)
              | None => None
              end) (seq 0 nout)).

  (** jaxext.py:308-351 [batched_func] with return_nbatches=True; the third
      result tells if there was a warning. *)
  Definition batched_func (root : Z -> Z) (func : list arr -> list arr) (max_io_nbytes : Z)
      (initial_in_axes initial_out_axes : nat + list (option nat)) (args : list arr)
      : option (list arr * Z * bool) :=
    let example_result := func args in
    match expand_axes initial_in_axes args, expand_axes initial_out_axes example_result with
    | Some in_axes, Some out_axes =>
      if check_no_nones out_axes then
      match extract_size (in_axes ++ out_axes) (args ++ example_result) with
      | None => None
      | Some size =>
        let nonbatched_args := args in
        let args := pull_nonbatched in_axes args in
        let total_nbytes := sum_nbytes (args ++ map Some example_result) in
        let min_nbatches := total_nbytes / max_io_nbytes +
                            (if total_nbytes mod max_io_nbytes =? 0 then 0 else 1) in
        let min_nbatches := Z.max 1 min_nbatches in
        let nbatches := next_divisor root (Z.of_nat size) min_nbatches in
        if (1 <=? nbatches) && (nbatches <=? Z.max 1 (Z.of_nat size)) then
        if Z.of_nat size mod nbatches =? 0 then
        if total_nbytes mod nbatches =? 0 then
          let batch_nbytes := total_nbytes / nbatches in
          let warning := max_io_nbytes <? batch_nbytes in
          if negb warning || (Z.of_nat size =? nbatches) then
            let nb := Z.to_nat nbatches in
            let args := move_axes_out in_axes args in
            let args := map (option_map (batch nb)) args in
            match scan (loop func in_axes out_axes nonbatched_args) nb (List.length example_result) args with
            | None => None
            | Some result =>
              let result := map (option_map unbatch) result in
              let result := move_axes_in out_axes result in
              let result := flat_map (fun x => match x with Some x => [x] | None => [] end) result in
              if check_same example_result result then Some (result, nbatches, warning) else None
            end
          else None
        else None else None else None
      end
      else None
    | _, _ => None
    end.
End Arrays.
Arguments arr A : clear implicits.
