(** Model of [_choose_suffstat_batch_size] (src/bartz/mcmcstep.py). *)
From Coq Require Import String ZArith List Bool.
From Verif Require Import Base.
Open Scope Z_scope.

(** A Python number: an integer, or the float [2 ** e] with e < 0, which is
    between 0 and 1 *)
Inductive pynum := PInt (z : Z) | PPow (e : Z).

(** [2 ** e] with an integer [e] *)
Definition pow2 (e : Z) : pynum := if 0 <=? e then PInt (2 ^ e) else PPow e.

(** [a < b] *)
Definition pylt (a b : pynum) : bool :=
  match a, b with
  | PInt a, PInt b => a <? b
  | PPow a, PPow b => a <? b
  | PPow _, PInt b => 1 <=? b
  | PInt a, PPow _ => a <=? 0
  end.

(** [max(a, b)], which is [a] if they are equal *)
Definition pymax (a b : pynum) : pynum := if pylt a b then b else a.

(** An argument resid_batch_size or count_batch_size: 'auto', an integer or None *)
Inductive batch_arg := Auto | Given (b : option Z).

(** mcmcstep.py:219-255 [_choose_suffstat_batch_size]. [size] is y.size. The
    exponents are the roundings [int(round(...))] of the logarithms of n (lines
    236, 238, 247), computed with floats: they are functions of n that are left
    unspecified. The exception raised for an unknown platform is [None]. *)
Section Choose.
  Context (exp_resid_cpu exp_resid_gpu exp_count_gpu : Z -> Z).

  Definition get_platform (platform : string) : option string :=
    if (String.eqb platform "cpu" || String.eqb platform "gpu")%bool then Some platform else None.

  (** lines 232-239 *)
  Definition choose_resid_batch_size (resid_batch_size : batch_arg) (platform : string) (size : Z)
      : option (option pynum) :=
    match resid_batch_size with
    | Given b => Some (option_map PInt b)
    | Auto =>
      match get_platform platform with
      | None => None
      | Some platform =>
        let n := Z.max 1 size in
        let resid_batch_size :=
          if String.eqb platform "cpu" then pow2 (exp_resid_cpu n) else pow2 (exp_resid_gpu n) in
        Some (Some (pymax (PInt 1) resid_batch_size))
      end
    end.

  (** lines 241-253; [math.ceil] of a quotient by a power of two *)
  Definition choose_count_batch_size (count_batch_size : batch_arg) (platform : string) (size forest_size : Z)
      : option (option pynum) :=
    match count_batch_size with
    | Given b => Some (option_map PInt b)
    | Auto =>
      match get_platform platform with
      | None => None
      | Some platform =>
        if String.eqb platform "cpu" then Some None
        else
          let n := Z.max 1 size in
          let count_batch_size := pow2 (exp_count_gpu n) in
          let max_memory := 2 ^ 29 in
          let itemsize := 4 in
          let min_batch_size := - ((- (forest_size * itemsize * n)) / max_memory) in
          let count_batch_size := pymax count_batch_size (PInt min_batch_size) in
          Some (Some (pymax (PInt 1) count_batch_size))
      end
    end.

  Definition choose_suffstat_batch_size (resid_batch_size count_batch_size : batch_arg)
      (platform : string) (size forest_size : Z) : option (option pynum * option pynum) :=
    match choose_resid_batch_size resid_batch_size platform size with
    | None => None
    | Some r =>
      match choose_count_batch_size count_batch_size platform size forest_size with
      | None => None
      | Some c => Some (r, c)
      end
    end.
End Choose.
