(** The standardisation of the response by [gbart] (BART.py), in any
    arithmetic. In ModelBART.v the same functions are in real arithmetic, in
    which a division by zero is a number. *)
From Coq Require Import ZArith List.
From Verif Require Import Base.
Import ListNotations.
Open Scope Z_scope.

Section Model.
  Context {fo : fops}.

  (** [y.max()], [y.min()] of an array without nan *)
  Definition fmax (y : list F) : F := fold_right (fun a b => if flt a b then b else a) (hd f0 y) y.
  Definition fmin (y : list F) : F := fold_right (fun a b => if flt b a then b else a) (hd f0 y) y.

  (** BART.py:320-325 [_process_scale_settings]. Simplification: the code
      multiplies [2 * k] in double precision if [k] is a Python float. *)
  Definition scale_of (y : list F) (k : F) : F :=
    if zlen y <? 2 then f1 else fdiv (fsub (fmax y) (fmin y)) (fmul (fofZ 2) k).

  (** BART.py:338-340 [_transform_input] *)
  Definition standardize (y : list F) (offset scale : F) : list F :=
    map (fun v => fdiv (fsub v offset) scale) y.

  (** BART.py:199 [lamda_scaled = lamda / (scale * scale)] *)
  Definition scaled_lamda (lamda scale : F) : F := fdiv lamda (fmul scale scale).
End Model.
