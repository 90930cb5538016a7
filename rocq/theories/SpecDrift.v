(** The residuals in any arithmetic, and bounds in single precision. Of the model
    only the states and [step] are used. *)
From Coq Require Import ZArith List Bool Reals.
From Flocq Require Import Core BinarySingleNaN.
From Verif Require Import Base ModelStep SpecTree Laws32.
Import ListNotations.
Open Scope Z_scope.

Section Any.
  Context {fo : fops}.

  (** The value of a tree at a point *)
  Definition value_of (d : Z) (t : tree) (x : Z -> Z) : F :=
    dt_eval (tree_of f0 d (t_leaf t, t_var t, t_split t)) x.

  (** The residual at a point after some trees have been replaced one by one:
      the value of the old tree minus the value of the new tree is added. *)
  Definition residual_after (d : Z) (old new : list tree) (x : Z -> Z) (r : F) : F :=
    fold_left (fun r on => fadd r (fsub (value_of d (fst on) x) (value_of d (snd on) x)))
      (combine old new) r.
End Any.

Section Single.
  Context {log log1p : b32 -> b32}.
  Let ops := ops32 log log1p.

  (** Finite and at most [B] in absolute value *)
  Definition within (B : R) (v : b32) : Prop := is_finite v = true /\ (Rabs (B2R v) <= B)%R.

  (** In a step from state [b] to [b'] all the values of the trees at a point,
      and the residual after each update of a tree, are finite and at most [B]. *)
  Definition step_within (B : R) (d : Z) (b b' : @bart ops) (x : Z -> Z) (r : b32) : Prop :=
    (forall t, In t (trees b ++ trees b') -> within B (value_of d t x)) /\
    (forall m, within B (residual_after d (firstn m (trees b)) (firstn m (trees b')) x r)).

  (** Response minus the sum of the values of the trees, in exact arithmetic *)
  Definition true_residual (d : Z) (b : @bart ops) (x : Z -> Z) (yv : b32) : R :=
    B2R yv - fold_right Rplus 0%R (map (fun t : @tree ops => B2R (value_of d t x : b32)) (trees b)).
End Single.
