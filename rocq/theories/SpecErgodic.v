(** Which forests can be visited. Of the model only [step] is used. *)
From Coq Require Import ZArith List Bool Reals.
From Verif Require Import Base Laws ModelStep SpecTree SpecForest SpecRun SpecExact SpecBalance.
Import ListNotations.
Open Scope Z_scope.

(** Number of decision nodes *)
Fixpoint size (T : dtree unit) : Z :=
  match T with
  | DLeaf _ => 0
  | DNode _ _ l r => 1 + size l + size r
  end.

(** The tree has at most [levels] levels of decision nodes, uses the
    predictors 0, ..., p-1, and has at least [c] of the points in each leaf. *)
Fixpoint filled (p c : Z) (levels : nat) (T : dtree unit) (points : list (Z -> Z)) {struct T} : Prop :=
  match T with
  | DLeaf _ => c <= zlen points
  | DNode v cut l r =>
    match levels with
    | O => False
    | S levels =>
      0 <= v < p /\
      filled p c levels l (filter (fun x => x v <? cut) points) /\
      filled p c levels r (filter (fun x => negb (x v <? cut)) points)
    end
  end.

(** The structures the model considers: the single leaf, whatever the number of
    points, or trees with enough points in each leaf. *)
Definition admissible {zo : zoob} (s : @settings rops) (c : Z) (T : dtree unit) : Prop :=
  T = DLeaf tt \/ filled (zlen (i_max_split s)) c (Z.to_nat (depth_of s) - 1) T (points_of s).

(** Some outcomes of the draws lead from a state to another in any number of
    steps. *)
Inductive leads_to {zo : zoob} {foo : foob rops} : @bart rops -> @bart rops -> Prop :=
| leads_here b : leads_to b b
| leads_step b b' (g : rng rops) k : real_rng g -> leads_to (step b k) b' -> leads_to b b'.
