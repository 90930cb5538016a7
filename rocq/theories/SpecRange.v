(** Specification of the cutpoints available at a node. Nothing here uses the
    model. *)
From Coq Require Import ZArith List Bool.
From Verif Require Import SpecTree.
Import ListNotations.
Open Scope Z_scope.

(** [descends a right i]: node [i] lies in the left (right = false) or right
    (right = true) subtree of [a]. *)
Inductive descends (a : Z) : bool -> Z -> Prop :=
| desc_left : descends a false (2 * a)
| desc_right : descends a true (2 * a + 1)
| desc_down_left b i : descends a b i -> descends a b (2 * i)
| desc_down_right b i : descends a b i -> descends a b (2 * i + 1).

(** Cutpoint [s] on variable [v] is available at node [i]: it is one of the
    cutpoints 1, ..., max_split of the variable, and it is beyond the cutpoint
    of every ancestor which uses the same variable, on the side of that
    ancestor where [i] is. *)
Definition available (var split max_split : list Z) (i v s : Z) : Prop :=
  1 <= s <= entry max_split v /\
  forall a b, 1 <= a -> descends a b i -> entry var a = v ->
    if b : bool then entry split a < s else s < entry split a.

(** The rule at node [a] uses an available cutpoint. *)
Definition valid_rule (var split max_split : list Z) (a : Z) : Prop :=
  available var split max_split a (entry var a) (entry split a).
