(** The two trees between which a proposal moves. Of the model only the fields
    of a tree and of a proposal are used. *)
From Coq Require Import ZArith List Bool.
From Verif Require Import Base ModelStep.
Import ListNotations.
Open Scope Z_scope.

(** [l] with entry [i] replaced by [v] *)
Definition put (l : list Z) (i v : Z) : list Z :=
  firstn (Z.to_nat i) l ++ v :: skipn (S (Z.to_nat i)) l.

Section Proposal.
  Context {fo : fops}.

  (** The rules (variables, cutpoints) of the tree where the node of the
      proposal is a leaf: the current one if growth is proposed, the proposed
      one if pruning is. *)
  Definition small_rules (t : tree) (m : move) : list Z * list Z :=
    if m_grow m then (t_var t, t_split t)
    else (t_var t, put (t_split t) (m_node m) 0).

  (** The rules of the tree where the node has the proposed rule, or the
      current one if pruning is proposed. *)
  Definition big_rules (t : tree) (m : move) : list Z * list Z :=
    if m_grow m
    then (put (t_var t) (m_node m) (m_grow_var m), put (t_split t) (m_node m) (m_grow_split m))
    else (t_var t, t_split t).

  (** The proposed tree *)
  Definition proposed_rules (t : tree) (m : move) : list Z * list Z :=
    if m_grow m then big_rules t m else small_rules t m.
End Proposal.
