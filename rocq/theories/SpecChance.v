(** Probabilities of events that depend on a random generator. Of the model
    only the type of generators is used. *)
From Coq Require Import ZArith List Bool Reals.
From Verif Require Import Base Laws SpecTree SpecMH.
Import ListNotations.
Open Scope Z_scope.

(** A draw of the generator *)
Inductive site :=
| Unif (k : key) (i : Z)  (* entry i of random.uniform(k, shape): uniform in [0, 1) *)
| UnifTo (k : key)        (* random.uniform(k, (), 0, hi): uniform in [0, hi) *)
| Int (k : key).          (* the bits of random.randint(k, ...): their remainder by
                             any n > 0 is uniform in 0, ..., n-1 *)

Definition same_at (g g' : rng rops) (s : site) : Prop :=
  match s with
  | Unif k i => r_unif (rng := g) k i = r_unif (rng := g') k i
  | UnifTo k => forall hi, r_unif_to (rng := g) k hi = r_unif_to (rng := g') k hi
  | Int k => r_bits (rng := g) k = r_bits (rng := g') k
  end.

(** The generators differ only in the draws [l]. *)
Definition differ_only_at (l : list site) (g g' : rng rops) : Prop :=
  (forall s, ~ In s l -> same_at g g' s) /\
  (forall k i, r_normal (rng := g) k i = r_normal (rng := g') k i) /\
  (forall k a, r_gamma (rng := g) k a = r_gamma (rng := g') k a).

(** A condition on one draw *)
Inductive condition :=
| UnifIn (k : key) (i : Z) (a b : R)     (* a <= draw < b, 0 <= a <= b <= 1 *)
| UnifToIn (k : key) (hi a b : R)        (* a <= draw < b, 0 <= a <= b <= hi, 0 < hi *)
| IntIs (k : key) (n j : Z).             (* draw = j, 0 <= j < n *)

Definition cond_site (c : condition) : site :=
  match c with UnifIn k i _ _ => Unif k i | UnifToIn k _ _ _ => UnifTo k | IntIs k _ _ => Int k end.

Definition proper (c : condition) : Prop :=
  match c with
  | UnifIn _ _ a b => (0 <= a <= b /\ b <= 1)%R
  | UnifToIn _ hi a b => (0 < hi /\ 0 <= a <= b /\ b <= hi)%R
  | IntIs _ n j => 0 <= j < n
  end.

Definition holds (g : rng rops) (c : condition) : Prop :=
  match c with
  | UnifIn k i a b => (a <= r_unif (rng := g) k i < b)%R
  | UnifToIn k hi a b => (a <= r_unif_to (rng := g) k (hi : @F rops) < b)%R
  | IntIs k n j => r_bits (rng := g) k mod n = j
  end.

Definition chance (c : condition) : R :=
  match c with
  | UnifIn _ _ a b => b - a
  | UnifToIn _ hi a b => (b - a) / hi
  | IntIs _ n _ => 1 / IZR n
  end.

(** Given the draws outside [l], which are those of [g], event [E] has
    probability [q]: it happens when certain conditions, one for each draw in
    [l], all hold; the draws are independent. *)
Definition has_probability (l : list site) (g : rng rops) (E : rng rops -> Prop) (q : R) : Prop :=
  exists cs : list condition,
    Forall proper cs /\ map cond_site cs = l /\
    q = fold_right Rmult 1%R (map chance cs) /\
    forall g', real_rng g' -> differ_only_at l g g' ->
      (E g' <-> Forall (holds g') cs).

(** The draws for the update of tree number [m] out of [ntree], in a step with
    key [k]: whether to grow or prune, which leaf to grow, which variable, which
    cutpoint, which node to prune, whether to accept. The leaf values are
    normal draws. *)
Definition tree_sites (k : key) (ntree m : Z) : list site :=
  let km := KSplit (KSplit k 2 1) 2 1 in
  let key0 := KSplit km (1 + ntree) 0 in
  let key := KSplit km (1 + ntree) (1 + m) in
  let grow := KSplit key 2 0 in
  let prune := KSplit key 2 1 in
  [Unif key0 m; UnifTo (KSplit grow 3 0); Int (KSplit grow 3 1); Int (KSplit grow 3 2);
   Int prune; Unif key0 (ntree + m)].

(** ** The rule of a new decision node *)

(** The cutpoints of variable [v] that are available below the rules [above] *)
Definition cuts (max_split : list Z) (above : rules_above) (v : Z) : list Z :=
  filter (fun c => forallb (fun r => match r with (v', s, on_right) =>
      if v' =? v then (if on_right : bool then s <? c else c <? s) else true end) above)
    (map Z.of_nat (seq 1 (Z.to_nat (entry max_split v)))).

(** The variables with available cutpoints, those that have no cutpoints at
    all, and those for which the node is on the right of a rule with the largest
    cutpoint that fits in [bits] bits. The last two kinds can be drawn, although
    they can not give a rule. *)
Definition candidates (bits : Z) (max_split : list Z) (above : rules_above) : list Z :=
  filter (fun v => (entry max_split v =? 0) ||
                   negb (Z.of_nat (length (cuts max_split above v)) =? 0) ||
                   existsb (fun r => match r with (v', s, on_right) =>
                     (v' =? v) && (on_right && (s =? 2 ^ bits - 1)) end) above)
    (map Z.of_nat (seq 0 (length max_split))).

(** A variable is chosen uniformly among the candidates, then one of its
    available cutpoints uniformly. *)
Definition rule_probability (bits : Z) (max_split : list Z) (above : rules_above) (v c : Z) : R :=
  if in_dec Z.eq_dec v (candidates bits max_split above)
  then if in_dec Z.eq_dec c (cuts max_split above v)
       then (1 / IZR (Z.of_nat (length (candidates bits max_split above)))) *
            (1 / IZR (Z.of_nat (length (cuts max_split above v))))
       else 0
  else 0.
