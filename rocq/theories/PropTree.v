(** Properties C01-C04: evaluation and inspection of trees (grove.py). *)
From Coq Require Import ZArith QArith List Bool Lia.
From Verif Require Import Base LemBase ModelJaxext ModelGrove SpecTree ProofTree Examples.
Import ListNotations.
Open Scope Z_scope.

(** C01. The traversal returns j iff following the decision rules from the
    root stops at j. [gather zmode x v] is jax's [x[v]]. No hypothesis on the
    content of the arrays. *)
Theorem C01_traverse : forall {zo : zoob} d x var split j,
  1 <= d <= 64 -> zlen var = heap_size d -> zlen split = heap_size d ->
  (traverse_tree x var split = j <-> route (gather zmode x) var split 1 j).
Proof. exact @traverse_tree_spec. Qed.
Print Assumptions C01_traverse.

(** C01. Values of all trees at all points *)
Theorem C01_evaluate_trees :
  forall {fo : fops} {zo : zoob} {foo : foob fo} d X trees,
  1 <= d <= 64 -> Forall (tree_arrays d) trees ->
  evaluate_forest_nosum X trees =
  map (fun t => map (fun x => dt_eval (tree_of f0 d t) (gather zmode x)) X) trees.
Proof. exact @evaluate_forest_nosum_spec. Qed.
Print Assumptions C01_evaluate_trees.

(** C01. Sum over trees *)
Theorem C01_evaluate_sum :
  forall {fo : fops} {zo : zoob} {foo : foob fo} d X trees,
  1 <= d <= 64 -> Forall (tree_arrays d) trees ->
  evaluate_forest X trees =
  map (fun x => fold_left fadd
         (map (fun t => dt_eval (tree_of f0 d t) (gather zmode x)) trees) f0) X.
Proof. exact @evaluate_forest_spec. Qed.
Print Assumptions C01_evaluate_sum.

(** A tree of depth 3: root on variable 1 at 5, its right child on variable 0
    at 2. *)
Definition ex_var : list Z := [0; 1; 0; 0].
Definition ex_split : list Z := [0; 5; 0; 2].
Definition ex_leaf : list Q := map inject_Z [0; 0; 10; 0; 0; 0; 20; 30].
Example C01_example :
  zlen ex_var = heap_size 3 /\ zlen ex_split = heap_size 3 /\
  tree_arrays 3 (ex_leaf, ex_var, ex_split) /\
  @traverse_tree zclip [9; 5] ex_var ex_split = 7 /\
  tree_of 0%Q 3 (ex_leaf, ex_var, ex_split) =
    DNode 1 5 (DLeaf 10%Q) (DNode 0 2 (DLeaf 20%Q) (DLeaf 30%Q)) /\
  @evaluate_forest zclip qops qclip [[9; 5]; [1; 5]; [1; 4]]
    [(ex_leaf, ex_var, ex_split); (ex_leaf, ex_var, ex_split)] = [60; 40; 20]%Q.
Proof. repeat split. Qed.

(** C02. The mask of the leaves, with or without the bottom level *)
Theorem C02_is_actual_leaf : forall {zo : zoob} split add_bottom_level i,
  no_stray split -> 0 <= i < zlen (is_actual_leaf split add_bottom_level) ->
  (zget false (is_actual_leaf split add_bottom_level) i = true <-> leaf_node split i).
Proof. exact @is_actual_leaf_spec. Qed.
Print Assumptions C02_is_actual_leaf.

(** C02. Every point lands on a leaf, marked in the mask with the bottom level *)
Theorem C02_points_land_on_leaves : forall {zo : zoob} d x var split,
  1 <= d <= 64 -> zlen var = heap_size d -> zlen split = heap_size d -> no_stray split ->
  leaf_node split (traverse_tree x var split) /\
  zlen (is_actual_leaf split true) = 2 ^ d /\
  zget false (is_actual_leaf split true) (traverse_tree x var split) = true.
Proof.
  intros zo d x var sp Hd Hv Hs W.
  assert (L : leaf_node sp (traverse_tree x var sp)).
  { eapply route_leaf; [now apply (traverse_tree_route d) | constructor]. }
  pose proof (traverse_bounds d x _ _ Hd Hv Hs).
  pose proof (heap_2 d ltac:(lia)).
  split; auto. split; [rewrite zlen_is_actual_leaf; lia |].
  apply is_actual_leaf_spec; auto. rewrite zlen_is_actual_leaf; lia.
Qed.
Print Assumptions C02_points_land_on_leaves.

Example C02_example :
  no_stray ex_split /\
  @is_actual_leaf zclip ex_split false = [false; false; true; false] /\
  @is_actual_leaf zfill ex_split true =
    [false; false; true; false; false; false; true; true] /\
  leaf_node ex_split 7 /\ ~ leaf_node ex_split 4.
Proof.
  assert (W : no_stray ex_split).
  { intros i D. pose proof (decision_lt _ _ D) as Hi. destruct D as [H1 H2].
    change (zlen ex_split) with 4 in Hi.
    assert (E : i = 1 \/ i = 2 \/ i = 3) by lia.
    destruct E as [-> | [-> | ->]]; try constructor; try (now elim H2).
    apply (reach_right ex_split 1); [constructor | split; [lia | discriminate]]. }
  split; [exact W |]. split; [reflexivity |]. split; [reflexivity |].
  split.
  - apply (@is_actual_leaf_spec zclip ex_split true 7); auto. vm_compute; split; congruence.
  - intros L. apply (@is_actual_leaf_spec zclip ex_split true 4) in L; auto; [discriminate |].
    vm_compute; split; congruence.
Qed.

(** C03. The mask of the nodes that can be pruned, for any array *)
Theorem C03_is_leaves_parent : forall d split i,
  1 <= d <= 64 -> zlen split = heap_size d -> 0 <= i < zlen split ->
  (zget false (is_leaves_parent split) i = true <->
   decision split i /\ ~ decision split (2 * i) /\ ~ decision split (2 * i + 1)).
Proof. exact is_leaves_parent_spec. Qed.
Print Assumptions C03_is_leaves_parent.

(** C03. On a tree without stray nodes: decision nodes with two leaf children *)
Theorem C03_is_leaves_parent_leaves : forall d split i,
  1 <= d <= 64 -> zlen split = heap_size d -> no_stray split -> 0 <= i < zlen split ->
  (zget false (is_leaves_parent split) i = true <->
   decision split i /\ leaf_node split (2 * i) /\ leaf_node split (2 * i + 1)).
Proof.
  intros d sp i Hd Hs W Hi. rewrite (is_leaves_parent_spec d) by auto.
  unfold leaf_node. split.
  - intros (D & H1 & H2). pose proof (W _ D).
    split; [exact D |]. split; (split; [now constructor | assumption]).
  - tauto.
Qed.
Print Assumptions C03_is_leaves_parent_leaves.

(** C03. Something can be pruned iff the root is a decision node. *)
Theorem C03_prunable_iff : forall d split,
  1 <= d <= 64 -> zlen split = heap_size d -> no_stray split ->
  (In true (is_leaves_parent split) <-> decision split 1).
Proof.
  intros d sp Hd Hs W. split.
  - intros H. apply In_zget with (d := false) in H. destruct H as (i & Hi & E).
    rewrite zlen_is_leaves_parent in Hi. apply (is_leaves_parent_spec d) in E; auto.
    destruct E as [D _]. pose proof (W _ D) as R. clear -R D.
    induction R; auto.
  - intros D. apply leaves_parent_exists in D. destruct D as (i & R & D & H).
    pose proof (decision_lt _ _ D). pose proof (reachable_pos _ _ R).
    rewrite <- (proj2 (is_leaves_parent_spec d sp i Hd Hs ltac:(lia))) by auto.
    apply zget_In. rewrite zlen_is_leaves_parent. lia.
Qed.
Print Assumptions C03_prunable_iff.

Example C03_example :
  is_leaves_parent ex_split = [false; false; false; true].
Proof. reflexivity. Qed.

(** C04 *)
Theorem C04_make_tree : forall A (zero : A) depth,
  0 <= depth ->
  zlen (make_tree depth zero) = 2 ^ depth /\
  (forall v, In v (make_tree depth zero) -> v = zero) /\
  tree_depth (make_tree depth zero) = depth.
Proof.
  intros A zero depth H. split; [now apply zlen_make_tree |]. split.
  - intros v Hv. now apply repeat_spec in Hv.
  - apply tree_depth_pow2; auto. now apply zlen_make_tree.
Qed.
Print Assumptions C04_make_tree.

Theorem C04_tree_depths : forall n,
  1 <= n ->
  zlen (tree_depths n) = n /\ zget 0 (tree_depths n) 0 = 0 /\
  forall i k, i < n -> at_depth i k -> zget 0 (tree_depths n) i = k.
Proof.
  intros n Hn. split; [apply zlen_tree_depths; lia |].
  split; [now apply zget_tree_depths_0 |].
  intros i k Hi H. pose proof (at_depth_pos _ _ H).
  rewrite zget_tree_depths by lia. now apply at_depth_log2.
Qed.
Print Assumptions C04_tree_depths.

(** every node has a depth *)
Theorem C04_every_node_has_a_depth : forall i, 1 <= i -> exists! k, at_depth i k.
Proof.
  intros i Hi. exists (Z.log2 i). split; [now apply at_depth_exists |].
  intros k H. now apply at_depth_log2.
Qed.
Print Assumptions C04_every_node_has_a_depth.

Example C04_example :
  tree_depths 8 = [0; 0; 1; 1; 2; 2; 2; 2] /\ make_tree 2 7 = [7; 7; 7; 7] /\
  at_depth 6 2.
Proof. repeat split. exact (ad_left 3 1 (ad_right 1 0 ad_root)). Qed.
