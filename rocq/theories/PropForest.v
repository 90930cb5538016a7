(** Properties of the forests reached by the sampler, for any float arithmetic
    and any random outcomes: C05, C06, C08-C12, C17. *)
From Coq Require Import ZArith List Bool Lia.
From Verif Require Import Base LemBase ModelJaxext ModelGrove ModelStep SpecTree
  SpecRange SpecForest SpecRun Laws ProofTree ProofRange ProofRoute ProofMoves ProofStep ProofRun ProofForest
  Examples ExampleRun.
Import ListNotations.
Open Scope Z_scope.

Section Props.
  Context {fo : fops} {zo : zoob} {foo : foob fo} {fl : flaws fo}.

  (** C05. Every reached forest has the requested number of trees, of the
      right sizes, with slot 0 unused and no stray decision nodes. *)
  Theorem C05_forest_well_formed : forall s b, settings_ok s -> reached s b ->
    zlen (trees b) = Z.max 0 (i_num_trees s) /\
    forall t, In t (trees b) ->
      zlen (t_leaf t) = 2 ^ depth_of s /\
      zlen (t_var t) = 2 ^ (depth_of s - 1) /\
      zlen (t_split t) = 2 ^ (depth_of s - 1) /\
      entry (t_var t) 0 = 0 /\ entry (t_split t) 0 = 0 /\
      no_stray (t_split t).
  Proof.
    intros s b OK R.
    destruct (reached_fields s b R) as (_ & _ & _ & _ & ED & _ & _ & EN & _).
    split.
    - rewrite EN. unfold init_of, init. cbn [trees]. unfold full, zlen. rewrite repeat_length. lia.
    - intros t Ht. pose proof (in_trees _ (reached_inv s OK b R) t Ht) as T.
      rewrite <- ED. repeat split; apply T.
  Qed.

  (** C06. The cached leaf index of every datapoint is the leaf where the
      current tree sends it, which is also what a fresh traversal returns. *)
  Theorem C06_leaf_indices : forall s b t, settings_ok s -> reached s b -> In t (trees b) ->
    t_idx t = map (fun x => leaf_of (Z.to_nat (depth_of s) - 1) x (t_var t) (t_split t) 1)
                (points_of s) /\
    t_idx t = map (fun x => traverse_tree x (t_var t) (t_split t)) (i_X s).
  Proof.
    intros s b t OK R Ht. pose proof (reached_inv s OK b R) as I.
    destruct (reached_fields s b R) as (EX & _ & _ & _ & ED & _).
    unfold points_of. rewrite <- ED, <- EX. split.
    - now apply idx_leaf_of.
    - apply (in_trees _ I t Ht).
  Qed.

  (** C08. Every leaf of a tree with at least one decision node contains at
      least the minimum number of points. *)
  Theorem C08_min_points_per_leaf : forall s b t m, settings_ok s -> reached s b ->
    In t (trees b) -> i_min_points s = Some m ->
    (exists i, decision (t_split t) i) ->
    forall i, leaf_node (t_split t) i ->
      m <= points_in (depth_of s) (points_of s) (t_var t) (t_split t) i.
  Proof.
    intros s b t m OK R Ht Em [j Dj] i L. pose proof (reached_inv s OK b R) as I.
    destruct (reached_fields s b R) as (EX & _ & _ & Emp & ED & _).
    unfold points_of. rewrite <- ED, <- EX. fold (pts b).
    rewrite <- occ_points_in by auto. pose proof (in_trees _ I t Ht) as T.
    apply (ti_min _ _ T); auto; [congruence |].
    pose proof (ti_stray _ _ T j Dj) as Rj. pose proof (reachable_pos _ _ Rj).
    destruct (under_root j) as [-> | [b0 H']]; auto. eapply reachable_above; eauto; lia.
  Qed.

  (** C09. The leaves that can be proposed for growth: leaves above the bottom
      level with at least twice the minimum number of points. *)
  Definition affluent_leaf (s : settings) (t : tree) (i : Z) : Prop :=
    leaf_node (t_split t) i /\ i < 2 ^ (depth_of s - 1) /\
    forall m, i_min_points s = Some m ->
      2 * m <= points_in (depth_of s) (points_of s) (t_var t) (t_split t) i.

  Theorem C09_growable_leaves : forall s b t, settings_ok s -> reached s b -> In t (trees b) ->
    zlen (growable_leaves (t_split t) (t_aff t)) = 2 ^ (depth_of s - 1) /\
    forall i, 0 <= i < 2 ^ (depth_of s - 1) ->
      (zget false (growable_leaves (t_split t) (t_aff t)) i = true <-> affluent_leaf s t i).
  Proof.
    intros s b t OK R Ht. pose proof (reached_inv s OK b R) as I.
    destruct (reached_fields s b R) as (EX & _ & _ & Emp & ED & _).
    unfold affluent_leaf, points_of. rewrite <- ED, <- EX, <- Emp. split.
    - apply (zlen_growable b). now apply (in_trees _ I).
    - intros i Hi. now apply growable_mask.
  Qed.

  (** C10. With at least one point per leaf and data within the bins, every
      decision node uses an existing predictor with an available cutpoint. *)
  Theorem C10_rules_valid : forall s b t m, settings_ok s -> reached s b -> In t (trees b) ->
    i_min_points s = Some m -> 1 <= m ->
    (forall x, In x (i_X s) -> zlen x = zlen (i_max_split s)) ->
    (forall x v, In x (i_X s) -> 0 <= v < zlen (i_max_split s) ->
       0 <= entry x v <= entry (i_max_split s) v) ->
    forall i, decision (t_split t) i ->
      0 <= entry (t_var t) i < zlen (i_max_split s) /\
      1 <= entry (t_split t) i <= entry (i_max_split s) (entry (t_var t) i) /\
      valid_rule (t_var t) (t_split t) (i_max_split s) i.
  Proof.
    intros s b t m OK R Ht Em Hm HL HB i D.
    destruct (rules_reached s OK m Em Hm HL HB b R t Ht i D) as [H1 H2].
    split; auto. split; auto. apply H2.
  Qed.

  (** C10. In particular a predictor without cutpoints is not used. *)
  Theorem C10_no_useless_predictor : forall s b t m, settings_ok s -> reached s b -> In t (trees b) ->
    i_min_points s = Some m -> 1 <= m ->
    (forall x, In x (i_X s) -> zlen x = zlen (i_max_split s)) ->
    (forall x v, In x (i_X s) -> 0 <= v < zlen (i_max_split s) ->
       0 <= entry x v <= entry (i_max_split s) v) ->
    forall i, decision (t_split t) i -> entry (i_max_split s) (entry (t_var t) i) <> 0.
  Proof.
    intros s b t m OK R Ht Em Hm HL HB i D.
    destruct (C10_rules_valid s b t m OK R Ht Em Hm HL HB i D) as (_ & H & _). lia.
  Qed.

  (** C11. With fewer than twice the minimum number of points no tree has a
      decision node, so the forest has the same value everywhere. *)
  Theorem C11_constant : forall s b m, settings_ok s -> reached s b ->
    i_min_points s = Some m -> zlen (i_X s) < 2 * m ->
    (forall t i, In t (trees b) -> ~ decision (t_split t) i) /\
    forall x x', evaluate_forest [x] (map (fun t => (t_leaf t, t_var t, t_split t)) (trees b)) =
                 evaluate_forest [x'] (map (fun t => (t_leaf t, t_var t, t_split t)) (trees b)).
  Proof.
    intros s b m OK R Em Hn. pose proof (reached_inv s OK b R) as I.
    destruct (reached_fields s b R) as (EX & _ & _ & Emp & ED & _).
    assert (N : forall t i, In t (trees b) -> ~ decision (t_split t) i).
    { intros t i Ht. apply (few_points b I m); congruence. }
    split; auto. intros x x'.
    assert (Fa : Forall (tree_arrays (bd b)) (map (fun t => (t_leaf t, t_var t, t_split t)) (trees b))).
    { apply Forall_forall. intros a Ha. apply in_map_iff in Ha. destruct Ha as (t & <- & Ht).
      pose proof (in_trees _ I t Ht) as T. repeat split; apply T. }
    pose proof (bd_range b I). rewrite !(evaluate_forest_spec (bd b)) by (auto; lia).
    cbn [map]. rewrite !map_map. f_equal. f_equal. apply map_ext_in. intros t Ht.
    assert (E : forall z, dt_eval (tree_of f0 (bd b) (t_leaf t, t_var t, t_split t)) z =
                          nth (Z.to_nat 1) (t_leaf t) f0).
    { intros z. unfold tree_of. destruct (Z.to_nat (bd b - 1)); cbn [decode fst snd]; auto.
      destruct (Z.eqb_spec (entry (t_split t) 1) 0); auto.
      elim (N t 1 Ht). split; [lia | assumption]. }
    now rewrite !E.
  Qed.

  Section OneStep.
    Context {g : rng fo} {rl : rlaws g}.

    (** C12. What is proposed for each tree *)
    Theorem C12_proposals : forall s b k j t m, settings_ok s -> reached s b ->
      nth_error (trees b) j = Some t -> nth_error (sample_moves b k) j = Some m ->
      let can_grow := exists i, affluent_leaf s t i in
      let can_prune := exists i, decision (t_split t) i in
      (m_grow m = true -> can_grow) /\
      (m_allowed m = true -> m_grow m = false -> can_prune) /\
      (can_grow -> ~ can_prune -> m_allowed m = true /\ m_grow m = true) /\
      (can_prune -> ~ can_grow -> m_allowed m = true /\ m_grow m = false) /\
      (can_grow \/ can_prune <-> m_allowed m = true) /\
      ((forall x, In x (i_p_nonterminal s) -> flt f0 x = true) -> m_allowed m = true ->
         if m_grow m then affluent_leaf s t (m_node m)
         else decision (t_split t) (m_node m) /\ ~ decision (t_split t) (2 * m_node m) /\
              ~ decision (t_split t) (2 * m_node m + 1)).
    Proof. apply @moves_reached; assumption. Qed.

    (** C12. Acceptances are at most the proposals, which are at most the
        number of trees, and equal to it if all trees can move. *)
    Theorem C12_counters : forall s b k, settings_ok s -> reached s b ->
      let b' := step b k in
      0 <= grow_acc_count b' <= grow_prop_count b' /\
      0 <= prune_acc_count b' <= prune_prop_count b' /\
      grow_prop_count b' + prune_prop_count b' <= zlen (trees b) /\
      ((forall t, In t (trees b) ->
          (exists i, affluent_leaf s t i) \/ (exists i, decision (t_split t) i)) ->
       grow_prop_count b' + prune_prop_count b' = zlen (trees b)).
    Proof.
      intros s b k OK R. pose proof (reached_inv s OK b R) as I.
      destruct (reached_fields s b R) as (EX & _ & _ & Emp & ED & _).
      destruct (counters_bounds b I k) as (H1 & H2 & H3 & H4).
      repeat split; try tauto. intros H. apply H4. intros t Ht.
      destruct (H t Ht) as [[i L] | [i D]].
      - left. exists i. unfold affluent_leaf, points_of in L.
        rewrite <- ED, <- EX, <- Emp in L. exact L.
      - right. pose proof (in_trees _ I t Ht) as T.
        pose proof (ti_stray _ _ T i D) as Ri. pose proof (reachable_pos _ _ Ri).
        destruct (under_root i) as [-> | [b0 H']]; auto. eapply reachable_above; eauto; lia.
    Qed.

    (** C17. A step leaves each tree as it is, or replaces one leaf by a
        decision node with two leaves, or does the inverse; the numbers of such
        changes are the acceptance counters. *)
    Theorem C17_one_change_per_tree : forall s b k, settings_ok s -> reached s b ->
      let b' := step b k in
      length (trees b') = length (trees b) /\
      exists cs : list change,
        length cs = length (trees b) /\
        (forall j t t' c, nth_error (trees b) j = Some t -> nth_error (trees b') j = Some t' ->
           nth_error cs j = Some c ->
           changed c (structure (depth_of s) (t_var t) (t_split t))
                     (structure (depth_of s) (t_var t') (t_split t'))) /\
        ((forall x, In x (i_p_nonterminal s) -> flt f0 x = true) ->
         count_nonzero (map is_grown cs) = grow_acc_count b' /\
         count_nonzero (map is_pruned cs) = prune_acc_count b').
    Proof.
      intros s b k OK R. pose proof (reached_inv s OK b R) as I.
      destruct (reached_fields s b R) as (EX & _ & _ & Emp & ED & _).
      destruct (step_changes b I k) as (H1 & cs & H2 & H3 & H4).
      rewrite <- ED. split; auto. exists cs. split; auto. split; auto.
      intros Hp. apply H4. now apply (ppg_positive s).
    Qed.
  End OneStep.
End Props.
Print Assumptions C05_forest_well_formed.
Print Assumptions C06_leaf_indices.
Print Assumptions C08_min_points_per_leaf.
Print Assumptions C09_growable_leaves.
Print Assumptions C10_rules_valid.
Print Assumptions C10_no_useless_predictor.
Print Assumptions C11_constant.
Print Assumptions C12_proposals.
Print Assumptions C12_counters.
Print Assumptions C17_one_change_per_tree.

(** ** A concrete execution: 6 points, 2 predictors, 3 trees, depth 4, at least
    one point per leaf, 5 steps (see ExampleRun.v). It meets the hypotheses of
    all the theorems above, and the trees are not trivial: in the fifth step
    the first tree is pruned and the third is grown. *)
Example execution_example :
  settings_ok ex_settings /\
  reached (zo := zclip) (foo := xclip) ex_settings (ex_run 4) /\
  reached (zo := zclip) (foo := xclip) ex_settings (ex_run 5) /\
  ex_run 5 = step (zo := zclip) (foo := xclip) (g := xrng) (ex_run 4) (KRoot 4) /\
  (forall x, In x (i_p_nonterminal ex_settings) -> @flt xops f0 x = true) /\
  i_min_points ex_settings = Some 1 /\
  (forall x, In x (i_X ex_settings) -> zlen x = zlen (i_max_split ex_settings)) /\
  (forall x v, In x (i_X ex_settings) -> 0 <= v < zlen (i_max_split ex_settings) ->
     0 <= entry x v <= entry (i_max_split ex_settings) v) /\
  map (fun t => (t_var t, t_split t)) (trees (ex_run 4)) =
    [([0; 0; 0; 1; 0; 0; 0; 0], [0; 1; 0; 1; 0; 0; 0; 0]);
     ([0; 0; 1; 0; 0; 0; 0; 0], [0; 3; 0; 0; 0; 0; 0; 0]);
     ([0; 1; 0; 0; 0; 0; 1; 0], [0; 1; 0; 0; 0; 0; 0; 0])] /\
  map (fun t => (t_var t, t_split t)) (trees (ex_run 5)) =
    [([0; 0; 1; 1; 0; 0; 0; 0], [0; 1; 0; 0; 0; 0; 0; 0]);
     ([0; 0; 0; 0; 0; 0; 0; 0], [0; 3; 0; 0; 0; 0; 0; 0]);
     ([0; 1; 0; 1; 0; 0; 1; 0], [0; 1; 0; 2; 0; 0; 0; 0])] /\
  map t_idx (trees (ex_run 5)) =
    [[2; 3; 3; 3; 2; 3]; [2; 2; 2; 3; 2; 2]; [7; 2; 6; 7; 2; 7]] /\
  (grow_acc_count (ex_run 5), prune_acc_count (ex_run 5),
   grow_prop_count (ex_run 5), prune_prop_count (ex_run 5)) = (1, 1, 1, 2).
Proof.
  assert (B : forall x, In x (i_X ex_settings) -> exists a c, x = [a; c] /\ 0 <= a <= 3 /\ 0 <= c <= 2).
  { intros x Hx. cbn [ex_settings i_X] in Hx.
    repeat destruct Hx as [<- | Hx]; [ .. | destruct Hx]; do 2 eexists; (split; [reflexivity | lia]). }
  split; [apply ex_settings_ok |]. split; [apply ex_reached |]. split; [apply ex_reached |].
  split; [reflexivity |].
  split.
  { intros x Hx. cbn [ex_settings i_p_nonterminal] in Hx.
    repeat destruct Hx as [<- | Hx]; [ .. | destruct Hx]; reflexivity. }
  split; [reflexivity |].
  split; [intros x Hx; destruct (B x Hx) as (a & c & -> & _); reflexivity |].
  split.
  { intros x v Hx Hv. destruct (B x Hx) as (a & c & -> & H1 & H2).
    change (zlen (i_max_split ex_settings)) with 2 in Hv.
    assert (v = 0 \/ v = 1) as [-> | ->] by lia; unfold entry; simpl; lia. }
  repeat split; vm_compute; reflexivity.
Qed.

(** C11 with the same data and 4 points per leaf: 6 < 8 *)
Definition few_settings : @settings xops :=
  @mksettings xops (i_X ex_settings) (i_y ex_settings) (i_max_split ex_settings) 8 2
    (i_p_nonterminal ex_settings) xone xone (Some 4) None None false.
Example C11_example : settings_ok few_settings /\
  reached (zo := zclip) (foo := xclip) few_settings (init_of (foo := xclip) few_settings) /\
  i_min_points few_settings = Some 4 /\ zlen (i_X few_settings) < 2 * 4.
Proof.
  pose proof ex_settings_ok as []. split.
  - constructor; auto; try discriminate. right. exists 4. split; [reflexivity | lia].
  - split; [constructor |]. split; [reflexivity |]. unfold zlen. simpl. lia.
Qed.
